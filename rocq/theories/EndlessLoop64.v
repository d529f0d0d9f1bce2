(** * EndlessLoop64: a mesh in binary64 on which the conditional Loop filter runs for ever (C109).

    All coordinates are integers, no triangle has more than the maximal area 56 in exact arithmetic. *)
From Coq Require Import Reals Lra.
From Flocq Require Import Core BinarySingleNaN.
From Verif Require Import Base Mesh Filters Drivers Samples Spec SpecSub SpecGeo SpecFlt SpecDrive Lists Check CheckGeo Update Struct GeoProps Face Copy AddFace Drive Cond DriveProps Endless EndlessLoop EndlessLoopReal Stuck64 Endless64 Properties12.
Open Scope R_scope.

Section GENB.
Context {O : Ops}.
Notation point := (list (K O)).
Notation mesh := (mesh O N).
Variable t : K O.
Definition smallb (A B E : point) : bool := negb (kgtb O (area A B E) t) && negb (kgtb O (area B E A) t) && negb (kgtb O (area E A B) t).
Lemma smallb_ok A B E : smallb A B E = true -> small t A B E.
Proof.
  unfold smallb, small. intros H. apply andb_prop in H. destruct H as [H H3]. apply andb_prop in H. destruct H as [H1 H2].
  apply negb_true_iff in H1, H2, H3. split; [exact H1|split; [exact H2|exact H3]].
Qed.
Definition lothersb (m : mesh) (w : tri) : bool :=
  forallb (fun u => eqb_tri u w || let '(a, b, e) := u in match oget a (pts m), oget b (pts m), oget e (pts m) with Some A, Some B, Some E => smallb A B E | _, _, _ => false end) (tris m).
Lemma lothersb_ok m v q c : lothersb m (c, v, q) = true -> lothers t m v q c.
Proof.
  unfold lothersb. rewrite forallb_forall. intros H a b e Hin. specialize (H _ Hin). apply orb_prop in H. destruct H as [H|H].
  - left. apply eqb_tri_eq. exact H.
  - right. cbv beta iota in H. destruct (oget a (pts m)) as [A|] eqn:EA; [|discriminate]. destruct (oget b (pts m)) as [B|] eqn:EB; [|discriminate].
    destruct (oget e (pts m)) as [E|] eqn:EE; [|discriminate]. exists A, B, E. split; [split; [exact EA|split; [exact EB|exact EE]]|apply smallb_ok; exact H].
Qed.
End GENB.

Lemma two_phases {O : Ops} {D : Type} s (t : K O) (L : mesh O D -> Prop) (m0 inp : mesh O D) old f :
  (forall m, L m -> cond_start (CellF s) m) -> (forall m, L m -> long_cells t m <> []) ->
  (forall f m n f1 m1, uniform f = false -> L m -> update (CellF s) n (apply_selection f (asel t m)) m = Ok (f1, m1) -> uniform f1 = false /\ L m1) ->
  (forall f n f1 m1, uniform f = true -> update (CellF s) n (apply_selection f (asel t m0)) m0 = Ok (f1, m1) -> uniform f1 = false /\ L m1) ->
  L m0 -> m0 = copy_geometry inp ->
  diverges (fun fuel => conditional_update fuel (CellF s) (Some (cell_area_criterion t)) old f inp).
Proof.
  intros H1 H2 H3 H4 H5 H6. apply (area_never_f s t (fun f m => (uniform f = false /\ L m) \/ (uniform f = true /\ m = m0))).
  - intros f0 m [[_ H]|[_ ->]]; auto.
  - intros f0 m [[_ H]|[_ ->]]; auto.
  - intros f0 m n f1 m1 [[U H]|[U ->]] E; left; eauto.
  - rewrite <- H6. destruct (uniform f) eqn:U; auto.
Qed.

Section L64.
Variable cosf : N -> binary_float 53 1024.
Notation BC := (BO 53 1024 P53 E1024 cosf 3).

(** Points: 0 v, 1 z, 2 q, 3 c, 4 z', 5 to 11 their further neighbours, and two tori with a hole.  The last triangle
    is the one that is selected again and again. *)
Definition lpoints : list (Z * Z * Z) :=
  [(0, 0, 0); (68, 44, 0); (16, 12, 0); (12, 16, 0); (44, 68, 0); (1, 1, 0); (-1, -1, 0); (12, 12, 0); (69, 45, 0); (67, 43, 0); (43, 67, 0); (45, 69, 0);
   (3, -3, 0); (-3, 3, 0); (-3, -3, 1); (3, 3, 1); (-1, -2, 3); (1, 2, 3); (0, 0, 5);
   (3, -3, -1); (-3, 3, -1); (-3, -3, -2); (3, 3, -2); (-1, -2, -4); (1, 2, -4); (0, 0, -6)]%Z.
Definition hole (s : N) : list (list N) :=
  map (map (N.add s)) [[1; 2; 4]; [2; 5; 4]; [3; 6; 5]; [4; 5; 0]; [4; 0; 6]; [5; 6; 1]; [5; 1; 0]; [6; 0; 2]; [6; 2; 1]]%N.
Definition lcells : list (list N) :=
  [[0; 5; 1]; [0; 1; 2]; [0; 3; 4]; [0; 4; 6]; [1; 5; 8]; [2; 1; 9]; [4; 3; 10]; [6; 4; 11]; [3; 2; 7]]%N ++ hole 12 ++ hole 19 ++ [[3; 0; 2]]%N.
Definition p3 (xyz : Z * Z * Z) : list (binary_float 53 1024) := let '(x, y, z) := xyz in [b64 x 0; b64 y 0; b64 z 0].
Definition lmesh : mesh BC N := build (O := BC) (number (map p3 lpoints)) lcells.
Definition t56 : binary_float 53 1024 := b64 56 0.

Notation PV := (p3 (0, 0, 0)%Z). Notation PZ := (p3 (68, 44, 0)%Z). Notation PQ := (p3 (16, 12, 0)%Z).
Notation PC := (p3 (12, 16, 0)%Z). Notation PZ' := (p3 (44, 68, 0)%Z). Notation PX := (p3 (12, 12, 0)%Z).
Definition LSt (Q C M : list (binary_float 53 1024)) : Prop := Q = PQ /\ C = PC /\ M = PX.
Lemma L_inner Q C M : LSt Q C M -> kgtb BC (@area BC C PV Q) t56 = true.
Proof. intros [-> [-> ->]]. vm_compute. reflexivity. Qed.
Lemma lboth_ok a b c e r : map B2SF (@lmask BC a b c e) = map B2SF r -> map B2SF (@lmask BC b a e c) = map B2SF r -> lboth (O := BC) a b c e r.
Proof. intros; split; apply same_SF; assumption. Qed.
Lemma L_again Q C M : LSt Q C M -> exists Q1 C1 M1, LSt Q1 C1 M1 /\
  lboth (O := BC) PV Q C PZ Q1 /\ lboth (O := BC) Q C PV M M1 /\ lboth (O := BC) C PV Q PZ' C1 /\
  small (O := BC) t56 Q1 PV PZ /\ small (O := BC) t56 Q1 PZ Q /\ small (O := BC) t56 C1 C PZ' /\ small (O := BC) t56 C1 PZ' PV /\
  small (O := BC) t56 Q1 Q M1 /\ small (O := BC) t56 M1 C C1 /\ small (O := BC) t56 Q1 M1 C1 /\ small (O := BC) t56 M1 Q M /\ small (O := BC) t56 M1 M C.
Proof.
  intros [-> [-> ->]]. exists PQ, PC, PX. split; [split; [|split]; reflexivity|].
  split; [apply lboth_ok; vm_compute; reflexivity|]. split; [apply lboth_ok; vm_compute; reflexivity|]. split; [apply lboth_ok; vm_compute; reflexivity|].
  repeat (split; [apply smallb_ok; vm_compute; reflexivity|]). apply smallb_ok; vm_compute; reflexivity.
Qed.

Lemma lmesh_valid : valid lmesh. Proof. apply validb_ok; vm_compute; reflexivity. Qed.
Lemma lmesh_dense : dense lmesh. Proof. apply denseb_ok; vm_compute; reflexivity. Qed.
Lemma lmesh_iso : no_isolated lmesh. Proof. apply no_isolatedb_ok; vm_compute; reflexivity. Qed.
Lemma lmesh_wire : no_wire lmesh. Proof. apply no_wireb_ok; vm_compute; reflexivity. Qed.
Definition first_tris (k : nat) (m : mesh BC N) := firstn k (tris m).
Lemma split_at {A} k (l : list A) x : nth_error l k = Some x -> l = firstn k l ++ x :: skipn (S k) l.
Proof. revert l. induction k as [|k IH]; intros [|y l] H; try discriminate; cbn in *; [congruence|]. f_equal. apply IH. exact H. Qed.
Lemma in_rotb l a b e : existsb (fun u => eqb_tri u (a, b, e) || eqb_tri u (b, e, a) || eqb_tri u (e, a, b)) l = true -> in_rot l a b e.
Proof.
  intros H. apply existsb_exists in H. destruct H as [u [Hu H]]. apply orb_prop in H. destruct H as [H|H]; [apply orb_prop in H; destruct H as [H|H]|];
    apply eqb_tri_eq in H; subst u; unfold in_rot; auto.
Qed.
Lemma pt_ok (m : mesh BC N) k p : option_map (map B2SF) (oget k (pts m)) = Some (map B2SF p) -> oget k (pts m) = Some p.
Proof. destruct (oget k (pts m)) as [p'|]; [|discriminate]. cbn. intros H. injection H as H. f_equal. apply same_SF. exact H. Qed.
Lemma conf_ok (m : mesh BC N) v z q c z' x k : dense m -> nth_error (tris m) k = Some (c, v, q) ->
  (osize (pts m) <=? N.of_nat k)%N = true ->
  existsb (fun u => eqb_tri u (v, z, q) || eqb_tri u (z, q, v) || eqb_tri u (q, v, z)) (firstn k (tris m)) = true ->
  existsb (fun u => eqb_tri u (v, c, z') || eqb_tri u (c, z', v) || eqb_tri u (z', v, c)) (firstn k (tris m)) = true ->
  is_faceb m c q x = true -> z <> c -> z' <> q -> x <> v ->
  option_map (map B2SF) (oget v (pts m)) = Some (map B2SF PV) -> option_map (map B2SF) (oget z (pts m)) = Some (map B2SF PZ) ->
  option_map (map B2SF) (oget q (pts m)) = Some (map B2SF PQ) -> option_map (map B2SF) (oget c (pts m)) = Some (map B2SF PC) ->
  option_map (map B2SF) (oget z' (pts m)) = Some (map B2SF PZ') -> option_map (map B2SF) (oget x (pts m)) = Some (map B2SF PX) ->
  lconf (O := BC) PV PZ PZ' m v z q c z' x PQ PC PX (firstn k (tris m)) (skipn (S k) (tris m)).
Proof.
  intros Hd Hk Hs E1 E2 E3 N1 N2 N3 X1 X2 X3 X4 X5 X6. constructor; try (apply pt_ok; assumption); try assumption.
  - apply split_at. exact Hk.
  - apply in_rotb. exact E1.
  - apply in_rotb. exact E2.
  - apply is_faceb_ok. exact E3.
  - intros id Hid. apply Hd in Hid. apply N.leb_le in Hs. rewrite firstn_length_le; [lia|]. apply Nat.lt_le_incl. apply nth_error_Some. congruence.
Qed.


(** The first run of a new object: the Loop filter smooths all points. *)
Definition m0 : mesh BC N := copy_geometry lmesh.
Definition fans_at (l : list tri) : bool :=
  existsb (fun u => eqb_tri u (0, 1, 27)%N || eqb_tri u (1, 27, 0)%N || eqb_tri u (27, 0, 1)%N) l &&
  existsb (fun u => eqb_tri u (0, 26, 4)%N || eqb_tri u (26, 4, 0)%N || eqb_tri u (4, 0, 26)%N) l.
Definition spt (m : mesh BC N) (k : N) : option (list SpecFloat.spec_float) := option_map (map B2SF) (oget k (pts m)).
Definition summary (m : mesh BC N) :=
  ((osize (pts m) <=? 31)%N && lothersb (O := BC) t56 m (26, 0, 27)%N && fans_at (firstn 31 (tris m)) && is_faceb m 26 27 28,
   nth_error (tris m) 31, [spt m 0; spt m 1; spt m 27; spt m 26; spt m 4; spt m 28]).
Definition rsummary (r : res (fstate * mesh BC N)) := match r with Ok (_, m) => Some (summary m) | _ => None end.
Definition wanted := Some (true, Some (26, 0, 27)%N, map (fun p => Some (map B2SF (p3 p))) [(0, 0, 0); (68, 44, 0); (16, 12, 0); (12, 16, 0); (44, 68, 0); (12, 12, 0)]%Z).
Lemma first_run cs es ep : rsummary (update (CellF CLoop) 60 (apply_selection (FState true cs es ep) (asel (O := BC) t56 m0)) m0) = wanted.
Proof. vm_compute. reflexivity. Qed.

Lemma lmesh_others : lothers (O := BC) t56 lmesh 0 2 3.
Proof. apply lothersb_ok. vm_compute. reflexivity. Qed.
Lemma lmesh_conf : exists l1 l2, lconf (O := BC) PV PZ PZ' lmesh 0 1 2 3 4 7 PQ PC PX l1 l2.
Proof.
  eexists; eexists. apply (conf_ok lmesh 0 1 2 3 4 7 27 lmesh_dense); try (vm_compute; reflexivity); discriminate.
Qed.
Lemma m0_state : lstate (O := BC) PV PZ PZ' t56 LSt m0.
Proof.
  destruct lmesh_conf as [l1 [l2 K]]. eapply copy_lstate.
  - exact lmesh_valid.
  - exact lmesh_dense.
  - exact lmesh_iso.
  - exact lmesh_wire.
  - split; [|split]; reflexivity.
  - exact K.
  - exact lmesh_others.
Qed.
Lemma m0_first f n f1 m1 : uniform f = true -> update (CellF CLoop) n (apply_selection f (asel (O := BC) t56 m0)) m0 = Ok (f1, m1) ->
  uniform f1 = false /\ lstate (O := BC) PV PZ PZ' t56 LSt m1.
Proof.
  intros Uf E. destruct m0_state as [H0 [Num _]].
  pose proof (lstate_long (O := BC) _ _ _ _ _ L_inner _ m0_state) as NE0.
  pose proof (area_ready (O := BC) CLoop t56 m0 f H0) as Hr. pose proof (start_step _ _ _ _ _ _ H0 Hr E) as H1. pose proof H0 as [Hv [Hd _]].
  destruct (face_run _ _ m0 n f1 m1 Hv Hd Hr E) as [mid [Ls FR]].
  split.
  { rewrite (fr_uniform _ _ _ _ _ _ _ FR). cbn [whole apply_selection asel csel]. destruct (long_cells (O := BC) t56 m0); [congruence|reflexivity]. }
  split; [exact H1|]. split; [exact (fr_ids _ _ _ _ _ _ _ FR)|].
  destruct f as [u cs es ep]. cbn [uniform] in Uf. subst u. pose proof (first_run cs es ep) as S.
  remember (update (CellF CLoop) 60 (apply_selection (FState true cs es ep) (asel (O := BC) t56 m0)) m0) as r eqn:Er.
  assert (R : r = Ok (f1, m1)).
  { rewrite Er, <- E. apply update_fuel; [|congruence]. rewrite <- Er. intros C. rewrite C in S. discriminate S. }
  rewrite R in S. clear R Er r. unfold rsummary, wanted, summary in S. cbn [map] in S. 
  pose proof H1 as [_ [Hd1 _]].
  injection S as S1 S2 S3 S4 S5 S6 S7 S8.
  apply andb_prop in S1. destruct S1 as [S1 T4]. apply andb_prop in S1. destruct S1 as [S1 T3]. apply andb_prop in S1. destruct S1 as [T1 T2].
  apply andb_prop in T3. destruct T3 as [T3 T3'].
  exists 0%N, 1%N, 27%N, 26%N, 4%N, 28%N, PQ, PC, PX, (firstn 31 (tris m1)), (skipn 32 (tris m1)).
  split; [split; [|split]; reflexivity|]. split; [|apply lothersb_ok; exact T2].
  apply conf_ok; try assumption; discriminate.
Qed.

Lemma m0_eq : m0 = copy_geometry lmesh.
Proof. unfold m0. reflexivity. Qed.
Lemma loop_endless64 old f : diverges (fun fuel => conditional_update fuel (CellF CLoop) (Some (cell_area_criterion (O := BC) t56)) old f lmesh).
Proof.
  refine (two_phases (O := BC) CLoop t56 (lstate (O := BC) PV PZ PZ' t56 LSt) m0 lmesh old f _ _ _ m0_first m0_state m0_eq).
  - intros m H. exact (proj1 H).
  - intros m H. exact (lstate_long (O := BC) _ _ _ _ _ L_inner m H).
  - intros f0 m n f1 m1 U H E. exact (lstep (O := BC) _ _ _ _ _ L_inner L_again m f0 n f1 m1 U H E).
Qed.

(** The exact areas. *)
Definition lpoint (k : N) : Z * Z * Z := nth (N.to_nat k) lpoints (0, 0, 0)%Z.
Lemma lmesh_pt k : (k < 26)%N -> oget k (pts lmesh) = Some (p3 (lpoint k)).
Proof.
  intros H. assert (E : In k (map N.of_nat (seq 0 26))). { apply in_map_iff. exists (N.to_nat k). split; [lia|]. apply in_seq. lia. }
  clear H. cbn [seq map] in E. repeat (destruct E as [<-|E]; [apply pt_ok; vm_compute; reflexivity|]). destruct E.
Qed.
Definition smallz (p : Z * Z * Z) : bool := (Z.abs (zx p) <? 2 ^ 53)%Z && (Z.abs (zy p) <? 2 ^ 53)%Z && (Z.abs (zz p) <? 2 ^ 53)%Z.
Lemma p3_value p : smallz p = true -> map B2R (p3 p) = rp3 1 p.
Proof.
  destruct p as [[x y] z]. unfold smallz. intros H. apply andb_prop in H. destruct H as [H H3]. apply andb_prop in H. destruct H as [H1 H2].
  apply Z.ltb_lt in H1, H2, H3. unfold zx, zy, zz in *. cbn [fst snd] in *. unfold p3, rp3, zx, zy, zz. cbn [map fst snd].
  rewrite (proj2 (b64_value x 0 H1 ltac:(lia))), (proj2 (b64_value y 0 H2 ltac:(lia))), (proj2 (b64_value z 0 H3 ltac:(lia))).
  cbn [bpow]. rewrite !Rmult_1_r, !Rmult_1_l. reflexivity.
Qed.
Lemma exact_oget {d} (m : mesh (BO 53 1024 P53 E1024 cosf d) N) k p : oget k (pts m) = Some p -> oget k (pts (exact_mesh 53 1024 P53 E1024 m)) = Some (map B2R p).
Proof.
  unfold exact_mesh. cbn [pts]. induction (pts m) as [|[i q] l IH]; cbn [oget map fst snd]; [discriminate|].
  destruct (i =? k)%N; [intros H; injection H as ->; reflexivity|exact IH].
Qed.
Lemma lmesh_scaled k : (k < 26)%N -> scaled 1 (exact_mesh 53 1024 P53 E1024 lmesh) lpoint k.
Proof.
  intros H. apply scaled_pts. rewrite (exact_oget lmesh k _ (lmesh_pt k H)), p3_value; [reflexivity|].
  assert (G : forallb smallz lpoints = true) by (vm_compute; reflexivity). rewrite forallb_forall in G. apply G. apply nth_In. change (length lpoints) with 26%nat. lia.
Qed.
Lemma lmesh_exact u : In u (tris lmesh) -> 0 < tri_area (exact_mesh 53 1024 P53 E1024 lmesh) u <= 56.
Proof.
  intros Hu. assert (G : forallb (okb lpoint 336) (tris lmesh) = true) by (vm_compute; reflexivity).
  pose proof (okb_all 1 (exact_mesh 53 1024 P53 E1024 lmesh) lpoint 336 (tris lmesh) lmesh_scaled Rlt_0_1 ltac:(lia) G u Hu) as H. lra.
Qed.
End L64.

Lemma C109_binary64_pf : forall cosf : N -> binary_float 53 1024, exists inp : mesh (BO 53 1024 P53 E1024 cosf 3) N,
  valid inp /\ dense inp /\ no_wire inp /\ no_isolated inp /\ nF inp = 28%Z /\
  (forall u, In u (tris inp) -> 0 < tri_area (exact_mesh 53 1024 P53 E1024 inp) u <= 56) /\
  is_finite t56 = true /\ B2R t56 = 56 /\
  forall old f, diverges (fun fuel => conditional_update fuel (CellF CLoop) (Some (cell_area_criterion (O := BO 53 1024 P53 E1024 cosf 3) t56)) old f inp).
Proof.
  intros cosf. exists (lmesh cosf). split; [exact (lmesh_valid cosf)|]. split; [exact (lmesh_dense cosf)|]. split; [exact (lmesh_wire cosf)|].
  split; [exact (lmesh_iso cosf)|]. split; [vm_compute; reflexivity|]. split; [exact (lmesh_exact cosf)|].
  destruct (b64_value 56 0 ltac:(reflexivity) ltac:(lia)) as [F E]. split; [exact F|]. split.
  - unfold t56. rewrite E. cbn [bpow]. lra.
  - intros old f. exact (loop_endless64 cosf old f).
Qed.
