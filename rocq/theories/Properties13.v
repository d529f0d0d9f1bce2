(** * Properties13: the shape of the output, valences, locality (C93 to C98).

    Theorems only; proofs are in Shape.v, Valence.v and Local.v. *)
From Coq Require Import Reals Lra QArith.
From Verif Require Import Base Mesh Filters Drivers Samples Spec SpecSub SpecGeo SpecRoot3 SpecDrive SpecShape SpecLocal Lists Check CheckGeo CheckRoot3
  Root3Main Iter Area DriveProps Shape Valence Local.

Open Scope N_scope.

Ltac ex_valid := apply validb_ok; vm_compute; reflexivity.
Ltac ex_dense := apply denseb_ok; vm_compute; reflexivity.

Lemma crd_rmesh (m : mesh Q3 N) i id p q : oget id (pts m) = Some p -> nth_error p i = Some q -> crd (rmesh m) i id = Q2R q.
Proof.
  intros Hp Hq. unfold crd, ptof. cbn [rmesh pts].
  assert (E : oget id (map (fun kv : N * list Q => (fst kv, map Q2R (snd kv))) (pts m)) = Some (map Q2R p)).
  { revert Hp. generalize (pts m). clear. intros l. induction l as [|[k v] l IH]; cbn; [discriminate|].
    destruct (N.eqb k id); [intros H; injection H as ->; reflexivity|exact IH]. }
  transitivity (nth i (map Q2R p) 0%R); [f_equal; unfold K, RO; change (K Q3) with Q in *; rewrite E; reflexivity|].
  apply nth_error_nth. rewrite nth_error_map. transitivity (option_map Q2R (Some q)); [f_equal; exact Hq|reflexivity].
Qed.

(** C93.  Linear filters, whatever the selections, the number of levels and the driver: a point lies on
    the output surface exactly if it lies on the input surface. *)
Theorem C93 : forall (d : nat) (D : Type) (inp out : mesh (RO d) D),
  valid inp -> dense inp -> tris inp <> [] -> linear_run inp out -> forall x, on_surface out x <-> on_surface inp x.
Proof. exact C93_pf. Qed.
Print Assumptions C93.

(** The same four kinds of runs on a torus, and a point of its surface. *)
Example C93_ex : valid (rmesh torus7) /\ dense (rmesh torus7) /\ tris (rmesh torus7) <> [] /\
  (exists out, linear_chain (rmesh torus7) 1 out) /\
  (exists levels fuel sel f' out, sel <> [] /\ existing (rmesh torus7) sel /\ iterative_update CLinear levels fuel sel (rmesh torus7) = Ok (f', out)) /\
  (exists fuel f' out, conditional_update fuel (CellF CLinear) (Some (cell_area_criterion (O := RO 3) (1 / 1000)%R)) (SelCells []) new_filter (rmesh torus7) = Ok (f', out)) /\
  (exists fuel f' out, conditional_update fuel (EdgeF ELinear) (Some (edge_length_criterion (O := RO 3) (1 / 1000)%R)) (SelEdges []) new_filter (rmesh torus7) = Ok (f', out)) /\
  exists x, on_surface (rmesh torus7) x.
Proof.
  assert (V : valid (rmesh torus7)) by ex_valid. assert (D : dense (rmesh torus7)) by ex_dense.
  assert (T : tris (rmesh torus7) <> []) by (vm_compute; discriminate).
  split; [exact V|]. split; [exact D|]. split; [exact T|]. split.
  { destruct (run_exists (EdgeF ELinear) (esl [Some (0, 1); Some (3, 2)]) (rmesh torus7) V D ltac:(apply readyb_ok; vm_compute; reflexivity)) as [fuel [f' [out E]]].
    exists out. eapply linear_S; [apply linear_0|right; reflexivity| |exact E]. apply readyb_ok. vm_compute. reflexivity. }
  split.
  { assert (X : existing (rmesh torus7) [0; 3]) by (apply existingb_ok; vm_compute; reflexivity).
    destruct (C33_adaptive_levels_pf (RO 3) N CLinear 3 [0; 3] (rmesh torus7) V D ltac:(discriminate) ltac:(discriminate) ltac:(discriminate) X)
      as [f' [out [[_ [n Hn]] _]]].
    exists 3%nat, n, [0; 3], f', out. split; [discriminate|]. split; [exact X|]. apply Hn. apply le_n. }
  split.
  { destruct (C36_terminates_pf 3 N (1 / 1000)%R (SelCells []) new_filter (rmesh torus7) V D T ltac:(lra)) as [f' [out [[_ [n Hn]] _]]].
    exists n, f', out. apply Hn. apply le_n. }
  split.
  { destruct (C37_terminates_pf 3 N (1 / 1000)%R (SelEdges []) new_filter (rmesh torus7) V D T ltac:(lra)) as [f' [out [[_ [n Hn]] _]]].
    exists n, f', out. apply Hn. apply le_n. }
  destruct (tris (rmesh torus7)) as [|[[a b] c] T'] eqn:E; [congruence|].
  exists (fun i => crd (rmesh torus7) i a), (a, b, c). split; [rewrite E; left; reflexivity|].
  exists 1%R, 0%R, 0%R. repeat split; try lra. intros i Hi. lra.
Qed.

(** C94.  Linear filters preserve every quantity that adds up over the triangles, for example the signed
    volume that a closed oriented surface encloses. *)
Theorem C94 : forall (d : nat) (D : Type) (g : list R -> list R -> list R -> R) (inp out : mesh (RO d) D), additive d g ->
  valid inp -> dense inp -> tris inp <> [] -> linear_run inp out -> integral g out = integral g inp.
Proof. exact C94_pf. Qed.
Print Assumptions C94.

Theorem C94_volume : forall (D : Type) (inp out : mesh (RO 3) D),
  valid inp -> dense inp -> tris inp <> [] -> linear_run inp out -> signed_volume out = signed_volume inp.
Proof. exact C94_volume_pf. Qed.
Print Assumptions C94_volume.

(** The runs are those of C93_ex; the quantity is not trivial. *)
Example C94_ex : additive 3 (fun p q r => (det3 p q r / 6)%R) /\ det3 [1%R; 0%R; 0%R] [0%R; 1%R; 0%R] [0%R; 0%R; 1%R] = 1%R /\
  valid (rmesh octa) /\ dense (rmesh octa) /\ tris (rmesh octa) <> [] /\ exists out, linear_run (rmesh octa) out.
Proof.
  split; [exact det3_additive|]. split; [unfold det3; cbn; lra|].
  assert (V : valid (rmesh octa)) by ex_valid. assert (D : dense (rmesh octa)) by ex_dense.
  split; [exact V|]. split; [exact D|]. split; [vm_compute; discriminate|].
  destruct (run_exists (CellF CLinear) (sel [1]) (rmesh octa) V D ltac:(apply readyb_ok; vm_compute; reflexivity)) as [fuel [f' [out E]]].
  exists out. left. exists 1%nat. eapply linear_S; [apply linear_0|left; reflexivity| |exact E]. apply readyb_ok. vm_compute. reflexivity.
Qed.

(** C95.  Linear filters never turn a triangle over: the normal of an output triangle is a positive
    multiple of that of the input triangle which contains it.  That the other schemes can is C95_flips in Refuted5.v. *)
Theorem C95 : forall (d : nat) (D : Type) (inp out : mesh (RO d) D),
  valid inp -> dense inp -> tris inp <> [] -> linear_run inp out -> forall u, In u (tris out) ->
  exists t w, In t (tris inp) /\ (0 < w <= 1)%R /\ (forall i j, normal out u i j = (w * normal inp t i j)%R) /\
    (forall x, in_triangle out u x -> in_triangle inp t x).
Proof. exact C95_pf. Qed.
Print Assumptions C95.

Example C95_ex : valid (rmesh strip4) /\ dense (rmesh strip4) /\ tris (rmesh strip4) <> [] /\ normal (rmesh strip4) (0, 1, 2) 0 1 <> 0%R /\
  In (0, 1, 2) (tris (rmesh strip4)) /\ exists out u, linear_run (rmesh strip4) out /\ In u (tris out).
Proof.
  assert (V : valid (rmesh strip4)) by ex_valid. assert (D : dense (rmesh strip4)) by ex_dense.
  assert (T : tris (rmesh strip4) <> []) by (vm_compute; discriminate).
  split; [exact V|]. split; [exact D|]. split; [exact T|].
  split.
  { cbn [normal]. erewrite !(crd_rmesh strip4) by (vm_compute; reflexivity). unfold Q2R. cbn [Qnum Qden]. lra. }
  split; [vm_compute; auto|].
  destruct (C32_uniform_pf (RO 3) N CLinear 2 (rmesh strip4) V D T ltac:(discriminate) ltac:(discriminate)) as [f' [out [[_ [n Hn]] [HF [V2 _]]]]].
  destruct (tris out) as [|u U] eqn:E.
  - exfalso. pose proof (tris_len out V2) as HL. rewrite E in HL. cbn in HL. rewrite HF in HL. revert HL. clear. vm_compute. discriminate.
  - exists out, u. split; [|rewrite E; left; reflexivity]. right. left. exists 2%nat, n, [], f'. split; [intros i []|]. apply Hn. apply le_n.
Qed.

(** C96.  Uniform Linear levels: every output triangle is an exact copy of an input triangle, possibly
    turned by half a turn, 2^n times smaller; every output edge is 2^n times shorter than some input edge. *)
Theorem C96 : forall (d : nat) (D : Type) levels fuel (inp : mesh (RO d) D) f' out,
  valid inp -> dense inp -> tris inp <> [] -> iterative_update CLinear levels fuel [] inp = Ok (f', out) ->
  let n := Nat.max 1 levels in
  (forall u, In u (tris out) -> exists s a b c, (s = (1 / 2) ^ n \/ s = - (1 / 2) ^ n)%R /\ is_face inp a b c /\ scaled s inp (a, b, c) out u) /\
  (forall x y, joined out x y -> exists a b, joined inp a b /\ (seg_length out x y = seg_length inp a b / 2 ^ n)%R).
Proof. exact C96_pf. Qed.
Print Assumptions C96.

Example C96_ex : valid (rmesh tetra) /\ dense (rmesh tetra) /\ tris (rmesh tetra) <> [] /\
  exists fuel f' out, iterative_update CLinear 3 fuel [] (rmesh tetra) = Ok (f', out) /\ nF out = 256%Z.
Proof.
  assert (V : valid (rmesh tetra)) by ex_valid. assert (D : dense (rmesh tetra)) by ex_dense.
  assert (T : tris (rmesh tetra) <> []) by (vm_compute; discriminate).
  split; [exact V|]. split; [exact D|]. split; [exact T|].
  destruct (C32_uniform_pf (RO 3) N CLinear 3 (rmesh tetra) V D T ltac:(discriminate) ltac:(discriminate)) as [f' [out [[_ [n Hn]] [HF _]]]].
  exists n, f', out. split; [apply Hn; apply le_n|]. rewrite HF. vm_compute. reflexivity.
Qed.

(** C97.  A run of any of the six face-split filters on the whole mesh: an original point whose edges all
    belong to faces keeps its number of neighbours, a new point inside the surface has six, one on the border
    four, one on an edge without faces none. *)
Theorem C97 : forall (O : Ops) (D : Type) k f (inp : mesh O D) fuel f' out,
  valid inp -> dense inp -> tris inp <> [] -> ready k f inp -> match k with CellF _ => csel f = [] | EdgeF _ => esel f = [] end ->
  update k fuel f inp = Ok (f', out) ->
  (forall v, oget v (pts inp) <> None -> (forall w, joined inp v w -> In (v, w) (dirs (tris inp)) \/ In (w, v) (dirs (tris inp))) ->
     length (ring out v) = length (ring inp v)) /\
  exists mid Ls, subdivision inp out (to_split k f inp) mid Ls /\
    forall a b m, mid a b = Some m ->
      (In (a, b) (dirs (tris inp)) /\ In (b, a) (dirs (tris inp)) -> length (ring out m) = 6%nat) /\
      (border_dir inp a b -> length (ring out m) = 4%nat) /\
      (~ In (a, b) (dirs (tris inp)) -> ~ In (b, a) (dirs (tris inp)) -> ring out m = []).
Proof. exact C97_pf. Qed.
Print Assumptions C97.

Example C97_ex : valid fan4 /\ dense fan4 /\ tris fan4 <> [] /\ ready (CellF CLoop) new_filter fan4 /\ ready (EdgeF EButterfly) new_filter fan4 /\
  match update (CellF CLoop) 100 new_filter fan4, update (EdgeF EButterfly) 100 new_filter fan4 with
  | Ok (_, o1), Ok (_, o2) => map (fun v => length (ring o1 v)) (map fst (pts o1)) = map (fun v => length (ring o2 v)) (map fst (pts o2))
      /\ In 6%nat (map (fun v => length (ring o1 v)) (map fst (pts o1))) /\ In 4%nat (map (fun v => length (ring o1 v)) (map fst (pts o1)))
  | _, _ => False end.
Proof.
  split; [ex_valid|]. split; [ex_dense|]. split; [vm_compute; discriminate|]. split; [apply readyb_ok; vm_compute; reflexivity|].
  split; [apply readyb_ok; vm_compute; reflexivity|]. vm_compute. intuition.
Qed.

(** C98.  Two inputs that differ in coordinates only: an output point differs only if one of the few input
    points in its support does.  Any arithmetic, any selection. *)
Theorem C98 : forall (O : Ops) (D1 D2 : Type) k f (inp1 : mesh O D1) (inp2 : mesh O D2) fuel1 fuel2 f1 f2 out1 out2,
  valid inp1 -> valid inp2 -> dense inp1 -> ready k f inp1 -> same_connectivity inp1 inp2 ->
  update k fuel1 f inp1 = Ok (f1, out1) -> update k fuel2 f inp2 = Ok (f2, out2) ->
  (forall v, oget v (pts inp1) <> None -> agree_on (vertex_support k inp1 v) inp1 inp2 -> oget v (pts out1) = oget v (pts out2)) /\
  exists mid Ls, subdivision inp1 out1 (to_split k f inp1) mid Ls /\ subdivision inp2 out2 (to_split k f inp2) mid Ls /\
    forall a b m, mid a b = Some m -> agree_on (edge_support k inp1 a b) inp1 inp2 -> oget m (pts out1) = oget m (pts out2).
Proof. exact C98_pf. Qed.
Print Assumptions C98.

Theorem C98_root3 : forall (O : Ops) (D1 D2 : Type) f (inp1 : mesh O D1) (inp2 : mesh O D2) fuel1 fuel2 f1 f2 out1 out2,
  valid inp1 -> valid inp2 -> dense inp1 -> ready3 f inp1 -> same_connectivity inp1 inp2 ->
  update (CellF CSqrt3) fuel1 f inp1 = Ok (f1, out1) -> update (CellF CSqrt3) fuel2 f inp2 = Ok (f2, out2) ->
  (forall v, oget v (pts inp1) <> None -> oget v (pts inp1) = oget v (pts inp2) -> oget v (pts out1) = oget v (pts out2)) /\
  exists cen, root3_subdivision inp1 out1 (selected inp1 (csel f)) cen /\ root3_subdivision inp2 out2 (selected inp2 (csel f)) cen /\
    forall t g, In t (tris inp1) -> cen t = Some g -> agree_on (fun x => In x (tverts t)) inp1 inp2 -> oget g (pts out1) = oget g (pts out2).
Proof. exact C98_root3_pf. Qed.
Print Assumptions C98_root3.

(** The strip of four triangles, and the same with its last point elsewhere. *)
Definition strip4' : mesh Q3 N := set_point strip4 5 (zpt [100; 200; 300]%Z).
Example C98_ex : valid strip4 /\ valid strip4' /\ dense strip4 /\ same_connectivity strip4 strip4' /\
  ready (CellF CButterfly) (sel [0; 2]) strip4 /\ ready (CellF CLoop) new_filter strip4 /\ ready3 (sel [3]) strip4 /\
  (forall k f, In (k, f) [(CellF CButterfly, sel [0; 2]); (CellF CLoop, new_filter); (CellF CSqrt3, sel [3])] ->
     match update k 100 f strip4, update k 100 f strip4' with Ok (_, o1), Ok (_, o2) => pts o1 <> pts o2 | _, _ => False end) /\
  agree_on (edge_support (CellF CLoop) strip4 0 1) strip4 strip4' /\ agree_on (vertex_support (CellF CLoop) strip4 0) strip4 strip4'.
Proof.
  assert (A : forall x, x <> 5 -> oget x (pts strip4) = oget x (pts strip4')).
  { intros x Hx. unfold strip4', set_point. cbn [pts set_pts]. rewrite oget_oset_other; [reflexivity|exact Hx]. }
  split; [ex_valid|]. split; [ex_valid|]. split; [ex_dense|]. split; [vm_compute; repeat split; reflexivity|].
  split; [apply readyb_ok; vm_compute; reflexivity|]. split; [apply readyb_ok; vm_compute; reflexivity|].
  split; [apply ready3b_ok; vm_compute; reflexivity|].
  split; [intros k f [H|[H|[H|[]]]]; injection H as <- <-; vm_compute; discriminate|].
  split; intros x Hx; apply A; intros ->; vm_compute in Hx; intuition discriminate.
Qed.
