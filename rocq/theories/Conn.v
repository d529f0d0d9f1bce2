(** * Conn: connectivity is computed without looking at coordinates or cell data. *)
From Verif Require Import Base Mesh Filters Spec SpecSub Lists AddFace SplitTri Split Points Valid Run Update Struct Count Face.

(** The arithmetic without information, and the mesh without coordinates and cell data. *)
Definition U0 : Ops :=
  mkOps unit 0 (fun _ _ => tt) (fun _ _ => tt) (fun _ _ => tt) (fun _ _ => tt) (fun _ => tt) (fun _ => tt) (fun _ => tt)
        (fun _ _ => false).

Section ERASE.
Context {O : Ops} {D : Type}.
Notation mesh := (mesh O D).
Notation state := (@state O D).
Notation mesh0 := (Mesh.mesh U0 unit).
Notation state0 := (@Filters.state U0 unit).
Implicit Types m inp out : mesh.

Definition erase (m : mesh) : mesh0 :=
  Mesh (O:=U0) (D:=unit) (map (fun kv => (fst kv, [])) (pts m)) (rings m) (cells m) (ecells m) None.
Definition erase_st (st : state) : state0 := (fst st, erase (snd st)).
Definition rmap {A B} (g : A -> B) (r : res A) : res B := rbind r (fun a => Ok (g a)).

Lemma erase_keys m : okeys (pts (erase m)) = okeys (pts m).
Proof. cbn. unfold okeys. rewrite map_map. reflexivity. Qed.
Lemma omem_keys {A B} k (l : omap A) (l' : omap B) : okeys l = okeys l' -> omem k l = omem k l'.
Proof.
  revert l'. induction l as [|[i x] l IH]; intros [|[j y] l']; cbn; intros H; try discriminate; [reflexivity|].
  injection H as -> H. unfold omem. cbn. destruct (N.eqb j k); [reflexivity|]. apply IH. exact H.
Qed.

Lemma erase_push_ecell m e : push_ecell (erase m) e = erase (push_ecell m e).
Proof. reflexivity. Qed.
Lemma erase_add_edge m a b : add_edge (erase m) a b = option_map erase (add_edge m a b).
Proof.
  unfold add_edge. change (ring (erase m)) with (ring m). change (left_set (erase m)) with (left_set m).
  destruct (ins_ring (fun x => left_set m (a, x)) (ring m a) b), (ins_ring (fun x => left_set m (b, x)) (ring m b) a);
    reflexivity.
Qed.
Lemma erase_add_missing l : forall m,
  add_missing_edges (erase m) l = (erase (fst (add_missing_edges m l)), snd (add_missing_edges m l)).
Proof.
  induction l as [|[a b] l IH]; intros m; [reflexivity|]. cbn [add_missing_edges].
  change (find_edge (erase m) a b) with (find_edge m a b).
  destruct (find_edge m a b); [apply IH|]. rewrite erase_add_edge.
  destruct (add_edge m a b) as [m'|]; cbn [option_map]; [apply IH|reflexivity].
Qed.
Lemma erase_link l : forall m, link_corners (erase m) l = option_map erase (link_corners m l).
Proof.
  induction l as [|[[a b] c] l IH]; intros m; [reflexivity|]. cbn [link_corners].
  change (ring (erase m)) with (ring m). change (left_set (erase m)) with (left_set m).
  destruct (link_ring (fun x => left_set m (b, x)) (ring m b) c a) as [r|]; [|reflexivity].
  change (set_ring (erase m) b r) with (erase (set_ring m b r)). apply IH.
Qed.
Lemma forallb_ext_in {A} (f g : A -> bool) l : (forall x, f x = g x) -> forallb f l = forallb g l.
Proof. intros H. induction l as [|x l IH]; cbn; [reflexivity|]. rewrite H, IH. reflexivity. Qed.

Lemma erase_add_face m l : add_face (erase m) l = (erase (fst (add_face m l)), snd (add_face m l)).
Proof.
  unfold add_face. destruct (negb (nodupb l)); [reflexivity|].
  rewrite (forallb_ext_in (fun p => omem p (pts (erase m))) (fun p => omem p (pts m))).
  2:{ intros x. apply omem_keys. apply erase_keys. }
  destruct (negb (forallb (fun p => omem p (pts m)) l)); [reflexivity|].
  change (existsb (left_set (erase m)) (poly_dirs l)) with (existsb (left_set m) (poly_dirs l)).
  destruct (existsb (left_set m) (poly_dirs l)); [reflexivity|].
  rewrite erase_add_missing. destruct (add_missing_edges m (poly_dirs l)) as [m1 [|]]; cbn [fst snd]; [|reflexivity].
  rewrite erase_link. destruct (link_corners m1 (poly_corners l)); reflexivity.
Qed.

Lemma erase_pass inp id e out : erase (pass_cell_data inp id e out) = erase out.
Proof.
  unfold pass_cell_data. destruct e as [e|]; [|reflexivity]. destruct (cdata inp) as [dd|]; [|reflexivity].
  destruct (oget id dd); reflexivity.
Qed.
Lemma pass_left inp id e out x : get_left (pass_cell_data inp id e out) x = get_left out x.
Proof.
  unfold pass_cell_data. destruct e as [e|]; [|reflexivity]. destruct (cdata inp) as [dd|]; [|reflexivity].
  destruct (oget id dd); reflexivity.
Qed.

(** Any input mesh with the same rings and no cell data behaves like the erased input. *)
Section INP.
Variable inp : mesh.
Variable inp0 : mesh0.
Hypothesis Hrings : rings inp0 = rings inp.
Hypothesis Hcd : cdata inp0 = None.

Lemma ring_same b : ring inp0 b = ring inp b.
Proof. unfold ring. rewrite Hrings. reflexivity. Qed.
Lemma find_edge_same a b : find_edge inp0 a b = find_edge inp a b.
Proof. unfold find_edge. rewrite ring_same. reflexivity. Qed.

Lemma erase_emit id track t st : emit inp0 id track t (erase_st st) = rmap erase_st (emit inp id track t st).
Proof.
  destruct t as [[a b] c], st as [f out]. unfold emit, erase_st. cbn [fst snd]. rewrite erase_add_face.
  destruct (add_face out [a; b; c]) as [out1 e]. cbn [fst snd].
  assert (Hp : pass_cell_data inp0 id e (erase out1) = erase out1).
  { unfold pass_cell_data. destruct e; [|reflexivity]. rewrite Hcd. reflexivity. }
  rewrite Hp. destruct track.
  - destruct e as [e|]; [|reflexivity]. cbn [rmap rbind fst snd]. rewrite erase_pass, pass_left. reflexivity.
  - cbn [rmap rbind fst snd]. rewrite erase_pass. reflexivity.
Qed.
Lemma erase_emit_all id track l : forall st,
  emit_all inp0 id track l (erase_st st) = rmap erase_st (emit_all inp id track l st).
Proof.
  induction l as [|t l IH]; intros st; [reflexivity|]. cbn [emit_all]. rewrite erase_emit.
  destruct (emit inp id track t st) as [st'| | |]; cbn [rmap rbind]; [apply IH|reflexivity..].
Qed.
Lemma erase_split_cell id t st : split_cell inp0 id t (erase_st st) = rmap erase_st (split_cell inp id t st).
Proof.
  destruct t as [[a b] c]. unfold split_cell. rewrite !find_edge_same.
  change (epid (fst (erase_st st))) with (epid (fst st)). change (uniform (fst (erase_st st))) with (uniform (fst st)).
  apply erase_emit_all.
Qed.
Lemma erase_cells_loop fuel : forall cs st,
  cells_loop fuel inp0 cs (erase_st st) = rmap erase_st (cells_loop fuel inp cs st).
Proof.
  induction fuel as [|fuel IH]; intros cs st; [reflexivity|]. cbn [cells_loop].
  destruct cs as [|[id c] cs]; [reflexivity|].
  destruct (obind c as_triangle) as [t|]; [|apply IH].
  rewrite erase_split_cell. destruct (split_cell inp id t st); cbn [rmap rbind]; [apply IH|reflexivity..].
Qed.

End INP.

(** State after the point phase, for every face-split filter. *)
Lemma points_phase k f inp : valid inp -> dense inp -> ready k f inp ->
  exists P0, generate_output_points k inp (f, empty_mesh) =
      Ok (st_of (set_uniform f (whole k f)) empty_mesh (osize (pts inp)) P0
                (val_of (new_point k inp)) (inserted k f inp)) /\ copied inp P0.
Proof.
  intros Hv Hd Hr. destruct k as [s|s]; cbn [generate_output_points whole inserted new_point].
  - assert (Hfs : face_split s) by (intros ->; destruct Hr as [H _]; apply H; reflexivity).
    pose proof Hr as [_ [_ Hkn]].
    destruct (points_phase_c s f inp Hv Hd Hfs Hkn (ready_copy _ _ _ Hr)) as [P0 [E [Hc _]]]. eauto.
  - destruct (edges_ready_of s f inp Hv Hr) as [He Hu]. exists (pts inp).
    split; [|apply copied_self; exact Hv]. apply points_phase_e; auto.
    intros ->. apply Hr. right. reflexivity.
Qed.

End ERASE.

(** ** Two meshes with the same connectivity *)
Section TWO.
Context {O1 O2 : Ops} {D1 D2 : Type}.
Variable m1 : mesh O1 D1.
Variable m2 : mesh O2 D2.

Lemma erase_eq : okeys (pts m1) = okeys (pts m2) -> rings m1 = rings m2 -> cells m1 = cells m2 ->
  ecells m1 = ecells m2 -> erase m1 = erase m2.
Proof.
  intros H1 H2 H3 H4. unfold erase. rewrite H2, H3, H4. f_equal.
  revert H1. generalize (pts m2) as l2, (pts m1) as l1.
  intros l2 l1. revert l2. induction l1 as [|[i x] l1 IH]; intros [|[j y] l2]; cbn; intros H; try discriminate; [reflexivity|].
  injection H as -> H. f_equal. apply IH. exact H.
Qed.
Lemma erase_eq_inv : erase m1 = erase m2 -> okeys (pts m1) = okeys (pts m2) /\ rings m1 = rings m2 /\ cells m1 = cells m2 /\
  ecells m1 = ecells m2.
Proof.
  intros H. split; [rewrite <- (erase_keys m1), <- (erase_keys m2), H; reflexivity|].
  split; [exact (f_equal rings H)|]. split; [exact (f_equal cells H)|exact (f_equal ecells H)].
Qed.
End TWO.

Definition same_family (k1 k2 : kind) : Prop :=
  match k1, k2 with CellF _, CellF _ => True | EdgeF _, EdgeF _ => True | _, _ => False end.

Section C48.
Context {O1 O2 : Ops} {D1 D2 : Type}.

Lemma faces_same (m1 : mesh O1 D1) (m2 : mesh O2 D2) : cells m1 = cells m2 -> faces m1 = faces m2.
Proof. intros H. unfold faces. rewrite H. reflexivity. Qed.

Lemma inserted_same k1 k2 f1 f2 (m1 : mesh O1 D1) (m2 : mesh O2 D2) : same_family k1 k2 ->
  csel f1 = csel f2 -> esel f1 = esel f2 -> cells m1 = cells m2 -> ecells m1 = ecells m2 ->
  inserted k1 f1 m1 = inserted k2 f2 m2 /\ whole k1 f1 = whole k2 f2.
Proof.
  intros Hk Hc He Hcells Hec. destruct k1, k2; try destruct Hk; cbn [inserted whole]; rewrite ?Hc, ?He.
  - split; [|reflexivity]. unfold cells_inserted, visited, sel_tris, tris. rewrite (faces_same _ _ Hcells). reflexivity.
  - split; [|reflexivity]. unfold edge_list. rewrite Hec. reflexivity.
Qed.

Lemma update_conn k1 k2 f1 f2 (m1 : mesh O1 D1) (m2 : mesh O2 D2) n1 n2 f1' o1 f2' o2 :
  same_family k1 k2 ->
  valid m1 -> dense m1 -> ready k1 f1 m1 -> valid m2 -> dense m2 -> ready k2 f2 m2 ->
  okeys (pts m1) = okeys (pts m2) -> rings m1 = rings m2 -> cells m1 = cells m2 -> ecells m1 = ecells m2 ->
  csel f1 = csel f2 -> esel f1 = esel f2 ->
  update k1 n1 f1 m1 = Ok (f1', o1) -> update k2 n2 f2 m2 = Ok (f2', o2) ->
  erase o1 = erase o2 /\ f1' = f2'.
Proof.
  intros Hk Hv1 Hd1 Hr1 Hv2 Hd2 Hr2 Kp Kr Kc Ke Hc He E1 E2.
  set (n := Nat.max n1 n2).
  assert (E1' : update k1 n f1 m1 = Ok (f1', o1)).
  { unfold n. replace (Nat.max n1 n2) with (n1 + (Nat.max n1 n2 - n1))%nat by lia. rewrite update_mono; congruence. }
  assert (E2' : update k2 n f2 m2 = Ok (f2', o2)).
  { unfold n. replace (Nat.max n1 n2) with (n2 + (Nat.max n1 n2 - n2))%nat by lia. rewrite update_mono; congruence. }
  clear E1 E2. clearbody n.
  destruct (points_phase k1 f1 m1 Hv1 Hd1 Hr1) as [P1 [G1 [C1 _]]].
  destruct (points_phase k2 f2 m2 Hv2 Hd2 Hr2) as [P2 [G2 [C2 _]]].
  destruct (inserted_same k1 k2 f1 f2 m1 m2 Hk Hc He Kc Ke) as [HI HW].
  unfold update in E1', E2'. rewrite G1 in E1'. rewrite G2 in E2'. cbn [rbind] in E1', E2'.
  assert (HV : osize (pts m1) = osize (pts m2)).
  { unfold osize. rewrite <- (map_length fst (pts m1)), <- (map_length fst (pts m2)).
    unfold okeys in Kp. rewrite Kp. reflexivity. }
  assert (X1 : generate_output_cells n m1 (st_of (set_uniform f1 (whole k1 f1)) empty_mesh (osize (pts m1)) P1
                 (val_of (new_point k1 m1)) (inserted k1 f1 m1)) = Ok (f1', o1)).
  { destruct k1 as [[]|]; try exact E1'. exfalso. destruct Hr1 as [H _]. apply H. reflexivity. }
  assert (X2 : generate_output_cells n m2 (st_of (set_uniform f2 (whole k2 f2)) empty_mesh (osize (pts m2)) P2
                 (val_of (new_point k2 m2)) (inserted k2 f2 m2)) = Ok (f2', o2)).
  { destruct k2 as [[]|]; try exact E2'. exfalso. destruct Hr2 as [H _]. apply H. reflexivity. }
  unfold generate_output_cells in X1, X2.
  destruct (cells m1) as [cs|] eqn:Ec; [|discriminate]. rewrite <- Kc in X2.
  set (S1 := (set_cells_to_be_subdivided _ [], _)) in X1. set (S2 := (set_cells_to_be_subdivided _ [], _)) in X2.
  assert (HS : erase_st S1 = erase_st S2).
  { unfold S1, S2, st_of, erase_st. cbn [fst snd]. rewrite HI, HW, HV. f_equal.
    - unfold set_cells_to_be_subdivided, set_epid, set_uniform. cbn. rewrite He. reflexivity.
    - unfold erase. cbn [pts rings cells ecells set_pts empty_mesh]. f_equal. rewrite !map_app. f_equal.
      + assert (Hkk : okeys P1 = okeys P2) by congruence. clear - Hkk.
        revert P2 Hkk. induction P1 as [|[i x] P1 IH]; intros [|[j y] P2]; cbn; intros H; try discriminate; [reflexivity|].
        injection H as -> H. f_equal. apply IH. exact H.
      + generalize (inserted k2 f2 m2) as L, (osize (pts m2)) as v. clear. intros L. induction L as [|e L IH]; intros v; [reflexivity|].
        cbn [map]. rewrite !idx_from_cons. cbn [map fst]. f_equal. apply IH. }
  pose proof (erase_cells_loop m1 (erase m1) eq_refl eq_refl n cs S1) as L1.
  pose proof (erase_cells_loop m2 (erase m1) Kr eq_refl n cs S2) as L2.
  rewrite HS, L2, X1, X2 in L1. cbn [rmap rbind] in L1. unfold erase_st in L1. cbn [fst snd] in L1.
  assert (HH : (f2', erase o2) = (f1', erase o1)).
  { exact (f_equal (fun r => match r with Ok x => x | _ => (f2', erase o2) end) L1). }
  split; [exact (eq_sym (f_equal snd HH))|exact (eq_sym (f_equal fst HH))].
Qed.
End C48.

Lemma C48_connectivity_pf : forall (O1 O2 : Ops) (D1 D2 : Type) k1 k2 f1 f2 (m1 : mesh O1 D1) (m2 : mesh O2 D2) n1 n2 f1' o1 f2' o2,
  match k1, k2 with CellF _, CellF _ => True | EdgeF _, EdgeF _ => True | _, _ => False end ->
  valid m1 -> dense m1 -> ready k1 f1 m1 -> valid m2 -> dense m2 -> ready k2 f2 m2 ->
  okeys (pts m1) = okeys (pts m2) -> rings m1 = rings m2 -> cells m1 = cells m2 -> ecells m1 = ecells m2 ->
  csel f1 = csel f2 -> esel f1 = esel f2 ->
  update k1 n1 f1 m1 = Ok (f1', o1) -> update k2 n2 f2 m2 = Ok (f2', o2) ->
  okeys (pts o1) = okeys (pts o2) /\ rings o1 = rings o2 /\ cells o1 = cells o2 /\ ecells o1 = ecells o2 /\
  csel f1' = csel f2'.
Proof.
  intros. destruct (update_conn k1 k2 f1 f2 m1 m2 n1 n2 f1' o1 f2' o2) as [H14 H15]; auto.
  destruct (erase_eq_inv _ _ H14) as [A [B [C E]]]. repeat split; auto. congruence.
Qed.
