(** * Truth: what the code does where a natural expectation about it fails.

    The failing expectations are refuted in Refuted.v and Refuted2.v; here the actual behaviour is
    described for all inputs. *)
From Coq Require Import Sorted Reals Lra.
From Verif Require Import Base Mesh Filters Drivers Spec SpecSub SpecGeo SpecDrive Lists AddFace SplitTri Split Points Valid Run Update Struct Count Face
  Any PtsAny Geo GeoProps.
Open Scope N_scope.

(** ** C24: the Butterfly mask on an arbitrary edge *)
Section C24.
Context {d : nat} {D : Type}.
Notation mesh := (mesh (RO d) D).
Implicit Types inp out : mesh.

Lemma onext_cyc inp a b : joined inp a b -> exists x, onext inp (a, b) = Some (a, x) /\ cyc (ring inp a) b x /\ joined inp a x.
Proof.
  intros H. destruct (succ_in_In _ _ H) as [x Hx]. exists x. unfold onext. cbn [fst snd]. rewrite Hx.
  split; [reflexivity|]. split; [apply succ_in_cyc; exact Hx|eapply succ_joined; eauto].
Qed.
Lemma oprev_cyc inp a b : joined inp a b -> exists x, oprev inp (a, b) = Some (a, x) /\ cyc (ring inp a) x b /\ joined inp a x.
Proof.
  intros H. destruct (pred_in_In _ _ H) as [x Hx]. exists x. unfold oprev. cbn [fst snd]. rewrite Hx.
  split; [reflexivity|]. split; [apply pred_in_cyc; exact Hx|eapply pred_joined; eauto].
Qed.

Lemma butterfly_any inp x y g : valid inp -> joined inp x y ->
  exists c e p q w1 w2 w3 w4,
    cyc (ring inp y) c x /\ cyc (ring inp y) x e /\ cyc (ring inp x) y p /\ cyc (ring inp x) q y /\
    cyc (ring inp c) y w1 /\ cyc (ring inp x) p w2 /\ cyc (ring inp e) w3 y /\ cyc (ring inp x) w4 q /\
    weighted (butterfly_mask inp (x, y)) g =
      (1 / 2 * (g x + g y) + 1 / 8 * (g c + g e) - 1 / 16 * (g w1 + g w2 + g w3 + g w4))%R.
Proof.
  intros Hv Hj. pose proof (v_ring_sym _ Hv _ _ Hj) as Hj'.
  destruct (oprev_cyc inp y x Hj') as [c [Ec [Cc Jc]]]. destruct (onext_cyc inp y x Hj') as [e [Ee [Ce Je]]].
  destruct (onext_cyc inp x y Hj) as [p [Ep [Cp Jp]]]. destruct (oprev_cyc inp x y Hj) as [q [Eq [Cq Jq]]].
  destruct (onext_cyc inp c y (v_ring_sym _ Hv _ _ Jc)) as [w1 [E1 [C1 _]]].
  destruct (onext_cyc inp x p Jp) as [w2 [E2 [C2 _]]].
  destruct (oprev_cyc inp e y (v_ring_sym _ Hv _ _ Je)) as [w3 [E3 [C3 _]]].
  destruct (oprev_cyc inp x q Jq) as [w4 [E4 [C4 _]]].
  exists c, e, p, q, w1, w2, w3, w4. repeat (split; [assumption|]).
  unfold butterfly_mask, lnext, rprev, lprev, rnext.
  change (sym (x, y)) with (y, x). rewrite Ec, Ee, Ep, Eq. cbn [obind option_map].
  change (sym (y, c)) with (c, y). change (sym (y, e)) with (e, y).
  change (sym (x, p)) with (p, x). change (sym (x, q)) with (q, x).
  change (sym (p, x)) with (x, p). change (sym (q, x)) with (x, q).
  rewrite E1, E2, E3, E4. unfold weighted. cbn. lra.
Qed.
End C24.

Lemma ins_dirs_cell {O D} (inp : mesh O D) s f e : In e (inserted (CellF s) f inp) -> In e (dirs (tris inp)).
Proof.
  destruct e as [a b]. intros H. apply ins_list_In in H. apply dirs_tri in H. destruct H as [t [Ht H]].
  apply dirs_tri. exists t. split; [|exact H]. eapply visited_incl; eauto.
Qed.

Lemma C24_stencil_pf : forall (d : nat) (D : Type) k f (inp : mesh (RO d) D) fuel f' out,
  k = CellF CButterfly \/ k = EdgeF EButterfly ->
  valid inp -> dense inp -> ready k f inp -> update k fuel f inp = Ok (f', out) ->
  exists mid Ls, subdivision inp out (to_split k f inp) mid Ls /\
    forall a b m, mid a b = Some m ->
    exists x y c e p q w1 w2 w3 w4, undirected_eq (x, y) (a, b) /\
      (k = CellF CButterfly -> is_face inp x y c) /\
      cyc (ring inp y) c x /\ cyc (ring inp y) x e /\ cyc (ring inp x) y p /\ cyc (ring inp x) q y /\
      cyc (ring inp c) y w1 /\ cyc (ring inp x) p w2 /\ cyc (ring inp e) w3 y /\ cyc (ring inp x) w4 q /\
      forall i, crd out i m = (1 / 2 * (crd inp i a + crd inp i b) + 1 / 8 * (crd inp i c + crd inp i e)
                     - 1 / 16 * (crd inp i w1 + crd inp i w2 + crd inp i w3 + crd inp i w4))%R.
Proof.
  intros d D k f inp fuel f' out Hk Hv Hd Hr E.
  destruct (face_run k f inp fuel f' out Hv Hd Hr E) as [mid [Ls FR]]. exists mid, Ls.
  split; [apply (fr_sub _ _ _ _ _ _ _ FR)|]. intros a b m Hm.
  assert (HM : forall e, new_mask k inp e = butterfly_mask inp e) by (destruct Hk as [-> | ->]; reflexivity).
  destruct (fr_new _ _ _ _ _ _ _ FR a b m Hm) as [[x y] [pt [He [Hin [Hp Ho]]]]].
  pose proof (ins_dirs inp k f _ Hv Hin Hr) as Hj. cbn [fst snd] in Hj.
  destruct (butterfly_any inp x y (crd inp 0) Hv Hj) as [c [e [p [q [w1 [w2 [w3 [w4 [C1 [C2 [C3 [C4 [C5 [C6 [C7 [C8 _]]]]]]]]]]]]]]]].
  exists x, y, c, e, p, q, w1, w2, w3, w4. split; [exact He|]. split.
  { intros ->. apply ins_dirs_cell in Hin. apply dir_is_face in Hin. destruct Hin as [c' Hc'].
    pose proof (is_face_corner _ _ _ _ Hc') as HC. apply (v_corners _ Hv) in HC.
    assert (c' = c); [|subst; exact Hc'].
    apply (cyc_pred_in _ _ _ (v_ring_nodup _ Hv y)) in HC. apply (cyc_pred_in _ _ _ (v_ring_nodup _ Hv y)) in C1. congruence. }
  repeat (split; [assumption|]). intros i.
  rewrite crd_lin, (ptof_get _ _ _ Ho), (new_mask_ok (delta i) k inp (x, y) pt Hv (proj1 Hr) Hj Hp), HM.
  destruct (butterfly_any inp x y (fun id => lin (delta i) (ptof inp id)) Hv Hj)
    as [c' [e' [p' [q' [w1' [w2' [w3' [w4' [D1 [D2 [D3 [D4 [D5 [D6 [D7 [D8 ->]]]]]]]]]]]]]]]].
  assert (Fs : forall v r s t, cyc (ring inp v) r s -> cyc (ring inp v) r t -> s = t).
  { intros v r s t A B. apply (cyc_succ_in _ _ _ (v_ring_nodup _ Hv v)) in A. apply (cyc_succ_in _ _ _ (v_ring_nodup _ Hv v)) in B. congruence. }
  assert (Fp : forall v r s t, cyc (ring inp v) s r -> cyc (ring inp v) t r -> s = t).
  { intros v r s t A B. apply (cyc_pred_in _ _ _ (v_ring_nodup _ Hv v)) in A. apply (cyc_pred_in _ _ _ (v_ring_nodup _ Hv v)) in B. congruence. }
  rewrite (Fp _ _ _ _ D1 C1) in *. rewrite (Fs _ _ _ _ D2 C2) in *. rewrite (Fs _ _ _ _ D3 C3) in *. rewrite (Fp _ _ _ _ D4 C4) in *.
  rewrite (Fs _ _ _ _ D5 C5) in *. rewrite (Fs _ _ _ _ D6 C6) in *. rewrite (Fp _ _ _ _ D7 C7) in *. rewrite (Fp _ _ _ _ D8 C8) in *.
  rewrite !crd_lin. destruct He as [He|He]; cbn [fst snd] in He; inversion He; subst; lra.
Qed.

(** ** C26: which points the Loop cell filter moves *)
Lemma C26_moved_pf : forall (d : nat) (D : Type) f (inp : mesh (RO d) D) fuel f' out v i,
  valid inp -> dense inp -> no_isolated inp -> existing inp (csel f) ->
  update (CellF CLoop) fuel f inp = Ok (f', out) -> oget v (pts inp) <> None ->
  uniform f = true \/ In v (csel f) ->
  let n := length (ring inp v) in
  let beta := loop_weight (N.of_nat n) in
  (interior_vertex inp v ->
     crd out i v = ((1 - IZR (Z.of_nat n) * beta) * crd inp i v + beta * rsum (crd inp i) (ring inp v))%R) /\
  (forall B, border_neighbours inp v B -> B <> [] ->
     crd out i v = (3 / 4 * crd inp i v + 1 / 8 * rsum (crd inp i) B)%R).
Proof.
  intros d D f inp fuel f' out v i Hv Hd Hni Hc E Hin Hu n beta.
  assert (Hr : ready (CellF CLoop) f inp).
  { split; [discriminate|]. split; [intros _; exact Hni|]. exact Hc. }
  assert (Hs : smooths f v = true).
  { unfold smooths. destruct Hu as [-> | Hu]; [reflexivity|]. apply orb_true_iff. right. apply memN_In. exact Hu. }
  pose proof (smoothed_crd f inp fuel f' out v i Hv Hd Hr E Hin Hs) as ->. split.
  - intros Hi. apply vertex_interior; assumption.
  - intros B HB Hne. apply vertex_border; assumption.
Qed.

Lemma C26_unmoved_pf : forall (O : Ops) (D : Type) f (inp : mesh O D) fuel f' out v p,
  valid inp -> dense inp -> no_isolated inp -> existing inp (csel f) ->
  update (CellF CLoop) fuel f inp = Ok (f', out) -> oget v (pts inp) = Some p ->
  uniform f = false -> ~ In v (csel f) -> oget v (pts out) = Some p.
Proof.
  intros O D f inp fuel f' out v p Hv Hd Hni Hc E Hin Hu Hn.
  assert (Hr : ready (CellF CLoop) f inp).
  { split; [discriminate|]. split; [intros _; exact Hni|]. exact Hc. }
  destruct (face_run _ f inp fuel f' out Hv Hd Hr E) as [mid [Ls FR]].
  pose proof (fr_old_loop _ _ _ _ _ _ _ FR v p Hin eq_refl) as H.
  assert (Hs : smooths f v = false).
  { unfold smooths. rewrite Hu. cbn. apply not_true_is_false. intros Hm. apply Hn. apply memN_In. exact Hm. }
  rewrite Hs in H. exact H.
Qed.

Lemma C26_flag_pf : forall (O : Ops) (D : Type) k f (inp : mesh O D) fuel f' out,
  update k fuel f inp = Ok (f', out) ->
  uniform f' = true <-> match k with CellF _ => csel f = [] | EdgeF _ => esel f = [] end.
Proof.
  intros O D k f inp fuel f' out E. destruct (update_members _ _ _ _ _ _ E) as [_ [-> _]].
  destruct k; [destruct (csel f)|destruct (esel f)]; cbn; split; congruence.
Qed.

(** ** C30: point ids with gaps *)
Lemma okeys_oset_mem {A} k (v : A) m : sorted_keys m -> In k (okeys m) -> okeys (oset k v m) = okeys m.
Proof.
  induction m as [|[j w] m IH]; intros Hs Hk; [destruct Hk|]. cbn [oset].
  assert (Hs' : sorted_keys m) by (unfold sorted_keys in *; cbn in Hs; inversion Hs; assumption).
  assert (Hj : forall x, In x (okeys m) -> j < x).
  { unfold sorted_keys in Hs. cbn in Hs. inversion Hs; subst. apply Forall_forall. assumption. }
  destruct (N.ltb_spec k j) as [Hl|Hl].
  - cbn in Hk. destruct Hk as [Hk|Hk]; [lia|]. apply Hj in Hk. lia.
  - destruct (N.eqb_spec k j) as [->|Hne]; [reflexivity|]. cbn. f_equal. apply IH; [exact Hs'|].
    cbn in Hk. destruct Hk as [Hk|Hk]; [congruence|exact Hk].
Qed.

Section C30.
Context {O : Ops} {D : Type}.
Notation mesh := (mesh O D).
Notation state := (@state O D).
Notation point := (list (K O)).
Implicit Types inp out : mesh.

(** Everything but point [V] is as in [inp], and there are [V] points. *)
Definition one_slot inp (V : N) (P : omap point) : Prop :=
  okeys P = okeys (pts inp) /\ forall id, id <> V -> oget id P = oget id (pts inp).

Lemma one_slot_size inp P : one_slot inp (osize (pts inp)) P -> osize P = osize (pts inp).
Proof.
  intros [H _]. unfold osize. f_equal. apply (f_equal (@length N)) in H. unfold okeys in H. rewrite !map_length in H. exact H.
Qed.
Lemma one_slot_set inp P p : sorted_keys (pts inp) -> oget (osize (pts inp)) (pts inp) <> None ->
  one_slot inp (osize (pts inp)) P -> one_slot inp (osize (pts inp)) (oset (osize P) p P).
Proof.
  intros Hs Hk H. rewrite (one_slot_size _ _ H). destruct H as [H1 H2]. split.
  - rewrite okeys_oset_mem; [exact H1|unfold sorted_keys; rewrite H1; exact Hs|]. rewrite H1. apply oget_Some_key. exact Hk.
  - intros id Hid. rewrite oget_oset_other by congruence. apply H2. exact Hid.
Qed.

Lemma edges_loop_slot s inp : sorted_keys (pts inp) -> oget (osize (pts inp)) (pts inp) <> None ->
  forall l st st', one_slot inp (osize (pts inp)) (pts (snd st)) -> edges_loop s inp l st = Ok st' ->
  one_slot inp (osize (pts inp)) (pts (snd st')).
Proof.
  intros Hs Hk. induction l as [|[e|] l IH]; intros st st' HI; cbn [edges_loop]; [intros H; inv H; exact HI| |apply IH; exact HI].
  unfold add_new_edge_points. destruct (find_edge inp (fst e) (snd e)); [|discriminate].
  destruct (edge_point s inp e) as [p| | |]; cbn [rbind]; try discriminate. intros H. eapply IH; [|exact H].
  destruct st as [f out]. cbn [insert_edge_point snd] in *. unfold num_points, set_point, set_pts. cbn [pts]. apply one_slot_set; assumption.
Qed.
Lemma sqrt3_add_slot inp c st st' : sorted_keys (pts inp) -> oget (osize (pts inp)) (pts inp) <> None ->
  one_slot inp (osize (pts inp)) (pts (snd st)) -> add_new_cell_points CSqrt3 inp c st = Ok st' ->
  one_slot inp (osize (pts inp)) (pts (snd st')).
Proof.
  intros Hs Hk HI. cbn [add_new_cell_points]. unfold sqrt3_add_new_cell_points.
  destruct (as_triangle c) as [[[x y] z]|]; [|discriminate].
  destruct (elem_pt inp x); cbn [rbind]; try discriminate. destruct (elem_pt inp y); cbn [rbind]; try discriminate.
  destruct (elem_pt inp z); cbn [rbind]; try discriminate. intros H. inv H.
  destruct st as [f out]. cbn [snd] in *. unfold num_points, set_point, set_pts. cbn [pts]. apply one_slot_set; assumption.
Qed.

Lemma update_slot k fuel f inp f' out : k = CellF CSqrt3 \/ (exists s, k = EdgeF s) ->
  sorted_keys (pts inp) -> oget (osize (pts inp)) (pts inp) <> None ->
  update k fuel f inp = Ok (f', out) -> one_slot inp (osize (pts inp)) (pts out).
Proof.
  intros Hk Hs Hm. unfold update.
  destruct (generate_output_points k inp (f, empty_mesh)) as [st| | |] eqn:E; cbn [rbind]; try discriminate.
  intros H. apply generate_cells_pts in H. cbn [snd] in H. rewrite H. clear H.
  assert (H0 : one_slot inp (osize (pts inp)) (pts inp)) by (split; reflexivity).
  destruct Hk as [-> | [s ->]]; cbn [generate_output_points] in E.
  - unfold generate_output_points_c in E. cbn [copy_input_points_c plain_copy_input_points rbind fst snd] in E.
    assert (Ec : pts (copy_points inp (@empty_mesh O D)) = pts inp).
    { unfold copy_points. rewrite copy_points_any. cbn [pts empty_mesh]. apply (fold_oset_sorted (pts inp) []). exact Hs. }
    destruct (cells inp) as [cs|]; [|discriminate]. cbv zeta in E.
    assert (HU : forall cs st st', one_slot inp (osize (pts inp)) (pts (snd st)) ->
      uniform_cells_loop (add_new_cell_points CSqrt3 inp) cs st = Ok st' -> one_slot inp (osize (pts inp)) (pts (snd st'))).
    { clear - Hs Hm. induction cs as [|[i [c|]] cs IH]; intros st st' HI; cbn [uniform_cells_loop]; [intros H; inv H; exact HI| |discriminate].
      destruct (add_new_cell_points CSqrt3 inp c st) as [s1| | |] eqn:E; cbn [rbind]; try discriminate.
      apply IH. eapply sqrt3_add_slot; eauto. }
    assert (HS : forall sel st st', one_slot inp (osize (pts inp)) (pts (snd st)) ->
      selected_cells_loop (add_new_cell_points CSqrt3 inp) cs sel st = Ok st' -> one_slot inp (osize (pts inp)) (pts (snd st'))).
    { clear - Hs Hm. induction sel as [|i sel IH]; intros st st' HI; cbn [selected_cells_loop]; [intros H; inv H; exact HI|].
      destruct (oget i cs) as [[c|]|]; [|apply IH; exact HI|discriminate].
      destruct (add_new_cell_points CSqrt3 inp c st) as [s1| | |] eqn:E; cbn [rbind]; try discriminate.
      apply IH. eapply sqrt3_add_slot; eauto. }
    match type of E with (if ?b then _ else _) = _ => destruct b end; [eapply HU|eapply HS]; try exact E; cbn [snd]; rewrite Ec; exact H0.
  - unfold generate_output_points_e in E.
    destruct (copy_input_points_e s inp (f, empty_mesh)) as [s1| | |] eqn:Ec; cbn [rbind] in E; try discriminate.
    apply copy_e_any in Ec; auto. cbv zeta in E.
    match type of E with (if ?b then _ else _) = _ => destruct b end.
    + destruct (ecells inp) as [es|]; [|discriminate]. eapply edges_loop_slot; eauto. cbn [snd]. rewrite Ec. exact H0.
    + eapply edges_loop_slot; eauto. cbn [snd]. rewrite Ec. exact H0.
Qed.

Lemma osize_oset_le {A} k (v : A) m : osize m <= osize (oset k v m).
Proof.
  unfold osize. induction m as [|[j w] m IH]; cbn [oset]; [cbn; lia|].
  destruct (N.ltb k j); [cbn [length]; lia|]. destruct (N.eqb k j); cbn [length]; lia.
Qed.
Lemma osize_oset_new {A} k (v : A) m : sorted_keys m -> ~ In k (okeys m) -> osize (oset k v m) = osize m + 1.
Proof.
  unfold osize. induction m as [|[j w] m IH]; intros Hs Hk; cbn [oset]; [reflexivity|].
  destruct (N.ltb_spec k j); [cbn [length]; lia|]. destruct (N.eqb_spec k j); [subst; cbn in Hk; tauto|]. cbn [length].
  rewrite !Nat2N.inj_succ, IH; [lia| |cbn in Hk; tauto].
  unfold sorted_keys in *; cbn in Hs; inversion Hs; assumption.
Qed.

(** No input id is met on the way: old points stay, the new ones get the next numbers. *)
Lemma update_gap k fuel f inp f' out : sorted_keys (pts inp) -> dims (pts inp) ->
  update k fuel f inp = Ok (f', out) ->
  (forall id, oget id (pts inp) <> None -> id < osize (pts inp) \/ osize (pts out) < id) ->
  (forall id, oget id (pts out) <> None <->
     oget id (pts inp) <> None \/ (osize (pts inp) <= id /\ id < osize (pts out))) /\
  (k <> CellF CLoop -> forall id p, oget id (pts inp) = Some p -> oget id (pts out) = Some p).
Proof.
  intros Hs Hd E Hgap. set (V := osize (pts inp)) in *.
  cut ((fun n P => dims P /\ sorted_keys P /\ V <= osize P /\
     ((n = osize P /\
      (forall id, oget id P <> None <-> oget id (pts inp) <> None \/ (V <= id /\ id < n)) /\
      (k <> CellF CLoop -> forall id p, oget id (pts inp) = Some p -> oget id P = Some p)) \/
      (exists j, oget j (pts inp) <> None /\ V <= j /\ j <= osize P))) (osize (pts out)) (pts out)).
  { intros [_ [_ [_ [[_ H]|[j [Hj [H1 H2]]]]]]]; [exact H|]. destruct (Hgap j Hj); lia. }
  revert E. apply update_inv; auto.
  - intros n P H. apply H.
  - intros n P p [H1 [H2 [H3 H4]]] Hp. split; [apply dims_oset; assumption|]. split; [apply oset_sorted; exact H2|].
    pose proof (osize_oset_le n p P) as Hle. split; [lia|].
    destruct H4 as [[Hn [Hk Ho]]|[j [Hj [Hj1 Hj2]]]]; [|right; exists j; repeat split; auto; lia].
    destruct (oget n (pts inp)) as [q|] eqn:Eq; [right; exists n; rewrite Eq; repeat split; try congruence; lia|]. left.
    assert (HnP : ~ In n (okeys P)).
    { intros Hi. apply oget_Some_key, Hk in Hi. destruct Hi as [Hi|Hi]; [congruence|lia]. }
    split; [rewrite osize_oset_new by assumption; lia|]. split.
    + intros id. rewrite oget_oset. destruct (N.eqb_spec n id) as [->|Hne].
      * split; [intros _; right; lia|discriminate].
      * rewrite Hk. split; intros [H|H]; auto; right; lia.
    + intros Hkk id q Hq. rewrite oget_oset_other; [apply Ho; assumption|congruence].
  - intros n P [H1 [H2 [H3 [[Hn H4]|H4]]]]; split; auto; split; auto; split; auto. left. subst n. auto.
  - intros P HP HdP HL. assert (Hsz : osize P = V).
    { unfold V, osize. f_equal. apply (f_equal (@length N)) in HP. unfold okeys in HP. rewrite !map_length in HP. exact HP. }
    split; [exact HdP|]. split; [unfold sorted_keys; rewrite HP; exact Hs|]. split; [lia|]. left. split; [reflexivity|]. split.
    + intros id. rewrite Hsz, !oget_Some_key, HP. split; [auto|]. intros [H|H]; [exact H|lia].
    + intros Hk id p Hp. rewrite (HL Hk). exact Hp.
Qed.
End C30.

Lemma C30_gap_pf : forall (O : Ops) (D : Type) k fuel f (inp : mesh O D) f' out,
  valid inp -> update k fuel f inp = Ok (f', out) ->
  (forall id, oget id (pts inp) <> None -> (Z.of_N id < nV inp \/ nV out < Z.of_N id)%Z) ->
  (forall id, oget id (pts out) <> None <->
     oget id (pts inp) <> None \/ (nV inp <= Z.of_N id < nV out)%Z) /\
  (k <> CellF CLoop -> forall id p, oget id (pts inp) = Some p -> oget id (pts out) = Some p).
Proof.
  intros O D k fuel f inp f' out Hv E Hg.
  assert (HV : forall m : mesh O D, nV m = Z.of_N (osize (pts m))) by (intros m; unfold nV, osize; lia).
  destruct (update_gap k fuel f inp f' out (v_pts_sorted _ Hv) (v_pts_dim _ Hv) E) as [H1 H2].
  { intros id Hid. specialize (Hg id Hid). rewrite !HV in Hg. lia. }
  split; [|exact H2]. intros id. rewrite H1, !HV. split; intros [H|H]; auto; right; lia.
Qed.

Lemma C30_overwritten_pf : forall (O : Ops) (D : Type) k fuel f (inp : mesh O D) f' out V,
  k = CellF CSqrt3 \/ (exists s, k = EdgeF s) ->
  valid inp -> nV inp = Z.of_N V -> oget V (pts inp) <> None ->
  update k fuel f inp = Ok (f', out) ->
  nV out = nV inp /\ (forall id, oget id (pts out) <> None <-> oget id (pts inp) <> None) /\
  (forall id, id <> V -> oget id (pts out) = oget id (pts inp)).
Proof.
  intros O D k fuel f inp f' out V Hk Hv HV Hin E.
  assert (V = osize (pts inp)) as -> by (unfold nV, osize in *; lia).
  pose proof (update_slot k fuel f inp f' out Hk (v_pts_sorted _ Hv) Hin E) as H.
  split; [pose proof (one_slot_size _ _ H) as Hz; unfold nV, osize in *; lia|]. destruct H as [H1 H2].
  split; [|exact H2]. intros id. rewrite !oget_Some_key, H1. reflexivity.
Qed.

(** ** C31: what Update() depends on *)
Lemma C31_state_pf : forall (O : Ops) (D : Type) k fuel f g (inp : mesh O D),
  csel f = csel g -> esel f = esel g -> (k = CellF CLoop -> uniform f = uniform g) ->
  update k fuel f inp = update k fuel g inp.
Proof.
  intros O D k fuel f g inp Hc He Hu. unfold update. f_equal. destruct k as [s|s]; cbn [generate_output_points].
  - unfold generate_output_points_c.
    assert (Hg : set_uniform (set_epid f []) (is_nil (csel (set_epid f []))) = set_uniform (set_epid g []) (is_nil (csel (set_epid g [])))).
    { destruct f, g. cbn in Hc, He. subst. reflexivity. }
    destruct s; cbn [copy_input_points_c].
    2:{ unfold loop_copy_input_points. rewrite (Hu eq_refl), Hc.
        destruct (uniform g).
        - destruct (loop_copy_points inp (fun _ => true) (pts inp) empty_mesh) as [o| | |]; cbn [rbind]; try reflexivity.
          cbn [fst snd]. rewrite Hg. reflexivity.
        - destruct (smoothed_set inp (csel g)) as [l| | |]; cbn [rbind]; try reflexivity.
          destruct (loop_copy_points inp _ (pts inp) empty_mesh) as [o| | |]; cbn [rbind]; try reflexivity.
          cbn [fst snd]. rewrite Hg. reflexivity. }
    all: unfold plain_copy_input_points; cbn [rbind fst snd]; rewrite Hg; reflexivity.
  - unfold generate_output_points_e.
    assert (Hg : set_uniform (set_epid f []) (is_nil (esel (set_epid f []))) = set_uniform (set_epid g []) (is_nil (esel (set_epid g [])))).
    { destruct f, g. cbn in Hc, He. subst. reflexivity. }
    destruct s; cbn [copy_input_points_e].
    2:{ unfold loop_edge_copy_input_points. rewrite He.
        destruct (loop_edge_copy inp (esel g) (pts inp) empty_mesh) as [o| | |]; cbn [rbind fst snd]; try reflexivity.
        rewrite Hg. reflexivity. }
    all: unfold plain_copy_input_points; cbn [rbind fst snd]; rewrite Hg; reflexivity.
Qed.

Lemma C31_rerun_adaptive_pf : forall (O : Ops) (D : Type) s fuel f (inp next : mesh O D) f' out fuel',
  update (CellF s) fuel f inp = Ok (f', out) -> esel f = [] -> s <> CLoop ->
  update (CellF s) fuel' f' next = update (CellF s) fuel' (set_cells_to_be_subdivided new_filter (csel f')) next.
Proof.
  intros O D s fuel f inp next f' out fuel' E He Hs. apply C31_state_pf; [reflexivity| |congruence].
  destruct (update_members _ _ _ _ _ _ E) as [H _]. rewrite H. exact He.
Qed.

Lemma C31_rerun_loop_pf : forall (O : Ops) (D : Type) fuel f (inp next : mesh O D) f' out fuel',
  update (CellF CLoop) fuel f inp = Ok (f', out) -> esel f = [] ->
  update (CellF CLoop) fuel' f' next =
  update (CellF CLoop) fuel' (set_uniform (set_cells_to_be_subdivided new_filter (csel f')) (is_nil (csel f))) next.
Proof.
  intros O D fuel f inp next f' out fuel' E He. destruct (update_members _ _ _ _ _ _ E) as [H [Hu _]].
  apply C31_state_pf; [reflexivity|rewrite H; exact He|]. intros _. exact Hu.
Qed.

(** ** C46: cell data *)
Section C46.
Context {O : Ops} {D : Type}.
Notation mesh := (mesh O D).
Notation state := (@state O D).
Implicit Types inp out : mesh.

Lemma add_edge_cdata (m : mesh) a b m' : add_edge m a b = Some m' -> cdata m' = cdata m.
Proof.
  unfold add_edge. destruct (ins_ring _ (ring m a) b); [|discriminate]. destruct (ins_ring _ (ring m b) a); [|discriminate].
  intros H. inv H. reflexivity.
Qed.
Lemma add_missing_cdata l : forall m : mesh, cdata (fst (add_missing_edges m l)) = cdata m.
Proof.
  induction l as [|[a b] l IH]; intros m; cbn [add_missing_edges]; [reflexivity|].
  destruct (find_edge m a b); [apply IH|]. destruct (add_edge m a b) as [m'|] eqn:E; [|reflexivity].
  rewrite IH. eapply add_edge_cdata; eauto.
Qed.
Lemma link_corners_cdata l : forall m m' : mesh, link_corners m l = Some m' -> cdata m' = cdata m.
Proof.
  induction l as [|[[a b] c] l IH]; intros m m'; cbn [link_corners]; [intros H; inv H; reflexivity|].
  destruct (link_ring _ (ring m b) c a) as [r|]; [|discriminate]. intros H. apply IH in H. exact H.
Qed.
Lemma add_face_cdata (m : mesh) l : cdata (fst (add_face m l)) = cdata m.
Proof.
  unfold add_face. destruct (negb (nodupb l)); [reflexivity|].
  destruct (negb (forallb (fun p => omem p (pts m)) l)); [reflexivity|].
  destruct (existsb (left_set m) (poly_dirs l)); [reflexivity|].
  pose proof (add_missing_cdata (poly_dirs l) m) as H.
  destruct (add_missing_edges m (poly_dirs l)) as [m1 []]; cbn [fst] in H; [|exact H].
  destruct (link_corners m1 (poly_corners l)) as [m2|] eqn:E; cbn [fst]; [|exact H].
  apply link_corners_cdata in E. cbn [push_cell set_cells cdata]. congruence.
Qed.
Lemma copy_geometry_cdata (m : mesh) : cdata (copy_geometry m) = None.
Proof.
  unfold copy_geometry.
  assert (H1 : forall l (o : mesh), cdata (fold_left (fun m kv => set_point m (fst kv) (snd kv)) l o) = cdata o).
  { induction l as [|kv l IH]; intros o; cbn [fold_left]; [reflexivity|]. rewrite IH. reflexivity. }
  assert (H2 : forall (l : omap (option dedge)) (o : mesh), cdata (fold_left (fun m kv => match snd kv with
                             | Some (a, b) => fst (add_missing_edges m [(a, b)])
                             | None => m
                             end) l o) = cdata o).
  { induction l as [|[i [[a b]|]] l IH]; intros o; cbn [fold_left snd]; [reflexivity| |apply IH].
    rewrite IH. apply add_missing_cdata. }
  assert (H3 : forall (l : omap (option cell)) (o : mesh), cdata (fold_left (fun m kv => match snd kv with
                         | Some (Poly l) => fst (add_face m l)
                         | _ => m
                         end) l o) = cdata o).
  { induction l as [|[i [[p|p]|]] l IH]; intros o; cbn [fold_left snd]; [reflexivity| |apply IH|apply IH].
    rewrite IH. apply add_face_cdata. }
  unfold copy_cells, copy_ecells, copy_points. rewrite H3. destruct (ecells m); [rewrite H2|]; rewrite H1; reflexivity.
Qed.

Lemma emit_cdata inp id track t st st' : cdata inp = None -> emit inp id track t st = Ok st' -> cdata (snd st') = cdata (snd st).
Proof.
  intros Hn. destruct t as [[a b] c], st as [f out]. unfold emit. pose proof (add_face_cdata out [a; b; c]) as Hp.
  destruct (add_face out [a; b; c]) as [o1 e]. cbn [fst snd] in *.
  assert (Hq : pass_cell_data inp id e o1 = o1) by (unfold pass_cell_data; destruct e; rewrite ?Hn; reflexivity).
  rewrite Hq. destruct track; [destruct e; [|discriminate]|]; intros H; inv H; exact Hp.
Qed.
Lemma emit_all_cdata inp id track l : cdata inp = None -> forall st st', emit_all inp id track l st = Ok st' -> cdata (snd st') = cdata (snd st).
Proof.
  intros Hn. induction l as [|t l IH]; intros st st' H; cbn [emit_all] in H; [inv H; reflexivity|].
  destruct (emit inp id track t st) as [s| | |] eqn:E; cbn [rbind] in H; try discriminate.
  apply emit_cdata in E; [|exact Hn]. apply IH in H. congruence.
Qed.
Lemma cells_loop_cdata inp : cdata inp = None -> forall fuel cs st st', cells_loop fuel inp cs st = Ok st' -> cdata (snd st') = cdata (snd st).
Proof.
  intros Hn. induction fuel as [|fuel IH]; intros cs st st' H; [discriminate|]. cbn [cells_loop] in H.
  destruct cs as [|[id c] cs]; [inv H; reflexivity|].
  destruct (obind c as_triangle) as [t|]; [|eapply IH; eauto].
  destruct (split_cell inp id t st) as [s| | |] eqn:E; cbn [rbind] in H; try discriminate.
  destruct t as [[a b] d]. unfold split_cell in E. apply emit_all_cdata in E; [|exact Hn]. apply IH in H. congruence.
Qed.
Lemma sqrt3_edge_cdata inp id t ab st st' b : cdata inp = None -> sqrt3_edge inp id t ab st = Ok (st', b) -> cdata (snd st') = cdata (snd st).
Proof.
  intros Hn. unfold sqrt3_edge. intros H.
  assert (Hm : forall tr u (s st' : state) (b b' : bool), rbind (emit inp id tr u s) (fun st1 => Ok (st1, b')) = Ok (st', b) ->
            cdata (snd st') = cdata (snd s)).
  { intros tr u s s' b0 b' Hr. destruct (emit inp id tr u s) as [s1| | |] eqn:E; cbn [rbind] in Hr; inv Hr. eapply emit_cdata; eauto. }
  destruct (find_edge inp (fst ab) (snd ab)) as [e|]; [|eapply Hm; eauto].
  destruct (eget_opt (Some e) (epid (fst st))) as [c|]; [|eapply Hm; eauto].
  destruct (N.eqb c id_max); [inv H; reflexivity|].
  destruct (is_at_border inp e); [eapply Hm; eauto|].
  destruct (eget (sym e) (epid (fst st))) as [d|]; [|eapply Hm; eauto].
  destruct (emit inp id (negb (uniform (fst st))) (c, d, snd e) st) as [s1| | |] eqn:E1; cbn [rbind] in H; try discriminate.
  destruct (emit inp id (negb (uniform (fst st))) (d, c, fst e) s1) as [s2| | |] eqn:E2; cbn [rbind] in H; try discriminate.
  apply emit_cdata in E1; [|exact Hn]. apply emit_cdata in E2; [|exact Hn]. inv H. cbn [snd]. congruence.
Qed.
Lemma sqrt3_loop_cdata inp : cdata inp = None -> forall fuel cs st st', sqrt3_loop fuel inp cs st = Ok st' -> cdata (snd st') = cdata (snd st).
Proof.
  intros Hn.
  assert (Hc : forall id t st st', sqrt3_cell inp id t st = Ok st' -> cdata (snd st') = cdata (snd st)).
  { intros id [[a b] c] st st' H. unfold sqrt3_cell in H.
    destruct (sqrt3_edge inp id (a, b, c) (a, b) st) as [[s1 b1]| | |] eqn:E1; cbn [rbind] in H; try discriminate.
    apply sqrt3_edge_cdata in E1; [|exact Hn]. destruct b1; [inv H; exact E1|].
    destruct (sqrt3_edge inp id (a, b, c) (b, c) s1) as [[s2 b2]| | |] eqn:E2; cbn [rbind] in H; try discriminate.
    apply sqrt3_edge_cdata in E2; [|exact Hn]. destruct b2; [inv H; congruence|].
    destruct (sqrt3_edge inp id (a, b, c) (c, a) s2) as [[s3 b3]| | |] eqn:E3; cbn [rbind] in H; try discriminate.
    apply sqrt3_edge_cdata in E3; [|exact Hn]. inv H. congruence. }
  induction fuel as [|fuel IH]; intros cs st st' H; [discriminate|]. cbn [sqrt3_loop] in H.
  destruct cs as [|[id [c|]] cs]; [inv H; reflexivity| |discriminate].
  destruct (as_triangle c) as [t|]; [|eapply IH; eauto].
  destruct (sqrt3_cell inp id t st) as [s| | |] eqn:E; cbn [rbind] in H; try discriminate.
  apply Hc in E. apply IH in H. congruence.
Qed.

(** The points phase does not touch the cell data. *)
Lemma edge_step_cdata inp newpt ab np st np' st' : edge_step inp newpt ab (np, st) = Ok (np', st') -> cdata (snd st') = cdata (snd st).
Proof.
  unfold edge_step. destruct (eget_opt _ _); [intros H; inv H; reflexivity|].
  destruct (find_edge inp (fst ab) (snd ab)) as [e|]; [|discriminate].
  destruct (newpt e); cbn [rbind]; try discriminate. intros H. inv H. destruct st. reflexivity.
Qed.
Lemma three_steps_cdata inp newpt a b c st st' : three_edge_steps inp newpt a b c st = Ok st' -> cdata (snd st') = cdata (snd st).
Proof.
  unfold three_edge_steps.
  destruct (edge_step inp newpt (a, b) _) as [[n1 s1]| | |] eqn:E1; cbn [rbind]; try discriminate.
  destruct (edge_step inp newpt (b, c) _) as [[n2 s2]| | |] eqn:E2; cbn [rbind]; try discriminate.
  destruct (edge_step inp newpt (c, a) _) as [[n3 s3]| | |] eqn:E3; cbn [rbind]; try discriminate.
  apply edge_step_cdata in E1, E2, E3. intros H. inv H. cbn [snd] in *. congruence.
Qed.
Lemma add_cell_cdata s inp c st st' : add_new_cell_points s inp c st = Ok st' -> cdata (snd st') = cdata (snd st).
Proof.
  destruct s; cbn [add_new_cell_points];
  unfold linear_add_new_cell_points, loop_add_new_cell_points, butterfly_add_new_cell_points, sqrt3_add_new_cell_points;
  destruct (as_triangle c) as [[[x y] z]|]; try discriminate; try apply three_steps_cdata.
  destruct (elem_pt inp x); cbn [rbind]; try discriminate. destruct (elem_pt inp y); cbn [rbind]; try discriminate.
  destruct (elem_pt inp z); cbn [rbind]; try discriminate. intros H. inv H. reflexivity.
Qed.
Lemma loop_copy_cdata inp smooth : forall l out out', loop_copy_points inp smooth l out = Ok out' -> cdata out' = cdata out.
Proof.
  induction l as [|[id p] l IH]; intros out out'; cbn [loop_copy_points]; [intros H; inv H; reflexivity|].
  destruct (smooth id); [destruct (smoothing_point inp id p); cbn [rbind]; try discriminate|]; intros H; apply IH in H; exact H.
Qed.
Lemma loop_edge_copy_cdata inp es : forall l out out', loop_edge_copy inp es l out = Ok out' -> cdata out' = cdata out.
Proof.
  induction l as [|[id p] l IH]; intros out out'; cbn [loop_edge_copy]; [intros H; inv H; reflexivity|].
  destruct (ring inp id) as [|q0 rest]; [discriminate|]. rewrite copy_flag_true. intros H. apply IH in H. exact H.
Qed.
Lemma plain_copy_cdata (l : omap (list (K O))) : forall o : mesh, cdata (fold_left (fun m kv => set_point m (fst kv) (snd kv)) l o) = cdata o.
Proof. induction l as [|kv l IH]; intros o; cbn [fold_left]; [reflexivity|]. rewrite IH. reflexivity. Qed.

Lemma update_no_cdata k fuel f inp f' out : cdata inp = None -> update k fuel f inp = Ok (f', out) -> cdata out = None.
Proof.
  intros Hn. unfold update. destruct (generate_output_points k inp (f, empty_mesh)) as [st| | |] eqn:E; cbn [rbind]; try discriminate.
  intros H.
  assert (Hg : cdata (snd (f', out)) = cdata (snd st)).
  { destruct k as [[]|]; cbn [generate_cells_of] in H; unfold generate_output_cells, sqrt3_generate_output_cells in H;
    destruct (cells inp) as [cs|]; try discriminate;
    first [apply cells_loop_cdata in H | apply sqrt3_loop_cdata in H]; exact H || exact Hn. }
  cbn [snd] in Hg. rewrite Hg. clear H Hg.
  destruct k as [s|s]; cbn [generate_output_points] in E.
  - unfold generate_output_points_c in E.
    destruct (copy_input_points_c s inp (f, empty_mesh)) as [s1| | |] eqn:Ec; cbn [rbind] in E; try discriminate.
    assert (Hc : cdata (snd s1) = None).
    { destruct s; cbn [copy_input_points_c] in Ec;
      try (unfold plain_copy_input_points in Ec; inv Ec; cbn [snd fst]; unfold copy_points; rewrite plain_copy_cdata; reflexivity).
      unfold loop_copy_input_points in Ec. destruct (uniform f).
      - destruct (loop_copy_points _ _ _ _) eqn:El in Ec; cbn [rbind] in Ec; inv Ec. apply loop_copy_cdata in El. exact El.
      - destruct (smoothed_set _ _); cbn [rbind] in Ec; try discriminate.
        destruct (loop_copy_points _ _ _ _) eqn:El in Ec; cbn [rbind] in Ec; inv Ec. apply loop_copy_cdata in El. exact El. }
    destruct (cells inp) as [cs|]; [|discriminate]. cbv zeta in E.
    assert (HU : forall cs st st', uniform_cells_loop (add_new_cell_points s inp) cs st = Ok st' -> cdata (snd st') = cdata (snd st)).
    { clear. induction cs as [|[i [c|]] cs IH]; intros st st'; cbn [uniform_cells_loop]; [intros H; inv H; reflexivity| |discriminate].
      destruct (add_new_cell_points s inp c st) as [s1| | |] eqn:E; cbn [rbind]; try discriminate.
      intros H. apply IH in H. apply add_cell_cdata in E. congruence. }
    assert (HS : forall sel st st', selected_cells_loop (add_new_cell_points s inp) cs sel st = Ok st' -> cdata (snd st') = cdata (snd st)).
    { clear. induction sel as [|i sel IH]; intros st st'; cbn [selected_cells_loop]; [intros H; inv H; reflexivity|].
      destruct (oget i cs) as [[c|]|]; [|apply IH|discriminate].
      destruct (add_new_cell_points s inp c st) as [s1| | |] eqn:E; cbn [rbind]; try discriminate.
      intros H. apply IH in H. apply add_cell_cdata in E. congruence. }
    match type of E with (if ?b then _ else _) = _ => destruct b end; [apply HU in E|apply HS in E]; cbn [snd] in E; congruence.
  - unfold generate_output_points_e in E.
    destruct (copy_input_points_e s inp (f, empty_mesh)) as [s1| | |] eqn:Ec; cbn [rbind] in E; try discriminate.
    assert (Hc : cdata (snd s1) = None).
    { destruct s; cbn [copy_input_points_e] in Ec;
      try (unfold plain_copy_input_points in Ec; inv Ec; cbn [snd fst]; unfold copy_points; rewrite plain_copy_cdata; reflexivity).
      unfold loop_edge_copy_input_points in Ec.
      destruct (loop_edge_copy _ _ _ _) eqn:El in Ec; cbn [rbind] in Ec; inv Ec. apply loop_edge_copy_cdata in El. exact El. }
    assert (HE : forall l st st', edges_loop s inp l st = Ok st' -> cdata (snd st') = cdata (snd st)).
    { clear. induction l as [|[e|] l IH]; intros st st'; cbn [edges_loop]; [intros H; inv H; reflexivity| |apply IH].
      unfold add_new_edge_points. destruct (find_edge _ _ _); [|discriminate].
      destruct (edge_point s inp e); cbn [rbind]; try discriminate. intros H. apply IH in H. destruct st. exact H. }
    cbv zeta in E.
    match type of E with (if ?b then _ else _) = _ => destruct b end.
    + destruct (ecells inp) as [es|]; [|discriminate]. apply HE in E. cbn [snd] in E. congruence.
    + apply HE in E. cbn [snd] in E. congruence.
Qed.

Lemma conditional_no_cdata k crit : forall fuel s f out f' out', cdata out = None ->
  conditional_loop fuel k crit s f out = Ok (f', out') -> cdata out' = None.
Proof.
  induction fuel as [|fuel IH]; intros s f out f' out' Hn; cbn [conditional_loop]; [discriminate|].
  destruct (sel_empty s); [intros H; inv H; exact Hn|].
  destruct (update k fuel (apply_selection f s) out) as [[g o]| | |] eqn:E; cbn [rbind]; try discriminate.
  destruct (crit fuel o s) as [s'| | |]; cbn [rbind]; try discriminate. apply IH. eapply update_no_cdata; eauto.
Qed.
End C46.

Lemma C46_no_data_pf : forall (O : Ops) (D : Type) fuel k crit old f (inp : mesh O D) f' out id,
  conditional_update fuel k crit old f inp = Ok (f', out) -> cell_datum out id = None.
Proof.
  intros O D fuel k [cr|] old f inp f' out id; cbn [conditional_update]; [|discriminate].
  destruct (cr fuel (copy_geometry inp) old) as [s| | |]; cbn [rbind]; try discriminate.
  intros H. apply conditional_no_cdata in H; [|apply copy_geometry_cdata]. unfold cell_datum. rewrite H. reflexivity.
Qed.

(** ** C49: missing containers *)
Lemma C49_no_cells_pf : forall (O : Ops) (D : Type) (inp : mesh O D), cells inp = None ->
  (forall s fuel f, s <> CLoop -> update (CellF s) fuel f inp = Undef NullDeref) /\
  (forall fuel f, exists u, update (CellF CLoop) fuel f inp = Undef u) /\
  (forall s fuel f st, update (EdgeF s) fuel f inp <> Ok st) /\
  (forall maxarea fuel old, cell_area_criterion maxarea fuel inp old = Throw NoCells).
Proof.
  intros O D inp Hn.
  assert (Hsm : forall v p, (exists u, smoothing_point inp v p = Undef u) \/ exists q, smoothing_point inp v p = Ok q).
  { intros v p. unfold smoothing_point. destruct (ring inp v) as [|x r]; [left; eauto|].
    assert (H : forall r b nb o nn, (exists u, smooth_sums inp v r b nb o nn = Undef u) \/ exists q, smooth_sums inp v r b nb o nn = Ok q).
    { clear. induction r as [|x r IH]; intros b nb o nn; cbn [smooth_sums]; [right; eauto|].
      unfold elem_pt. destruct (oget x (pts inp)); cbn [rbind]; [|left; eauto]. destruct (is_at_border inp (v, x)); apply IH. }
    destruct (H (x :: r) pzero 0 pzero 0) as [[u ->]|[[[[b nb] o] nn] ->]]; cbn [rbind]; [left; eauto|right].
    destruct (N.eqb nb 0); eauto. }
  assert (Hcp : forall sm l out, (exists u, loop_copy_points inp sm l out = Undef u) \/ exists q, loop_copy_points inp sm l out = Ok q).
  { induction l as [|[id p] l IH]; intros out; cbn [loop_copy_points]; [right; eauto|].
    destruct (sm id); [|apply IH]. destruct (Hsm id p) as [[u ->]|[q ->]]; cbn [rbind]; [left; eauto|apply IH]. }
  split; [|split; [|split]].
  - intros s fuel f Hs. unfold update. cbn [generate_output_points]. unfold generate_output_points_c.
    destruct s; try congruence; cbn [copy_input_points_c plain_copy_input_points rbind]; rewrite Hn; reflexivity.
  - intros fuel f. unfold update. cbn [generate_output_points]. unfold generate_output_points_c. cbn [copy_input_points_c].
    unfold loop_copy_input_points. destruct (uniform f).
    + destruct (Hcp (fun _ => true) (pts inp) empty_mesh) as [[u ->]|[q ->]]; cbn [rbind]; [eauto|]. rewrite Hn. cbn. eauto.
    + destruct (csel f) as [|i l] eqn:Ef; cbn [smoothed_set].
      * cbn [rbind]. destruct (Hcp (fun id => memN id []) (pts inp) empty_mesh) as [[u ->]|[q ->]]; cbn [rbind]; [eauto|]. rewrite Hn. cbn. eauto.
      * rewrite Hn. cbn. eauto.
  - intros s fuel f st. unfold update. destruct (generate_output_points _ _ _); cbn [rbind]; try discriminate.
    cbn [generate_cells_of]. unfold generate_output_cells. rewrite Hn. discriminate.
  - intros maxarea fuel old. unfold cell_area_criterion. rewrite Hn. destruct (sel_clear old); reflexivity.
Qed.

Lemma C49_no_edges_pf : forall (O : Ops) (D : Type) (inp : mesh O D), ecells inp = None ->
  (forall s fuel f, esel f = [] -> s <> ELoop -> update (EdgeF s) fuel f inp = Throw NoEdges) /\
  (forall fuel f, esel f = [] -> (forall id, oget id (pts inp) <> None -> ring inp id <> []) ->
     update (EdgeF ELoop) fuel f inp = Throw NoEdges) /\
  (forall maxlen fuel old, edge_length_criterion maxlen fuel inp old = Throw NoEdges).
Proof.
  intros O D inp Hn. split; [|split].
  - intros s fuel f He Hs. unfold update. cbn [generate_output_points]. unfold generate_output_points_e.
    destruct s; try congruence; unfold copy_input_points_e, plain_copy_input_points; cbn; rewrite He; cbn; rewrite Hn; reflexivity.
  - intros fuel f He Hr. unfold update. cbn [generate_output_points]. unfold generate_output_points_e. cbn [copy_input_points_e].
    unfold loop_edge_copy_input_points.
    assert (H : forall l (out : mesh O D), (forall id p, In (id, p) l -> ring inp id <> []) -> exists o, loop_edge_copy inp (esel f) l out = Ok o).
    { induction l as [|[id p] l IH]; intros out Hl; cbn [loop_edge_copy]; [eauto|].
      destruct (ring inp id) as [|q0 rest] eqn:Er; [exfalso; apply (Hl id p); [left; reflexivity|exact Er]|].
      rewrite copy_flag_true. apply IH. intros i q Hi. eapply Hl. right. exact Hi. }
    destruct (H (pts inp) empty_mesh) as [o Ho].
    { intros id p Hin. apply Hr. apply oget_Some_key. apply (in_map fst) in Hin. exact Hin. }
    rewrite Ho. cbn [rbind fst snd]. cbn. rewrite He. cbn. rewrite Hn. reflexivity.
  - intros maxlen fuel old. unfold edge_length_criterion. rewrite Hn. destruct (sel_clear old); reflexivity.
Qed.
