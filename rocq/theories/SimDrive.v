(** * SimDrive: the drivers of two simulating runs, for any relation between the points. *)
From Verif Require Import Base Mesh Filters Drivers Spec Lists Sim.

Section SIMDRIVE.
Context {O1 O2 : Ops} {D1 D2 : Type}.
Variable Rp : list (K O1) -> list (K O2) -> Prop.
Notation msim := (@msim O1 O2 D1 D2 Rp).
Notation ssim := (@ssim O1 O2 D1 D2 Rp).

Lemma sim_copy_geometry (m1 : mesh O1 D1) (m2 : mesh O2 D2) : msim m1 m2 -> msim (copy_geometry m1) (copy_geometry m2).
Proof.
  intros H. unfold copy_geometry.
  assert (P : msim (copy_points m1 empty_mesh) (copy_points m2 empty_mesh)).
  { unfold copy_points. apply sim_copy_points; [exact (proj1 H)|apply sim_empty]. }
  assert (E : msim (copy_ecells m1 (copy_points m1 empty_mesh)) (copy_ecells m2 (copy_points m2 empty_mesh))).
  { unfold copy_ecells. rewrite (sim_ecells Rp m1 m2 H). destruct (ecells m2) as [es|]; [|exact P].
    revert P. generalize (copy_points m1 empty_mesh), (copy_points m2 empty_mesh).
    induction es as [|[i [[a b]|]] es IH]; intros a1 a2 P; cbn [fold_left snd]; [exact P| |apply IH; exact P].
    apply IH. apply sim_add_missing. exact P. }
  unfold copy_cells. assert (C : cells_list m1 = cells_list m2) by (unfold cells_list; rewrite (sim_cells Rp m1 m2 H); reflexivity). rewrite C. clear C.
  revert E. generalize (copy_ecells m1 (copy_points m1 empty_mesh)), (copy_ecells m2 (copy_points m2 empty_mesh)).
  induction (cells_list m2) as [|[i c] cs IH]; intros a1 a2 E; cbn [fold_left snd]; [exact E|].
  apply IH. destruct c as [[l|]|]; try exact E. apply sim_add_face. exact E.
Qed.

(** ** The two criteria *)
Section CRIT.
Variables (t1 : K O1) (t2 : K O2).
Lemma sim_area (m1 : mesh O1 D1) (m2 : mesh O2 D2) :
  (forall p q r p' q' r', Rp p p' -> Rp q q' -> Rp r r' -> kgtb O1 (area p q r) t1 = kgtb O2 (area p' q' r') t2) ->
  msim m1 m2 -> forall fuel old, rsim eq (cell_area_criterion t1 fuel m1 old) (cell_area_criterion t2 fuel m2 old).
Proof.
  intros HA H fuel old.
  assert (L : forall fuel cs acc, rsim eq (cell_area_loop fuel t1 m1 cs acc) (cell_area_loop fuel t2 m2 cs acc)).
  { induction fuel0 as [|n IH]; intros cs acc; cbn [cell_area_loop]; [exact I|]. destruct cs as [|[id c] cs]; [reflexivity|].
    destruct (obind c as_triangle) as [[[a b] e]|]; [|apply IH].
    eapply rbind_sim; [apply sim_get_pt; exact H|]. intros pa pa' Ha.
    eapply rbind_sim; [apply sim_get_pt; exact H|]. intros pb pb' Hb.
    eapply rbind_sim; [apply sim_get_pt; exact H|]. intros pc pc' Hc.
    rewrite (HA _ _ _ _ _ _ Ha Hb Hc). destruct (kgtb O2 (area pa' pb' pc') t2); apply IH. }
  unfold cell_area_criterion. rewrite (sim_cells Rp m1 m2 H). destruct (sel_clear old); destruct (cells m2); try reflexivity;
    (eapply rbind_sim; [apply L|]); intros ? ? ->; reflexivity.
Qed.
Lemma sim_length (m1 : mesh O1 D1) (m2 : mesh O2 D2) :
  (forall p q p' q', Rp p p' -> Rp q q' -> kgtb O1 (dist p q) t1 = kgtb O2 (dist p' q') t2) ->
  msim m1 m2 -> forall fuel old, rsim eq (edge_length_criterion t1 fuel m1 old) (edge_length_criterion t2 fuel m2 old).
Proof.
  intros HA H fuel old.
  assert (L : forall es acc, rsim eq (edge_length_loop t1 m1 es acc) (edge_length_loop t2 m2 es acc)).
  { induction es as [|[e|] es IH]; intros acc; cbn [edge_length_loop]; [reflexivity| |apply IH].
    eapply rbind_sim; [apply sim_get_pt; exact H|]. intros pa pa' Ha.
    eapply rbind_sim; [apply sim_get_pt; exact H|]. intros pb pb' Hb.
    rewrite (HA _ _ _ _ Ha Hb). destruct (kgtb O2 (dist pa' pb') t2); apply IH. }
  unfold edge_length_criterion. rewrite (sim_ecells Rp m1 m2 H). destruct (sel_clear old); destruct (ecells m2); try reflexivity;
    (eapply rbind_sim; [apply L|]); intros ? ? ->; reflexivity.
Qed.
End CRIT.

(** ** The conditional filter *)
Section COND.
Variables (k : kind) (c1 : @criterion O1 D1) (c2 : @criterion O2 D2) (J : mesh O1 D1 -> mesh O2 D2 -> Prop).
Hypothesis Hcrit : forall m1 m2 fuel old, msim m1 m2 -> J m1 m2 -> rsim eq (c1 fuel m1 old) (c2 fuel m2 old).
Hypothesis Hstep : forall m1 m2 n old s fuel f, msim m1 m2 -> J m1 m2 -> c1 n m1 old = Ok s -> sel_empty s = false ->
  rsim (fun a b => ssim a b /\ J (snd a) (snd b)) (update k fuel (apply_selection f s) m1) (update k fuel (apply_selection f s) m2).

Lemma cond_loop_sim fuel : forall s n old f m1 m2, msim m1 m2 -> J m1 m2 -> c1 n m1 old = Ok s ->
  rsim ssim (conditional_loop fuel k c1 s f m1) (conditional_loop fuel k c2 s f m2).
Proof.
  induction fuel as [|fuel IH]; intros s n old f m1 m2 HM HJ E; cbn [conditional_loop]; [exact I|].
  destruct (sel_empty s) eqn:Es; [split; [reflexivity|exact HM]|].
  pose proof (Hstep m1 m2 n old s fuel f HM HJ E Es) as U. eapply rbind_sim; [exact U|].
  intros [f1 o1] [f2 o2] [[X Y] Z]. cbn [fst snd] in X, Y, Z. subst f2.
  pose proof (Hcrit o1 o2 fuel s Y Z) as C. destruct (c1 fuel o1 s) as [s1| | |] eqn:E1, (c2 fuel o2 s) as [s2| | |]; cbn in C |- *; try contradiction; try exact C.
  subst s2. eapply IH; eauto.
Qed.
Lemma cond_sim fuel old f m1 m2 : msim m1 m2 -> J (copy_geometry m1) (copy_geometry m2) ->
  rsim ssim (conditional_update fuel k (Some c1) old f m1) (conditional_update fuel k (Some c2) old f m2).
Proof.
  intros HM HJ. unfold conditional_update. pose proof (sim_copy_geometry _ _ HM) as HC. pose proof (Hcrit _ _ fuel old HC HJ) as C.
  destruct (c1 fuel (copy_geometry m1) old) as [s1| | |] eqn:E1, (c2 fuel (copy_geometry m2) old) as [s2| | |]; cbn in C |- *; try contradiction; try exact C.
  subst s2. eapply cond_loop_sim; eauto.
Qed.
End COND.

(** ** The iterative filter *)
Section ITER.
Variables (s : cscheme) (J : list N -> mesh O1 D1 -> mesh O2 D2 -> Prop).
Hypothesis Hstep : forall m1 m2 fuel sel, msim m1 m2 -> J sel m1 m2 ->
  rsim (fun a b => ssim a b /\ J (csel (fst a)) (snd a) (snd b)) (update (CellF s) fuel (set_cells_to_be_subdivided new_filter sel) m1)
       (update (CellF s) fuel (set_cells_to_be_subdivided new_filter sel) m2).
Lemma iter_sim n fuel : forall sel m1 m2, msim m1 m2 -> J sel m1 m2 ->
  rsim ssim (iterative_levels n s fuel sel m1) (iterative_levels n s fuel sel m2).
Proof.
  induction n as [|n IH]; intros sel m1 m2 HM HJ; cbn [iterative_levels]; [split; [reflexivity|exact HM]|].
  eapply rbind_sim; [apply Hstep; eauto|]. intros [f1 o1] [f2 o2] [[X Y] Z]. cbn [fst snd] in X, Y, Z. subst f2.
  destruct n; [split; [reflexivity|exact Y]|apply IH; auto].
Qed.
End ITER.
End SIMDRIVE.
