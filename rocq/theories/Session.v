(** * Session: what is left of earlier calls (C105). *)
From Verif Require Import Base Mesh Filters Drivers Spec SpecSub SpecSession Lists Any Truth.

Section SESSION.
Context {O : Ops} {D : Type}.
Notation mesh := (mesh O D).
Implicit Types inp out : mesh.

Lemma edge_only s fuel f g inp : esel f = esel g -> update (EdgeF s) fuel f inp = update (EdgeF s) fuel g inp.
Proof.
  intros He. unfold update. cbn [generate_output_points].
  unfold generate_output_points_e. rewrite (copy_e_indep s inp f g) by auto.
  destruct (copy_input_points_e s inp (f, empty_mesh)) as [[f1 o1]| | |] eqn:E1; cbn [rbind]; try reflexivity.
  apply copy_e_members in E1. cbn [fst snd] in *. subst f1.
  assert (Hs : set_uniform (set_epid g []) (is_nil (esel (set_epid g []))) =
               set_cells_to_be_subdivided (set_uniform (set_epid f []) (is_nil (esel (set_epid f [])))) (csel g)).
  { unfold set_uniform, set_epid, set_cells_to_be_subdivided. cbn. rewrite He. reflexivity. }
  rewrite Hs. cbn [uniform set_cells_to_be_subdivided set_uniform esel].
  assert (HL : forall l h o, rbind (edges_loop s inp l (set_cells_to_be_subdivided h (csel g), o)) (generate_cells_of (EdgeF s) fuel inp) =
    rbind (edges_loop s inp l (h, o)) (generate_cells_of (EdgeF s) fuel inp)).
  { intros l h o. rewrite edges_loop_csel. destruct (edges_loop s inp l (h, o)) as [[f2 o2]| | |]; cbn [rbind]; try reflexivity. }
  cbn [esel set_epid]. rewrite <- ?He.
  destruct (is_nil (esel f)).
  - destruct (ecells inp); [|reflexivity]. symmetry. apply HL.
  - symmetry. apply HL.
Qed.

Lemma cells_state s c f : cells_session (O := O) (D := D) s c f -> csel f = chosen c /\ esel f = [] /\ uniform f = last_uniform c.
Proof.
  induction 1 as [|c f l H [H1 [H2 H3]]|c f i H [H1 [H2 H3]]|c f fuel inp f' out H [H1 [H2 H3]] E]; cbn; auto.
  - rewrite H1. auto.
  - destruct (update_members _ _ _ _ _ _ E) as [E1 [E2 _]]. split; [reflexivity|]. split; [congruence|].
    rewrite E2, H1. destruct (chosen c); reflexivity.
Qed.

Lemma edges_state s c f : edges_session (O := O) (D := D) s c f -> esel f = chosen_edges c.
Proof.
  induction 1 as [|c f l H IH|c f i H IH|c f fuel inp f' out H IH E]; cbn; auto.
  - rewrite IH. reflexivity.
  - destruct (update_members _ _ _ _ _ _ E) as [E1 _]. congruence.
Qed.

Lemma iter_state s c i : iter_session (O := O) (D := D) s c i -> i = IObject (chosen_levels c) (chosen_iter c).
Proof.
  induction 1 as [|c i n H IH|c i l H IH|c i id H IH|c i fuel inp i' out H IH E]; cbn; auto; try (rewrite IH; reflexivity).
  unfold iterative_run in E. destruct (iterative_update s (i_levels i) fuel (i_cells i) inp) as [[f o]| | |]; cbn in E; try discriminate. congruence.
Qed.
End SESSION.

Lemma C105_cells_pf : forall (O : Ops) (D : Type) (s : cscheme) c f, cells_session (O := O) (D := D) s c f ->
  csel f = chosen c /\
  forall fuel (inp : mesh O D), update (CellF s) fuel f inp =
    update (CellF s) fuel (set_cells_to_be_subdivided (match s with CLoop => set_uniform new_filter (last_uniform c) | _ => new_filter end) (chosen c)) inp.
Proof.
  intros O D s c f H. destruct (cells_state s c f H) as [H1 [H2 H3]]. split; [exact H1|]. intros fuel inp.
  apply C31_state_pf; [rewrite H1|rewrite H2|]; [destruct s; reflexivity|destruct s; reflexivity|].
  intros E. inversion E. subst s. cbn. exact H3.
Qed.

Lemma C105_edges_pf : forall (O : Ops) (D : Type) (s : escheme) c f, edges_session (O := O) (D := D) s c f ->
  esel f = chosen_edges c /\
  forall fuel (inp : mesh O D), update (EdgeF s) fuel f inp = update (EdgeF s) fuel (set_edges_to_be_subdivided new_filter (chosen_edges c)) inp.
Proof.
  intros O D s c f H. pose proof (edges_state s c f H) as H1. split; [exact H1|]. intros fuel inp. apply edge_only. exact H1.
Qed.

Lemma C105_iterative_pf : forall (O : Ops) (D : Type) (s : cscheme) c i, iter_session (O := O) (D := D) s c i ->
  i_levels i = chosen_levels c /\ i_cells i = chosen_iter c /\
  forall fuel (inp : mesh O D), outcome (iterative_run s fuel i inp) = outcome (iterative_update s (chosen_levels c) fuel (chosen_iter c) inp).
Proof.
  intros O D s c i H. rewrite (iter_state s c i H). split; [reflexivity|]. split; [reflexivity|]. intros fuel inp. unfold iterative_run, outcome.
  cbn [i_levels i_cells]. destruct (iterative_update s (chosen_levels c) fuel (chosen_iter c) inp) as [[]| | |]; reflexivity.
Qed.

(** The conditional filter. *)
Section COND.
Context {O : Ops} {D : Type}.
Notation mesh := (mesh O D).

Lemma cond_loop_state k (cr : @criterion O D) f g s fuel (m : mesh) : 
  (forall n, update k n (apply_selection f s) m = update k n (apply_selection g s) m) ->
  outcome (conditional_loop fuel k cr s f m) = outcome (conditional_loop fuel k cr s g m).
Proof.
  intros H. destruct fuel as [|fuel]; [reflexivity|]. cbn [conditional_loop]. destruct (sel_empty s); [reflexivity|]. rewrite H. reflexivity.
Qed.
End COND.

Lemma C105_area_pf : forall (O : Ops) (D : Type) s (t : K O) c1 c2 f1 f2 l1 l2 fuel (inp : mesh O D),
  cells_session (O := O) (D := D) s c1 f1 -> cells_session (O := O) (D := D) s c2 f2 -> (s = CLoop -> last_uniform c1 = last_uniform c2) ->
  outcome (conditional_update fuel (CellF s) (Some (cell_area_criterion t)) (SelCells l1) f1 inp) =
  outcome (conditional_update fuel (CellF s) (Some (cell_area_criterion t)) (SelCells l2) f2 inp).
Proof.
  intros O D s t c1 c2 f1 f2 l1 l2 fuel inp S1 S2 HL. destruct (cells_state s c1 f1 S1) as [_ [A2 A3]]. destruct (cells_state s c2 f2 S2) as [_ [B2 B3]].
  unfold conditional_update. unfold cell_area_criterion at 1 3. cbn [sel_clear].
  destruct (cells (copy_geometry inp)) as [cs|]; [|reflexivity].
  destruct (cell_area_loop fuel t (copy_geometry inp) cs []) as [l| | |]; cbn [rbind]; try reflexivity.
  apply cond_loop_state. intros n. apply C31_state_pf; cbn; [reflexivity|congruence|].
  intros E. injection E as E. rewrite A3, B3. auto.
Qed.

Lemma C105_length_pf : forall (O : Ops) (D : Type) s (t : K O) f1 f2 l1 l2 fuel (inp : mesh O D),
  outcome (conditional_update fuel (EdgeF s) (Some (edge_length_criterion t)) (SelEdges l1) f1 inp) =
  outcome (conditional_update fuel (EdgeF s) (Some (edge_length_criterion t)) (SelEdges l2) f2 inp).
Proof.
  intros O D s t f1 f2 l1 l2 fuel inp. unfold conditional_update. unfold edge_length_criterion at 1 3. cbn [sel_clear].
  destruct (ecells (copy_geometry inp)) as [es|]; [|reflexivity].
  destruct (edge_length_loop t (copy_geometry inp) (map snd es) []) as [l| | |]; cbn [rbind]; try reflexivity.
  apply cond_loop_state. intros n. apply edge_only. reflexivity.
Qed.
