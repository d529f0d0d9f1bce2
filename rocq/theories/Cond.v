(** * Cond: rounds of the conditional filter and levels of the iterative filter on valid meshes. *)
From Coq Require Import Reals Lra Sorted.
From Verif Require Import Base Mesh Filters Drivers Spec SpecSub Lists AddFace SplitTri Split Points Valid Run Update Struct Count Face Copy PtsAny SpecGeo Geo GeoProps SpecDrive Drive Area.

Section COND.
Context {O : Ops} {D : Type}.
Notation mesh := (mesh O D).
Notation state := (@state O D).
Implicit Types m inp out : mesh.

(** ** One Update() on a valid mesh *)
Lemma step_ok k f inp fuel f' out : valid inp -> dense inp -> tris inp <> [] -> ready k f inp ->
  update k fuel f inp = Ok (f', out) ->
  valid out /\ dense out /\ tris out <> [] /\ no_wire out /\
  (no_isolated inp -> no_wire inp -> no_isolated out).
Proof.
  intros Hv Hd Hne Hr E. destruct (face_run k f inp fuel f' out Hv Hd Hr E) as [mid [Ls FR]].
  destruct (fr_valid _ _ _ _ _ _ _ FR Hne) as [Hvo Hdo]. pose proof (fr_sub _ _ _ _ _ _ _ FR) as Hsd.
  split; [exact Hvo|]. split; [exact Hdo|]. split; [|split].
  - rewrite (sd_tris _ _ _ _ _ Hsd). pose proof (sd_refines _ _ _ _ _ Hsd) as HF.
    destruct (tris inp) as [|t T]; [congruence|]. inv HF. pose proof (rf_count _ _ _ H1) as Hc.
    destruct y; [cbn in Hc; discriminate|]. cbn. discriminate.
  - apply (sd_nowire _ _ _ _ _ Hsd).
  - intros Hi Hw. apply (no_isolated_out inp out _ mid Ls Hv Hvo Hsd Hi Hw). intros a b H.
    eapply to_split_joined; eauto.
Qed.

(** ** Fuel *)
Definition crit_mono (cr : @criterion O D) : Prop :=
  forall fuel n m old, cr fuel m old <> OutOfFuel -> cr (fuel + n)%nat m old = cr fuel m old.
Lemma area_loop_mono t m : forall fuel n cs acc, cell_area_loop fuel t m cs acc <> OutOfFuel ->
  cell_area_loop (fuel + n) t m cs acc = cell_area_loop fuel t m cs acc.
Proof.
  induction fuel as [|fuel IH]; intros n cs acc H; [exfalso; apply H; reflexivity|].
  cbn [cell_area_loop Nat.add] in *. destruct cs as [|[id c] cs]; [reflexivity|].
  destruct (obind c as_triangle) as [[[a b] e]|]; [|apply IH; exact H].
  destruct (get_pt m a); cbn [rbind] in *; try reflexivity. destruct (get_pt m b); cbn [rbind] in *; try reflexivity.
  destruct (get_pt m e); cbn [rbind] in *; try reflexivity.
  match goal with |- context [if ?b then _ else _] => destruct b end; apply IH; exact H.
Qed.
Lemma area_crit_mono t : crit_mono (cell_area_criterion t).
Proof.
  intros fuel n m old H. unfold cell_area_criterion in *. destruct old as [l|l]; cbn [sel_clear] in *;
  (destruct (cells m) as [cs|]; [|reflexivity]);
  (assert (E : cell_area_loop (fuel + n) t m cs [] = cell_area_loop fuel t m cs []);
   [apply area_loop_mono; intros E; rewrite E in H; apply H; reflexivity|rewrite E; reflexivity]).
Qed.
Lemma edge_crit_mono t : crit_mono (edge_length_criterion t).
Proof. intros fuel n m old H. reflexivity. Qed.

Lemma cond_loop_mono k cr : crit_mono cr -> forall fuel n s f m, conditional_loop fuel k cr s f m <> OutOfFuel ->
  conditional_loop (fuel + n) k cr s f m = conditional_loop fuel k cr s f m.
Proof.
  intros Hc. induction fuel as [|fuel IH]; intros n s f m H; [exfalso; apply H; reflexivity|].
  cbn [conditional_loop Nat.add] in *. destruct (sel_empty s); [reflexivity|].
  assert (Hu : update k fuel (apply_selection f s) m <> OutOfFuel) by (intros E; rewrite E in H; apply H; reflexivity).
  rewrite (update_mono _ _ _ _ n Hu). destruct (update k fuel (apply_selection f s) m) as [[f1 m1]| | |]; cbn [rbind] in *; try reflexivity.
  assert (Hq : cr fuel m1 s <> OutOfFuel) by (intros E; rewrite E in H; apply H; reflexivity).
  rewrite (Hc _ n _ _ Hq). destruct (cr fuel m1 s); cbn [rbind] in *; try reflexivity. apply IH. exact H.
Qed.
Lemma cond_mono k cr : crit_mono cr -> forall fuel n old f m, conditional_update fuel k (Some cr) old f m <> OutOfFuel ->
  conditional_update (fuel + n) k (Some cr) old f m = conditional_update fuel k (Some cr) old f m.
Proof.
  intros Hc fuel n old f m H. unfold conditional_update in *.
  assert (Hq : cr fuel (copy_geometry m) old <> OutOfFuel) by (intros E; rewrite E in H; apply H; reflexivity).
  rewrite (Hc _ n _ _ Hq). destruct (cr fuel (copy_geometry m) old); cbn [rbind] in *; try reflexivity.
  apply cond_loop_mono; assumption.
Qed.
Lemma cond_completes k cr old f m fuel r : crit_mono cr -> conditional_update fuel k (Some cr) old f m = r -> r <> OutOfFuel ->
  completes (fun n => conditional_update n k (Some cr) old f m) r.
Proof.
  intros Hc E Hr. split; [exact Hr|]. exists fuel. intros n Hn. replace n with (fuel + (n - fuel))%nat by lia.
  rewrite cond_mono; [exact E|exact Hc|rewrite E; exact Hr].
Qed.

(** ** Rounds *)
Section ROUNDS.
Variables (k : kind) (cr : @criterion O D) (selof : mesh -> selection) (G : mesh -> Prop).
Hypothesis Hmono : crit_mono cr.
Hypothesis Hcrit : forall m old, G m -> exists fuel, cr fuel m old = Ok (selof m).
Hypothesis Hdet : forall fuel m old s, cr fuel m old = Ok s -> s = selof m.
Hypothesis Hready : forall m f, G m -> sel_empty (selof m) = false -> ready k (apply_selection f (selof m)) m.
Hypothesis Hgood : forall m, G m -> valid m /\ dense m.
Hypothesis Hstep : forall m f fuel f' m', G m -> sel_empty (selof m) = false ->
  update k fuel (apply_selection f (selof m)) m = Ok (f', m') -> G m'.

Lemma crit_fuel m old : G m -> exists n, forall fuel, (n <= fuel)%nat -> cr fuel m old = Ok (selof m).
Proof.
  intros HG. destruct (Hcrit m old HG) as [n Hn]. exists n. intros fuel Hf. replace fuel with (n + (fuel - n))%nat by lia.
  rewrite Hmono; congruence.
Qed.

Lemma rounds_terminate (Q : nat -> mesh -> Prop) :
  (forall m, G m -> Q 0%nat m -> sel_empty (selof m) = true) ->
  (forall n m f fuel f' m', G m -> Q (S n) m -> sel_empty (selof m) = false ->
     update k fuel (apply_selection f (selof m)) m = Ok (f', m') -> Q n m') ->
  forall n m f, G m -> Q n m -> exists fuel f' out, conditional_loop fuel k cr (selof m) f m = Ok (f', out).
Proof.
  intros Q0 QS. induction n as [|n IH]; intros m f HG HQ.
  - exists 1%nat, f, m. cbn [conditional_loop]. rewrite (Q0 m HG HQ). reflexivity.
  - destruct (sel_empty (selof m)) eqn:Es.
    + exists 1%nat, f, m. cbn [conditional_loop]. rewrite Es. reflexivity.
    + destruct (Hgood m HG) as [Hv Hd].
      destruct (face_completes k _ m Hv Hd (Hready m f HG Es)) as [f1 [m1 [_ [n1 H1]]]]. cbv beta in H1.
      pose proof (H1 n1 (le_n n1)) as E1.
      assert (HG1 : G m1) by (eapply Hstep; eauto). assert (HQ1 : Q n m1) by (exact (QS n m f n1 f1 m1 HG HQ Es E1)).
      destruct (IH m1 f1 HG1 HQ1) as [n3 [f' [out E3]]].
      destruct (crit_fuel m1 (selof m) HG1) as [n2 H2].
      exists (S (Nat.max n1 (Nat.max n2 n3))), f', out. cbn [conditional_loop]. rewrite Es.
      rewrite H1 by lia. cbn [rbind]. rewrite H2 by lia. cbn [rbind].
      replace (Nat.max n1 (Nat.max n2 n3)) with (n3 + (Nat.max n1 (Nat.max n2 n3) - n3))%nat by lia.
      rewrite cond_loop_mono; [exact E3|exact Hmono|congruence].
Qed.

Lemma chained_cons m k' f fuel f' m1 n out : ready k' f m -> update k' fuel f m = Ok (f', m1) -> chained m1 n out -> chained m (S n) out.
Proof.
  intros Hr E H. induction H as [|n m2 k2 f2 fuel2 f2' out H IH Hr2 E2].
  - eapply chained_S; [apply chained_0|exact Hr|exact E].
  - eapply chained_S; [exact IH|exact Hr2|exact E2].
Qed.

Lemma rounds_chain : forall fuel m f f' out, G m -> conditional_loop fuel k cr (selof m) f m = Ok (f', out) ->
  G out /\ sel_empty (selof out) = true /\ exists n, chained m n out.
Proof.
  induction fuel as [|fuel IH]; intros m f f' out HG H; [discriminate|]. cbn [conditional_loop] in H.
  destruct (sel_empty (selof m)) eqn:Es.
  - inv H. split; [exact HG|]. split; [exact Es|]. exists 0%nat. apply chained_0.
  - destruct (update k fuel (apply_selection f (selof m)) m) as [[f1 m1]| | |] eqn:E; cbn [rbind] in H; try discriminate.
    destruct (cr fuel m1 (selof m)) as [s1| | |] eqn:Ec; cbn [rbind] in H; try discriminate.
    pose proof (Hdet _ _ _ _ Ec) as ->. assert (HG1 : G m1) by (eapply Hstep; eauto).
    destruct (IH m1 f1 f' out HG1 H) as [H1 [H2 [n H3]]]. split; [exact H1|]. split; [exact H2|].
    exists (S n). eapply chained_cons; eauto.
Qed.

(** Number of rounds: [Qu n] bounds it from above, [Ql n] from below. *)
Lemma rounds_count (Qu Ql : nat -> mesh -> Prop) :
  (forall m, G m -> Qu 0%nat m -> sel_empty (selof m) = true) ->
  (forall n m f fuel f' m', G m -> Qu (S n) m -> sel_empty (selof m) = false ->
     update k fuel (apply_selection f (selof m)) m = Ok (f', m') -> Qu n m') ->
  (forall j m, G m -> Ql j m -> sel_empty (selof m) = false) ->
  (forall j m f fuel f' m', G m -> Ql (S j) m ->
     update k fuel (apply_selection f (selof m)) m = Ok (f', m') -> Ql j m') ->
  forall fuel m f f' out n, G m -> Qu n m -> conditional_loop fuel k cr (selof m) f m = Ok (f', out) ->
  exists r, (r <= n)%nat /\ chained m r out /\ forall j, Ql j m -> (j < r)%nat.
Proof.
  intros U0 US L0 LS. induction fuel as [|fuel IH]; intros m f f' out n HG HU H; [discriminate|]. cbn [conditional_loop] in H.
  destruct (sel_empty (selof m)) eqn:Es.
  - inv H. exists 0%nat. split; [lia|]. split; [apply chained_0|]. intros j Hj. pose proof (L0 j _ HG Hj). congruence.
  - destruct n as [|n]; [pose proof (U0 m HG HU); congruence|].
    destruct (update k fuel (apply_selection f (selof m)) m) as [[f1 m1]| | |] eqn:E; cbn [rbind] in H; try discriminate.
    destruct (cr fuel m1 (selof m)) as [s1| | |] eqn:Ec; cbn [rbind] in H; try discriminate.
    pose proof (Hdet _ _ _ _ Ec) as ->. assert (HG1 : G m1) by (eapply Hstep; eauto).
    destruct (IH m1 f1 f' out n HG1 (US _ _ _ _ _ _ HG HU Es E) H) as [r [H1 [H2 H3]]].
    exists (S r). split; [lia|]. split; [eapply chained_cons; eauto|].
    intros [|j] Hj; [lia|]. pose proof (H3 j (LS _ _ _ _ _ _ HG Hj E)). lia.
Qed.

Lemma rounds_never : (forall m, G m -> sel_empty (selof m) = false) ->
  forall fuel m f, G m -> conditional_loop fuel k cr (selof m) f m = OutOfFuel.
Proof.
  intros Hne. induction fuel as [|fuel IH]; intros m f HG; [reflexivity|]. cbn [conditional_loop]. rewrite (Hne m HG).
  destruct (Hgood m HG) as [Hv Hd].
  destruct (face_completes k _ m Hv Hd (Hready m f HG (Hne m HG))) as [f1 [m1 [_ [n1 H1]]]]. cbv beta in H1.
  assert (Hu : update k fuel (apply_selection f (selof m)) m = OutOfFuel \/ update k fuel (apply_selection f (selof m)) m = Ok (f1, m1)).
  { destruct (update k fuel (apply_selection f (selof m)) m) as [x| | |] eqn:E; auto; right;
    specialize (H1 (fuel + n1)%nat ltac:(lia)); rewrite update_mono in H1 by congruence; congruence. }
  destruct Hu as [-> | E]; [reflexivity|]. rewrite E. cbn [rbind]. assert (HG1 : G m1) by (eapply Hstep; eauto).
  destruct (crit_fuel m1 (selof m) HG1) as [n2 H2].
  assert (Hu : cr fuel m1 (selof m) = OutOfFuel \/ cr fuel m1 (selof m) = Ok (selof m1)).
  { destruct (cr fuel m1 (selof m)) as [x| | |] eqn:E2; auto; right;
    specialize (H2 (fuel + n2)%nat ltac:(lia)); rewrite Hmono in H2 by congruence; congruence. }
  destruct Hu as [-> | E2]; [reflexivity|]. rewrite E2. cbn [rbind]. apply IH. exact HG1.
Qed.
End ROUNDS.

(** ** The two pairs of filter and criterion *)
Definition cond_start (k : kind) m : Prop :=
  valid m /\ dense m /\ tris m <> [] /\ splits_faces k /\ (is_loop k -> no_isolated m /\ no_wire m).

Definition asel (t : K O) m : selection := SelCells (long_cells t m).
Definition esl_ (t : K O) m : selection := SelEdges (long_edges t m).

Lemma start_step k f m fuel f' m' : cond_start k m -> ready k f m -> update k fuel f m = Ok (f', m') -> cond_start k m'.
Proof.
  intros [Hv [Hd [Hne [Hk Hl]]]] Hr E. destruct (step_ok k f m fuel f' m' Hv Hd Hne Hr E) as [H1 [H2 [H3 [H4 H5]]]].
  split; [exact H1|]. split; [exact H2|]. split; [exact H3|]. split; [exact Hk|]. intros HL. destruct (Hl HL). auto.
Qed.

Lemma area_crit_runs t m old : valid m -> exists fuel, cell_area_criterion t fuel m old = Ok (asel t m).
Proof.
  intros Hv. destruct (v_tris _ Hv) as [cs [Hc _]]. exists (S (length cs)).
  apply (area_crit_ok t m cs); [exact Hc| |lia]. intros id c H. apply (valid_readable m id c Hv). unfold cells_list. rewrite Hc. exact H.
Qed.
Lemma edge_crit_runs t m old fuel : valid m -> edge_length_criterion t fuel m old = Ok (esl_ t m).
Proof.
  intros Hv. destruct (v_ecells _ Hv) as [es [Hc _]]. apply (edge_crit_ok t m es); [exact Hc|].
  intros id o H. eapply valid_edge_readable; eauto.
Qed.
Lemma area_ready s t m f : cond_start (CellF s) m -> ready (CellF s) (apply_selection f (asel t m)) m.
Proof.
  intros [Hv [Hd [Hne [Hk Hl]]]]. split; [exact Hk|]. split; [intros H; apply Hl; exact H|].
  cbn. intros i Hi. apply (long_cells_In t m i Hv) in Hi. destruct Hi as [a [b [c [pa [pb [pc [H _]]]]]]]. eauto.
Qed.
Lemma long_edges_In t m o : valid m -> In o (long_edges t m) -> exists a b, o = Some (a, b) /\ joined m a b.
Proof.
  intros Hv H. unfold long_edges in H. apply filter_In in H. destruct H as [H _]. apply in_map_iff in H. destruct H as [[id o'] [<- H]].
  destruct (v_ecells _ Hv) as [es [He [_ [H1 _]]]]. unfold edges_of in H. rewrite He in H. eapply H1; eauto.
Qed.
Lemma nth_error_filter_once {A} (P : A -> bool) (l : list A) (R : A -> A -> Prop) :
  (forall i j x y, nth_error l i = Some x -> nth_error l j = Some y -> R x y -> i = j) ->
  forall i j x y, nth_error (filter P l) i = Some x -> nth_error (filter P l) j = Some y -> R x y -> i = j.
Proof.
  induction l as [|a l IH]; intros H; [intros [|i] j x y E; discriminate|].
  assert (Hl : forall i j x y, nth_error l i = Some x -> nth_error l j = Some y -> R x y -> i = j).
  { intros i j x y E1 E2 HR. specialize (H (S i) (S j) x y E1 E2 HR). lia. }
  cbn [filter]. destruct (P a); [|exact (IH Hl)].
  assert (Ha : forall x i, nth_error (filter P l) i = Some x -> exists j, nth_error l j = Some x).
  { intros x i E. apply nth_error_In in E. apply filter_In in E. destruct E as [E _]. apply In_nth_error in E. exact E. }
  intros [|i] [|j] x y E1 E2 HR; cbn in E1, E2.
  - reflexivity.
  - exfalso. inv E1. destruct (Ha _ _ E2) as [q Hq]. specialize (H 0%nat (S q) x y eq_refl Hq HR). lia.
  - exfalso. inv E2. destruct (Ha _ _ E1) as [q Hq]. specialize (H (S q) 0%nat x y Hq eq_refl HR). lia.
  - f_equal. eapply IH; eauto.
Qed.
Lemma edge_list_once m : valid m -> listed_once (map snd (edges_of m)).
Proof.
  intros Hv. destruct (v_ecells _ Hv) as [es [He [Hs [_ [_ Hu]]]]]. unfold edges_of. rewrite He.
  intros i j e f E1 E2 HR. rewrite nth_error_map in E1, E2.
  destruct (nth_error es i) as [[i1 o1]|] eqn:N1; [|discriminate]. destruct (nth_error es j) as [[i2 o2]|] eqn:N2; [|discriminate].
  cbn in E1, E2. inv E1. inv E2.
  assert (i1 = i2) by (eapply Hu; [eapply nth_error_In; exact N1|eapply nth_error_In; exact N2|exact HR]). subst i2.
  pose proof (sorted_NoDup_keys _ Hs) as Hnd. rewrite NoDup_nth_error in Hnd. apply Hnd.
  - unfold okeys. rewrite map_length. apply nth_error_Some. congruence.
  - unfold okeys. rewrite !nth_error_map, N1, N2. reflexivity.
Qed.
Lemma long_edges_once t m : valid m -> listed_once (long_edges t m).
Proof.
  intros Hv i j e f E1 E2 HR.
  apply (nth_error_filter_once (edge_over t m) (map snd (edges_of m))
           (fun x y => exists e f, x = Some e /\ y = Some f /\ undirected_eq e f)) with (i := i) (j := j) (x := Some e) (y := Some f); auto.
  - intros i' j' x y N1 N2 [e' [f' [-> [-> H]]]]. eapply edge_list_once; eauto.
  - exists e, f. auto.
Qed.
Lemma edge_ready s t m f : cond_start (EdgeF s) m -> sel_empty (esl_ t m) = false -> ready (EdgeF s) (apply_selection f (esl_ t m)) m.
Proof.
  intros [Hv [Hd [Hne [Hk Hl]]]] He. split; [exact Hk|]. split; [intros H; apply Hl; exact H|].
  cbn. cbn in He. split; [intros E; rewrite E in He; discriminate|]. intros _.
  assert (Hj : edges_listed m (long_edges t m)).
  { intros a b H. apply (long_edges_In t m _ Hv) in H. destruct H as [x [y [E H]]]. inv E. exact H. }
  split; [exact Hj|]. split; [apply long_edges_once; exact Hv|].
  intros -> a b H. apply (proj2 (Hl (or_intror eq_refl))). apply Hj. exact H.
Qed.

(** The copy the conditional filter starts from. *)
Lemma copy_shape m : valid m -> same_shape m (copy_geometry m).
Proof.
  intros Hv. destruct (copy_geometry_ok m Hv) as [Hp [_ Hb]]. split; [exact Hp|]. split; [eapply binv_tris; eauto|].
  intros a b. unfold joined. rewrite (i_ring _ _ _ _ Hb). reflexivity.
Qed.
Lemma copy_start k m : cond_start k m -> cond_start k (copy_geometry m).
Proof.
  intros [Hv [Hd [Hne [Hk Hl]]]]. destruct (copy_shape m Hv) as [Hp [Ht Hj]].
  split; [apply copy_valid; assumption|]. split; [unfold dense; rewrite Hp; exact Hd|]. split; [rewrite Ht; exact Hne|].
  split; [exact Hk|]. intros HL. destruct (Hl HL) as [H1 H2]. split.
  - intros id Hid. rewrite Hp in Hid. apply H1 in Hid. destruct (ring m id) as [|y r] eqn:E; [congruence|].
    assert (Hy : joined (copy_geometry m) id y) by (apply Hj; unfold joined; rewrite E; cbn; auto).
    intros E2. unfold joined in Hy. rewrite E2 in Hy. destruct Hy.
  - intros a b H. rewrite Ht. apply H2. apply Hj. exact H.
Qed.
End COND.
