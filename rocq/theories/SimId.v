(** * SimId: as Sim, but the relation between the coordinates may depend on the point id.

    Used for rounding errors: original points and new points are related by different bounds. *)
From Verif Require Import Base Mesh Filters Spec SpecGeo Lists PtsAny Sim.

Lemma entries_nodup {A} (l : omap A) : NoDup (okeys l) -> forall i p, In (i, p) l -> oget i l = Some p.
Proof.
  induction l as [|[j q] l IH]; cbn; [tauto|]. intros Hn i p [X|X]; inv Hn.
  - inv X. rewrite N.eqb_refl. reflexivity.
  - destruct (N.eqb_spec j i) as [->|_]; [|apply IH; auto]. exfalso. apply H1. apply (in_map fst) in X. exact X.
Qed.
Lemma length_oset_le {A} i (p : A) l : (length l <= length (oset i p l))%nat.
Proof.
  induction l as [|[j q] l IH]; cbn; [lia|]. destruct (N.ltb i j); cbn; [lia|]. destruct (N.eqb i j); cbn; lia.
Qed.

Section SIMID.
Context {O1 O2 : Ops} {D1 D2 : Type}.
Variable Rp : N -> list (K O1) -> list (K O2) -> Prop.

Definition psim (l1 : omap (list (K O1))) (l2 : omap (list (K O2))) : Prop :=
  Forall2 (fun a b => fst a = fst b /\ Rp (fst a) (snd a) (snd b)) l1 l2.
Definition msim (m1 : mesh O1 D1) (m2 : mesh O2 D2) : Prop :=
  psim (pts m1) (pts m2) /\ rings m1 = rings m2 /\ cells m1 = cells m2 /\ ecells m1 = ecells m2.
Definition ssim (s1 : @state O1 D1) (s2 : @state O2 D2) : Prop := fst s1 = fst s2 /\ msim (snd s1) (snd s2).

Lemma psim_get k l1 l2 : psim l1 l2 ->
  match oget k l1, oget k l2 with Some p, Some q => Rp k p q | None, None => True | _, _ => False end.
Proof.
  induction 1 as [|[i p] [j q] l1 l2 [E R] _ IH]; cbn in *; [exact I|]. subst j. destruct (N.eqb_spec i k); [subst i|]; auto.
Qed.
Lemma psim_set k p q l1 l2 : psim l1 l2 -> Rp k p q -> psim (oset k p l1) (oset k q l2).
Proof.
  intros H Hp. induction H as [|[i a] [j b] l1 l2 [E R] H IH]; cbn in *; [repeat constructor; auto|]. subst j.
  destruct (N.ltb k i); [constructor; auto; constructor; auto|].
  destruct (N.eqb_spec k i); constructor; auto.
Qed.
Lemma psim_size l1 l2 : psim l1 l2 -> osize l1 = osize l2.
Proof. intros H. unfold osize. f_equal. induction H; cbn; congruence. Qed.
Lemma psim_mem k l1 l2 : psim l1 l2 -> omem k l1 = omem k l2.
Proof. intros H. apply psim_get with (k := k) in H. unfold omem. destruct (oget k l1), (oget k l2); tauto. Qed.
Lemma psim_keys l1 l2 : psim l1 l2 -> okeys l1 = okeys l2.
Proof. induction 1 as [|[i p] [j q] l1 l2 [E R] _ IH]; cbn in *; [reflexivity|]. unfold okeys in *. cbn. rewrite E, IH. reflexivity. Qed.

Section MESHES.
Variables (m1 : mesh O1 D1) (m2 : mesh O2 D2).
Hypothesis H : msim m1 m2.
Lemma sim_ring b : ring m1 b = ring m2 b.
Proof. unfold ring. destruct H as [_ [-> _]]. reflexivity. Qed.
Lemma sim_find a b : find_edge m1 a b = find_edge m2 a b.
Proof. unfold find_edge. rewrite sim_ring. reflexivity. Qed.
Lemma sim_cells : cells m1 = cells m2.
Proof. apply H. Qed.
Lemma sim_ecells : ecells m1 = ecells m2.
Proof. apply H. Qed.
Lemma sim_left e : left m1 e = left m2 e.
Proof. unfold left, cells_list. rewrite sim_cells. reflexivity. Qed.
Lemma sim_left_set e : left_set m1 e = left_set m2 e.
Proof. unfold left_set. rewrite sim_left. reflexivity. Qed.
Lemma sim_get_left e : get_left m1 e = get_left m2 e.
Proof. unfold get_left. rewrite sim_left. reflexivity. Qed.
Lemma sim_at_border e : is_at_border m1 e = is_at_border m2 e.
Proof. unfold is_at_border, right_set. rewrite !sim_left_set. reflexivity. Qed.
Lemma sim_internal e : is_internal m1 e = is_internal m2 e.
Proof. unfold is_internal, right_set. rewrite !sim_left_set. reflexivity. Qed.
Lemma sim_get_pt k : rsim (Rp k) (get_pt m1 k) (get_pt m2 k).
Proof. unfold get_pt. pose proof (psim_get k _ _ (proj1 H)). destruct (oget k (pts m1)), (oget k (pts m2)); cbn; tauto. Qed.
Lemma sim_elem_pt k : rsim (Rp k) (elem_pt m1 k) (elem_pt m2 k).
Proof. unfold elem_pt. pose proof (psim_get k _ _ (proj1 H)). destruct (oget k (pts m1)), (oget k (pts m2)); cbn; tauto. Qed.
End MESHES.

Ltac splits := unfold msim; repeat match goal with |- _ /\ _ => split end.

Lemma sim_set_ring (m1 : mesh O1 D1) (m2 : mesh O2 D2) b r : msim m1 m2 -> msim (set_ring m1 b r) (set_ring m2 b r).
Proof. intros [H1 [H2 [H3 H4]]]. splits; cbn; auto. rewrite H2. reflexivity. Qed.
Lemma sim_push_ecell (m1 : mesh O1 D1) (m2 : mesh O2 D2) e : msim m1 m2 -> msim (push_ecell m1 e) (push_ecell m2 e).
Proof. intros [H1 [H2 [H3 H4]]]. splits; cbn; auto. rewrite H4. reflexivity. Qed.
Lemma sim_push_cell (m1 : mesh O1 D1) (m2 : mesh O2 D2) c : msim m1 m2 -> msim (push_cell m1 c) (push_cell m2 c).
Proof. intros [H1 [H2 [H3 H4]]]. splits; cbn; auto. unfold cells_list. rewrite H3. reflexivity. Qed.
Lemma sim_set_point (m1 : mesh O1 D1) (m2 : mesh O2 D2) k p q : msim m1 m2 -> Rp k p q -> msim (set_point m1 k p) (set_point m2 k q).
Proof. intros [H1 [H2 [H3 H4]]] Hp. splits; cbn; auto. apply psim_set; auto. Qed.
Lemma sim_num (m1 : mesh O1 D1) (m2 : mesh O2 D2) : msim m1 m2 -> num_points m1 = num_points m2.
Proof. intros [H1 _]. apply psim_size. exact H1. Qed.
Lemma sim_empty : msim empty_mesh empty_mesh.
Proof. splits; cbn; auto. constructor. Qed.

Definition osim (x : option (mesh O1 D1)) (y : option (mesh O2 D2)) : Prop :=
  match x, y with Some a, Some b => msim a b | None, None => True | _, _ => False end.

Lemma sim_add_edge (m1 : mesh O1 D1) (m2 : mesh O2 D2) a b : msim m1 m2 -> osim (add_edge m1 a b) (add_edge m2 a b).
Proof.
  intros H. unfold add_edge. rewrite !(sim_ring m1 m2 H).
  rewrite (ins_ring_ext (fun x => left_set m1 (a, x)) (fun x => left_set m2 (a, x))) by (intros; apply sim_left_set; exact H).
  rewrite (ins_ring_ext (fun x => left_set m1 (b, x)) (fun x => left_set m2 (b, x))) by (intros; apply sim_left_set; exact H).
  destruct (ins_ring _ (ring m2 a) b); [|exact I]. destruct (ins_ring _ (ring m2 b) a); [|exact I].
  cbn. apply sim_push_ecell, sim_set_ring, sim_set_ring. exact H.
Qed.
Lemma sim_add_missing l : forall (m1 : mesh O1 D1) (m2 : mesh O2 D2), msim m1 m2 ->
  msim (fst (add_missing_edges m1 l)) (fst (add_missing_edges m2 l)) /\ snd (add_missing_edges m1 l) = snd (add_missing_edges m2 l).
Proof.
  induction l as [|[a b] l IH]; intros m1 m2 H; cbn [add_missing_edges]; [auto|].
  rewrite (sim_find m1 m2 H). destruct (find_edge m2 a b); [auto|].
  pose proof (sim_add_edge m1 m2 a b H) as E. destruct (add_edge m1 a b), (add_edge m2 a b); cbn in E; try tauto; auto.
Qed.
Lemma sim_link l : forall (m1 : mesh O1 D1) (m2 : mesh O2 D2), msim m1 m2 -> osim (link_corners m1 l) (link_corners m2 l).
Proof.
  induction l as [|[[a b] c] l IH]; intros m1 m2 H; cbn [link_corners]; [exact H|].
  rewrite (sim_ring m1 m2 H).
  rewrite (link_ring_ext (fun x => left_set m1 (b, x)) (fun x => left_set m2 (b, x))) by (intros; apply sim_left_set; exact H).
  destruct (link_ring _ (ring m2 b) c a); [|exact I]. apply IH. apply sim_set_ring. exact H.
Qed.
Lemma sim_add_face (m1 : mesh O1 D1) (m2 : mesh O2 D2) l : msim m1 m2 ->
  msim (fst (add_face m1 l)) (fst (add_face m2 l)) /\ snd (add_face m1 l) = snd (add_face m2 l).
Proof.
  intros H. unfold add_face. destruct (negb (nodupb l)); [auto|].
  assert (E1 : forallb (fun p => omem p (pts m1)) l = forallb (fun p => omem p (pts m2)) l).
  { induction l as [|x l IH]; cbn; [reflexivity|]. rewrite IH, (psim_mem x _ _ (proj1 H)). reflexivity. }
  rewrite E1. destruct (negb (forallb (fun p => omem p (pts m2)) l)); [auto|].
  assert (E2 : existsb (left_set m1) (poly_dirs l) = existsb (left_set m2) (poly_dirs l)).
  { induction (poly_dirs l) as [|x t IH]; cbn; [reflexivity|]. rewrite IH, (sim_left_set m1 m2 H). reflexivity. }
  rewrite E2. destruct (existsb (left_set m2) (poly_dirs l)); [auto|].
  destruct (sim_add_missing (poly_dirs l) m1 m2 H) as [M1 M2].
  destruct (add_missing_edges m1 (poly_dirs l)) as [n1 b1], (add_missing_edges m2 (poly_dirs l)) as [n2 b2]. cbn [fst snd] in *. subst b1.
  destruct b2; [|auto]. pose proof (sim_link (poly_corners l) n1 n2 M1) as L.
  destruct (link_corners n1 (poly_corners l)), (link_corners n2 (poly_corners l)); cbn in L; try tauto; auto.
  cbn [fst snd]. split; [apply sim_push_cell; exact L|reflexivity].
Qed.

Lemma sim_pass_any (i1 : mesh O1 D1) (i2 : mesh O2 D2) id e (m1 : mesh O1 D1) (m2 : mesh O2 D2) :
  msim m1 m2 -> msim (pass_cell_data i1 id e m1) (pass_cell_data i2 id e m2).
Proof.
  intros [H1 [H2 [H3 H4]]]. unfold pass_cell_data. destruct e as [e|]; [|splits; auto].
  destruct (cdata i1) as [d1|]; [destruct (oget id d1)|]; (destruct (cdata i2) as [d2|]; [destruct (oget id d2)|]); splits; cbn; auto.
Qed.
Lemma sim_emit (i1 : mesh O1 D1) (i2 : mesh O2 D2) id track t s1 s2 :
  ssim s1 s2 -> rsim ssim (emit i1 id track t s1) (emit i2 id track t s2).
Proof.
  destruct t as [[a b] c], s1 as [f1 m1], s2 as [f2 m2]. intros [E H]. cbn [fst snd] in E, H. subst f2. unfold emit.
  destruct (sim_add_face m1 m2 [a; b; c] H) as [M E].
  destruct (add_face m1 [a; b; c]) as [n1 e1], (add_face m2 [a; b; c]) as [n2 e2]. cbn [fst snd] in M, E. subst e1.
  pose proof (sim_pass_any i1 i2 id e2 n1 n2 M) as P. destruct track; [|split; auto].
  destruct e2 as [e|]; [|reflexivity]. split; [|exact P]. cbn [fst]. rewrite (sim_get_left _ _ P). reflexivity.
Qed.
Lemma sim_emit_all (i1 : mesh O1 D1) (i2 : mesh O2 D2) id track l : forall s1 s2,
  ssim s1 s2 -> rsim ssim (emit_all i1 id track l s1) (emit_all i2 id track l s2).
Proof.
  induction l as [|t l IH]; intros s1 s2 H; cbn [emit_all]; [exact H|].
  eapply rbind_sim; [apply sim_emit; exact H|exact IH].
Qed.

(** ** The run *)
Section RUN.
Variables (inp1 : mesh O1 D1) (inp2 : mesh O2 D2).
Hypothesis HI : msim inp1 inp2.
Variable k : kind.
(** Ids from [bnd] on are those of new points. *)
Variable bnd : N.
Hypothesis Hb : bnd = 0 \/ (sorted_keys (pts inp1) /\ dims (pts inp1) /\ bnd <= osize (pts inp1)).
Hypothesis Hmid : k = CellF CLinear -> forall x y n p q p' q', joined inp1 x y -> bnd <= n ->
  Rp x p p' -> Rp y q q' -> Rp n (midpoint p q) (midpoint p' q').
Hypothesis HmidE : k = EdgeF ELinear -> forall n e, bnd <= n -> joined inp1 (fst e) (snd e) -> rsim (Rp n) (linear_point inp1 e) (linear_point inp2 e).
Hypothesis Hcen : k = CellF CSqrt3 -> forall x y z n p q r p' q' r',
  oget x (pts inp1) = Some p -> oget x (pts inp2) = Some p' -> oget y (pts inp1) = Some q -> oget y (pts inp2) = Some q' ->
  oget z (pts inp1) = Some r -> oget z (pts inp2) = Some r' -> bnd <= n ->
  Rp n (pscale (kdiv O1 (kZ O1 1) (kZ O1 3)) (padd (padd (padd pzero p) q) r))
     (pscale (kdiv O2 (kZ O2 1) (kZ O2 3)) (padd (padd (padd pzero p') q') r')).
Hypothesis Hloop : k = CellF CLoop \/ k = EdgeF ELoop -> forall n e, bnd <= n -> joined inp1 (fst e) (snd e) -> rsim (Rp n) (loop_point inp1 e) (loop_point inp2 e).
Hypothesis Hbut : k = CellF CButterfly \/ k = EdgeF EButterfly -> forall n e, bnd <= n -> joined inp1 (fst e) (snd e) ->
  rsim (Rp n) (butterfly_point inp1 e) (butterfly_point inp2 e).
Hypothesis Hvert : k = CellF CLoop -> forall v p q, oget v (pts inp1) = Some p -> oget v (pts inp2) = Some q ->
  rsim (Rp v) (smoothing_point inp1 v p) (smoothing_point inp2 v q).
Hypothesis Hnd : k = CellF CLoop -> NoDup (okeys (pts inp1)).

Lemma sim_linear (m1 : mesh O1 D1) (m2 : mesh O2 D2) n e : k = CellF CLinear -> bnd <= n ->
  joined inp1 (fst e) (snd e) -> msim m1 m2 -> rsim (Rp n) (linear_point m1 e) (linear_point m2 e).
Proof.
  intros Hk Hn Hj H. unfold linear_point. eapply rbind_sim; [apply sim_get_pt; exact H|]. intros p p' Hp.
  eapply rbind_sim; [apply sim_get_pt; exact H|]. intros q q' Hq. cbn. eapply Hmid; eauto.
Qed.
(** Related states whose output already has the points below [bnd]. *)
Definition tsim (s1 : @state O1 D1) (s2 : @state O2 D2) : Prop := ssim s1 s2 /\ bnd <= num_points (snd s1).
Lemma num_set (m : mesh O1 D1) i p : num_points m <= num_points (set_point m i p).
Proof. unfold num_points, set_point, osize. cbn [pts set_pts]. pose proof (length_oset_le i p (pts m)). lia. Qed.
Lemma sim_insert s1 s2 e np p q : tsim s1 s2 -> Rp np p q -> tsim (insert_edge_point s1 e np p) (insert_edge_point s2 e np q).
Proof.
  destruct s1 as [f1 m1], s2 as [f2 m2]. intros [[E H] L] Hp. cbn [fst snd] in E, H, L. subst f2.
  split; [split; cbn [insert_edge_point fst snd]; [reflexivity|]; apply sim_set_point; auto|].
  cbn [insert_edge_point snd]. pose proof (num_set m1 np p). lia.
Qed.
Definition nsim (a : N * @state O1 D1) (b : N * @state O2 D2) : Prop := fst a = fst b /\ bnd <= fst a /\ tsim (snd a) (snd b).
Lemma found m a b e : @find_edge O1 D1 m a b = Some e -> joined m (fst e) (snd e).
Proof. unfold find_edge. destruct (memN b (ring m a)) eqn:E; [|discriminate]. intros X. inv X. apply memN_In. exact E. Qed.
Lemma sim_edge_step n1 n2 ab a1 a2 : (forall n e, bnd <= n -> joined inp1 (fst e) (snd e) -> rsim (Rp n) (n1 e) (n2 e)) ->
  nsim a1 a2 -> rsim nsim (edge_step inp1 n1 ab a1) (edge_step inp2 n2 ab a2).
Proof.
  intros Hn. destruct a1 as [p1 s1], a2 as [p2 s2]. intros [E [L H]]. cbn [fst snd] in E, L, H. subst p2. unfold edge_step.
  rewrite <- (sim_find _ _ HI). assert (Ef : fst s1 = fst s2) by apply H. rewrite Ef.
  destruct (eget_opt (find_edge inp1 (fst ab) (snd ab)) (epid (fst s2))); [split; auto|].
  destruct (find_edge inp1 (fst ab) (snd ab)) as [e|] eqn:Ee; [|reflexivity].
  eapply rbind_sim; [apply (Hn p1 e L); eapply found; eassumption|]. intros p q Hp. split; [reflexivity|]. cbn [fst snd]. split; [lia|]. apply sim_insert; auto.
Qed.
Lemma sim_three n1 n2 a b c s1 s2 : (forall n e, bnd <= n -> joined inp1 (fst e) (snd e) -> rsim (Rp n) (n1 e) (n2 e)) ->
  tsim s1 s2 -> rsim tsim (three_edge_steps inp1 n1 a b c s1) (three_edge_steps inp2 n2 a b c s2).
Proof.
  intros Hn H. unfold three_edge_steps.
  eapply rbind_sim; [apply sim_edge_step; [exact Hn|split; [apply sim_num; apply H|split; [apply H|exact H]]]|].
  intros x x' Hx. eapply rbind_sim; [apply sim_edge_step; [exact Hn|exact Hx]|].
  intros y y' Hy. eapply rbind_sim; [apply sim_edge_step; [exact Hn|exact Hy]|].
  intros z z' [_ [_ Hz]]. exact Hz.
Qed.
Lemma sim_sqrt3_step nid ab m : sqrt3_edge_step inp1 nid ab m = sqrt3_edge_step inp2 nid ab m.
Proof. unfold sqrt3_edge_step. rewrite (sim_find _ _ HI). reflexivity. Qed.

Lemma sim_add_cell s c s1 s2 : k = CellF s -> tsim s1 s2 ->
  rsim tsim (add_new_cell_points s inp1 c s1) (add_new_cell_points s inp2 c s2).
Proof.
  intros Hk H. destruct s; cbn [add_new_cell_points].
  - unfold linear_add_new_cell_points. destruct (as_triangle c) as [[[x y] z]|]; [|reflexivity].
    apply sim_three; [|exact H]. intros n e Hn Hj. apply sim_linear; auto. apply H.
  - unfold loop_add_new_cell_points. destruct (as_triangle c) as [[[x y] z]|]; [|reflexivity].
    apply sim_three; [|exact H]. apply Hloop. auto.
  - unfold butterfly_add_new_cell_points. destruct (as_triangle c) as [[[x y] z]|]; [|reflexivity].
    apply sim_three; [|exact H]. apply Hbut. auto.
  - unfold sqrt3_add_new_cell_points. destruct (as_triangle c) as [[[x y] z]|]; [|reflexivity].
    assert (G : forall v, rsim (fun p q => oget v (pts inp1) = Some p /\ oget v (pts inp2) = Some q) (elem_pt inp1 v) (elem_pt inp2 v)).
    { intros v. pose proof (sim_elem_pt _ _ HI v) as E. unfold elem_pt in *. destruct (oget v (pts inp1)), (oget v (pts inp2)); cbn in *; auto. }
    eapply rbind_sim; [apply G|]. intros p p' [Gp Hp].
    eapply rbind_sim; [apply G|]. intros q q' [Gq Hq].
    eapply rbind_sim; [apply G|]. intros r r' [Gr Hr]. cbn zeta.
    destruct s1 as [f1 m1], s2 as [f2 m2]. destruct H as [[E H] L]. cbn [fst snd] in *. subst f2.
    rewrite !sim_sqrt3_step, (sim_num _ _ H). split; [|cbn [snd]; match goal with |- _ <= num_points (set_point _ ?i ?p) => pose proof (num_set m1 i p); lia end].
    split; [reflexivity|]. cbn [snd]. apply sim_set_point; [exact H|].
    eapply Hcen; eauto. rewrite <- (sim_num _ _ H). exact L.
Qed.

Lemma sim_copy_points : forall l1 l2 (m1 : mesh O1 D1) (m2 : mesh O2 D2), psim l1 l2 -> msim m1 m2 ->
  msim (fold_left (fun m kv => set_point m (fst kv) (snd kv)) l1 m1) (fold_left (fun m kv => set_point m (fst kv) (snd kv)) l2 m2).
Proof.
  intros l1 l2 m1 m2 H. revert m1 m2. induction H as [|[i p] [j q] l1 l2 [E R] _ IH]; intros m1 m2 M; cbn in *; [exact M|].
  subst j. apply IH. apply sim_set_point; auto.
Qed.

Lemma sim_loop_copy sm : k = CellF CLoop -> forall l1 l2 (m1 : mesh O1 D1) (m2 : mesh O2 D2), psim l1 l2 ->
  (forall i p, In (i, p) l1 -> oget i (pts inp1) = Some p) -> (forall i p, In (i, p) l2 -> oget i (pts inp2) = Some p) ->
  msim m1 m2 ->
  rsim msim (loop_copy_points inp1 sm l1 m1) (loop_copy_points inp2 sm l2 m2).
Proof.
  intros Hk l1 l2 m1 m2 H. revert m1 m2. induction H as [|[i p] [j q] l1 l2 [E R] _ IH]; intros m1 m2 G1 G2 M; cbn in *; [exact M|].
  subst j. destruct (sm i).
  - eapply rbind_sim; [apply Hvert; [exact Hk|apply G1; auto|apply G2; auto]|]. intros a b Hab. apply IH; auto. apply sim_set_point; auto.
  - apply IH; auto. apply sim_set_point; auto.
Qed.
Lemma smoothed_set_sim l : smoothed_set inp1 l = smoothed_set inp2 l.
Proof. induction l as [|i l IH]; cbn; [reflexivity|]. rewrite (sim_cells _ _ HI), IH. reflexivity. Qed.

Lemma sim_loop_edge_copy es : forall l1 l2 (m1 : mesh O1 D1) (m2 : mesh O2 D2), psim l1 l2 -> msim m1 m2 ->
  rsim msim (loop_edge_copy inp1 es l1 m1) (loop_edge_copy inp2 es l2 m2).
Proof.
  intros l1 l2 m1 m2 H. revert m1 m2. induction H as [|[i p] [j q] l1 l2 [E R] _ IH]; intros m1 m2 M; cbn [loop_edge_copy]; [exact M|].
  cbn in E, R. subst j. rewrite (sim_ring _ _ HI). destruct (ring inp2 i) as [|q0 rest]; [reflexivity|].
  rewrite copy_flag_true. apply IH. apply sim_set_point; auto.
Qed.

Lemma sim_copy_input_c s s1 s2 : k = CellF s -> ssim s1 s2 ->
  rsim ssim (copy_input_points_c s inp1 s1) (copy_input_points_c s inp2 s2).
Proof.
  intros Hk [E H].
  assert (P : rsim ssim (plain_copy_input_points inp1 s1) (plain_copy_input_points inp2 s2)).
  { unfold plain_copy_input_points. cbn. split; [exact E|]. unfold copy_points. apply sim_copy_points; [apply HI|exact H]. }
  destruct s; cbn [copy_input_points_c]; auto.
  destruct s1 as [f1 m1], s2 as [f2 m2]. cbn [fst snd] in E, H. subst f2. unfold loop_copy_input_points.
  pose proof (Hnd Hk) as N1. assert (N2 : NoDup (okeys (pts inp2))) by (rewrite <- (psim_keys _ _ (proj1 HI)); exact N1).
  destruct (uniform f1).
  - eapply rbind_sim; [apply sim_loop_copy; [exact Hk|apply HI|apply entries_nodup; exact N1|apply entries_nodup; exact N2|exact H]|].
    intros a b Hab. split; auto.
  - rewrite smoothed_set_sim. destruct (smoothed_set inp2 (csel f1)) as [ss| | |]; cbn [rbind]; try reflexivity; try exact I.
    eapply rbind_sim; [apply sim_loop_copy; [exact Hk|apply HI|apply entries_nodup; exact N1|apply entries_nodup; exact N2|exact H]|].
    intros a b Hab. split; auto.
Qed.
Lemma sim_copy_input_e s s1 s2 : ssim s1 s2 -> rsim ssim (copy_input_points_e s inp1 s1) (copy_input_points_e s inp2 s2).
Proof.
  intros [E H].
  assert (P : rsim ssim (plain_copy_input_points inp1 s1) (plain_copy_input_points inp2 s2)).
  { unfold plain_copy_input_points. cbn. split; [exact E|]. unfold copy_points. apply sim_copy_points; [apply HI|exact H]. }
  destruct s; cbn [copy_input_points_e]; auto.
  destruct s1 as [f1 m1], s2 as [f2 m2]. cbn [fst snd] in E, H. subst f2. unfold loop_edge_copy_input_points.
  eapply rbind_sim; [apply sim_loop_edge_copy; [apply HI|exact H]|]. intros a b Hab. split; auto.
Qed.

Lemma sim_uniform_cells a1 a2 : (forall c s1 s2, tsim s1 s2 -> rsim tsim (a1 c s1) (a2 c s2)) ->
  forall cs s1 s2, tsim s1 s2 -> rsim tsim (uniform_cells_loop a1 cs s1) (uniform_cells_loop a2 cs s2).
Proof.
  intros Ha. induction cs as [|[i [c|]] cs IH]; intros s1 s2 H; cbn [uniform_cells_loop]; [exact H| |reflexivity].
  eapply rbind_sim; [apply Ha; exact H|exact IH].
Qed.
Lemma sim_selected_cells a1 a2 cs : (forall c s1 s2, tsim s1 s2 -> rsim tsim (a1 c s1) (a2 c s2)) ->
  forall l s1 s2, tsim s1 s2 -> rsim tsim (selected_cells_loop a1 cs l s1) (selected_cells_loop a2 cs l s2).
Proof.
  intros Ha. induction l as [|i l IH]; intros s1 s2 H; cbn [selected_cells_loop]; [exact H|].
  destruct (oget i cs) as [[c|]|]; [|apply IH; exact H|reflexivity].
  eapply rbind_sim; [apply Ha; exact H|exact IH].
Qed.
Lemma copied_c s f st : copy_input_points_c s inp1 (f, empty_mesh) = Ok st -> bnd <= num_points (snd st).
Proof.
  intros E. destruct Hb as [->|[Hs [Hd L]]]; [lia|]. destruct (copy_c_any s inp1 f st Hs Hd E) as [Ek _].
  unfold num_points, osize in *. apply (f_equal (@length N)) in Ek. unfold okeys in Ek. rewrite !map_length in Ek. lia.
Qed.
Lemma copied_e s f st : copy_input_points_e s inp1 (f, empty_mesh) = Ok st -> bnd <= num_points (snd st).
Proof.
  intros E. destruct Hb as [->|[Hs [Hd L]]]; [lia|]. pose proof (copy_e_any s inp1 f st Hs E) as Ek.
  unfold num_points. rewrite Ek. exact L.
Qed.
Lemma rsim_ok {A B} (R S : A -> B -> Prop) x y : rsim R x y -> (forall a b, x = Ok a -> R a b -> S a b) -> rsim S x y.
Proof. destruct x, y; cbn; auto. Qed.
Lemma sim_points_c s f : k = CellF s ->
  rsim tsim (generate_output_points_c s inp1 (f, empty_mesh)) (generate_output_points_c s inp2 (f, empty_mesh)).
Proof.
  intros Hk. unfold generate_output_points_c.
  eapply rbind_sim with (R := tsim).
  { eapply rsim_ok; [apply sim_copy_input_c; [exact Hk|split; [reflexivity|apply sim_empty]]|].
    intros a c Ea Hac. split; [exact Hac|]. eapply copied_c; eauto. }
  intros [f1 m1] [f2 m2] [[E M] L]. cbn [fst snd] in E, M, L. subst f2. cbn zeta. rewrite (sim_cells _ _ HI).
  destruct (cells inp2) as [cs|]; [|reflexivity]. cbn [fst snd]. destruct (uniform _).
  - apply sim_uniform_cells; [intros; apply sim_add_cell; auto|]. split; [split; auto|exact L].
  - apply sim_selected_cells; [intros; apply sim_add_cell; auto|]. split; [split; auto|exact L].
Qed.

Lemma sim_edge_pt s n e : k = EdgeF s -> bnd <= n -> joined inp1 (fst e) (snd e) -> rsim (Rp n) (edge_point s inp1 e) (edge_point s inp2 e).
Proof.
  intros Hk Hn Hj. destruct s; cbn [edge_point].
  - apply HmidE; auto.
  - apply Hloop; auto.
  - apply Hbut; auto.
Qed.
Lemma sim_edges s l : k = EdgeF s -> forall s1 s2, tsim s1 s2 -> rsim tsim (edges_loop s inp1 l s1) (edges_loop s inp2 l s2).
Proof.
  intros Hk. induction l as [|[e|] l IH]; intros s1 s2 H; cbn [edges_loop]; [exact H| |apply IH; exact H].
  eapply rbind_sim; [|exact IH]. unfold add_new_edge_points. rewrite <- (sim_find _ _ HI).
  destruct (find_edge inp1 (fst e) (snd e)) as [e'|] eqn:Ee; [|reflexivity].
  eapply rbind_sim; [apply (sim_edge_pt s (num_points (snd s1)) e); [exact Hk|apply H|]|].
  - unfold find_edge in Ee. destruct (memN (snd e) (ring inp1 (fst e))) eqn:E; [|discriminate]. apply memN_In. exact E.
  - intros p q Hp. cbn. rewrite <- (sim_num _ _ (proj2 (proj1 H))). apply sim_insert; auto.
Qed.
Lemma sim_points_e s f : k = EdgeF s ->
  rsim tsim (generate_output_points_e s inp1 (f, empty_mesh)) (generate_output_points_e s inp2 (f, empty_mesh)).
Proof.
  intros Hk. unfold generate_output_points_e.
  eapply rbind_sim with (R := tsim).
  { eapply rsim_ok; [apply sim_copy_input_e; split; [reflexivity|apply sim_empty]|].
    intros a c Ea Hac. split; [exact Hac|]. eapply copied_e; eauto. }
  intros [f1 m1] [f2 m2] [[E M] L]. cbn [fst snd] in E, M, L. subst f2. cbn zeta. rewrite (sim_ecells _ _ HI).
  cbn [fst snd]. destruct (uniform _).
  - destruct (ecells inp2) as [es|]; [|reflexivity]. apply sim_edges; [exact Hk|]. split; [split; auto|exact L].
  - apply sim_edges; [exact Hk|]. split; [split; auto|exact L].
Qed.

Lemma sim_split_cell id t s1 s2 : ssim s1 s2 -> rsim ssim (split_cell inp1 id t s1) (split_cell inp2 id t s2).
Proof.
  destruct t as [[x y] z]. intros H. unfold split_cell. rewrite !(sim_find _ _ HI).
  assert (Ef : fst s1 = fst s2) by apply H. rewrite Ef. apply sim_emit_all. exact H.
Qed.
Lemma sim_cells_loop fuel : forall cs s1 s2, ssim s1 s2 -> rsim ssim (cells_loop fuel inp1 cs s1) (cells_loop fuel inp2 cs s2).
Proof.
  induction fuel as [|fuel IH]; intros cs s1 s2 H; cbn [cells_loop]; [exact I|].
  destruct cs as [|[id c] cs]; [exact H|]. destruct (obind c as_triangle) as [t|]; [|apply IH; exact H].
  eapply rbind_sim; [apply sim_split_cell; exact H|]. intros; apply IH; assumption.
Qed.
Definition bsim (a : @state O1 D1 * bool) (b : @state O2 D2 * bool) : Prop := ssim (fst a) (fst b) /\ snd a = snd b.
Lemma sim_sqrt3_edge id t ab s1 s2 : ssim s1 s2 -> rsim bsim (sqrt3_edge inp1 id t ab s1) (sqrt3_edge inp2 id t ab s2).
Proof.
  intros H. unfold sqrt3_edge. cbn zeta. rewrite <- (sim_find _ _ HI). assert (Ef : fst s1 = fst s2) by apply H. rewrite Ef.
  assert (Hlast : rsim bsim (rbind (emit inp1 id false t s1) (fun st1 => Ok (st1, true))) (rbind (emit inp2 id false t s2) (fun st1 => Ok (st1, true)))).
  { eapply rbind_sim; [apply sim_emit; exact H|]. intros a b Hab. split; auto. }
  destruct (find_edge inp1 (fst ab) (snd ab)) as [e|]; [|exact Hlast].
  destruct (eget_opt (Some e) (epid (fst s2))) as [c|]; [|exact Hlast].
  destruct (N.eqb c id_max); [split; auto|].
  assert (Hone : rsim bsim (rbind (emit inp1 id (negb (uniform (fst s2))) (fst e, snd e, c) s1) (fun st1 => Ok (st1, false)))
                           (rbind (emit inp2 id (negb (uniform (fst s2))) (fst e, snd e, c) s2) (fun st1 => Ok (st1, false)))).
  { eapply rbind_sim; [apply sim_emit; exact H|]. intros a b Hab. split; auto. }
  rewrite <- (sim_at_border _ _ HI). destruct (is_at_border inp1 e); [exact Hone|].
  destruct (eget (sym e) (epid (fst s2))) as [d|]; [|exact Hone].
  eapply rbind_sim; [apply sim_emit; exact H|]. intros a b Hab.
  eapply rbind_sim; [apply sim_emit; exact Hab|]. intros a' b' [E M]. split; [|reflexivity]. split; cbn [fst snd]; [rewrite E; reflexivity|exact M].
Qed.
Lemma sim_sqrt3_cell id t s1 s2 : ssim s1 s2 -> rsim ssim (sqrt3_cell inp1 id t s1) (sqrt3_cell inp2 id t s2).
Proof.
  destruct t as [[x y] z]. intros H. unfold sqrt3_cell.
  eapply rbind_sim; [apply sim_sqrt3_edge; exact H|]. intros [a ab] [b bb] [Ha Hbb]. cbn [fst snd] in Ha, Hbb. subst bb. destruct ab; [exact Ha|].
  eapply rbind_sim; [apply sim_sqrt3_edge; exact Ha|]. intros [a' ab] [b' bb] [Ha' Hbb]. cbn [fst snd] in Ha', Hbb. subst bb. destruct ab; [exact Ha'|].
  eapply rbind_sim; [apply sim_sqrt3_edge; exact Ha'|]. intros [a'' ab] [b'' bb] [Ha'' _]. exact Ha''.
Qed.
Lemma sim_sqrt3_loop fuel : forall cs s1 s2, ssim s1 s2 -> rsim ssim (sqrt3_loop fuel inp1 cs s1) (sqrt3_loop fuel inp2 cs s2).
Proof.
  induction fuel as [|fuel IH]; intros cs s1 s2 H; cbn [sqrt3_loop]; [exact I|].
  destruct cs as [|[id [c|]] cs]; [exact H| |reflexivity]. destruct (as_triangle c) as [t|]; [|apply IH; exact H].
  eapply rbind_sim; [apply sim_sqrt3_cell; exact H|]. intros; apply IH; assumption.
Qed.

Lemma sim_clear s1 s2 : ssim s1 s2 -> ssim (set_cells_to_be_subdivided (fst s1) [], snd s1) (set_cells_to_be_subdivided (fst s2) [], snd s2).
Proof. intros [E M]. split; cbn [fst snd]; [rewrite E; reflexivity|exact M]. Qed.
Lemma sim_gen_cells fuel s1 s2 : ssim s1 s2 -> rsim ssim (generate_cells_of k fuel inp1 s1) (generate_cells_of k fuel inp2 s2).
Proof.
  intros H. apply sim_clear in H.
  assert (G : rsim ssim (generate_output_cells fuel inp1 s1) (generate_output_cells fuel inp2 s2)).
  { unfold generate_output_cells. rewrite (sim_cells _ _ HI). destruct (cells inp2); [|reflexivity]. apply sim_cells_loop. exact H. }
  destruct k as [[]|]; cbn [generate_cells_of]; auto.
  unfold sqrt3_generate_output_cells. rewrite (sim_cells _ _ HI). destruct (cells inp2); [|reflexivity]. apply sim_sqrt3_loop. exact H.
Qed.

Lemma update_sim_id fuel f : rsim ssim (update k fuel f inp1) (update k fuel f inp2).
Proof.
  unfold update. apply rbind_sim with (R := tsim).
  - assert (G : (exists s, k = CellF s) \/ (exists s, k = EdgeF s)) by (clear; destruct k; eauto).
    destruct G as [[s Ek]|[s Ek]]; rewrite Ek; cbn [generate_output_points]; [apply sim_points_c|apply sim_points_e]; auto.
  - intros a c Hac. apply sim_gen_cells. apply Hac.
Qed.
End RUN.
End SIMID.
