(** * Copy: CopyInputMeshToOutputMeshGeometry reproduces a valid mesh, wire edges included. *)
From Coq Require Import Permutation Sorted.
From Verif Require Import Base Mesh Filters Spec SpecSub Lists AddFace SplitTri Split Points Valid Run.

Section COPY.
Context {O : Ops} {D : Type}.
Notation mesh := (mesh O D).
Implicit Types (m : mesh) (T : list tri).

(** A fan of [T] around [b] that closes contains every neighbour of [b]. *)
Definition fans_close (R : N -> N -> Prop) T (b : N) : Prop :=
  forall S : list N, S <> [] -> (forall x, In x S -> R b x) ->
    (forall x, In x S -> exists p, In p S /\ In (p, b, x) (corners T)) ->
    forall y, R b y -> In y S.

Lemma fans_close_prefix R T U b : fans_close R (T ++ U) b -> fans_close R T b.
Proof.
  intros H S Hne Hsub Hcl. apply (H S Hne Hsub). intros x Hx. destruct (Hcl x Hx) as [p [Hp Hc]].
  exists p. split; [exact Hp|]. rewrite corners_app. apply in_or_app. auto.
Qed.

Lemma valid_fans_close m b : valid m -> fans_close (joined m) (tris m) b.
Proof.
  intros Hv S Hne Hsub Hcl y Hy.
  apply (cyc_closed_all (ring m b) (fun x => In x S)).
  - intros x z Hx Hc. destruct (Hcl x Hx) as [p [Hp Hcor]].
    apply (v_corners _ Hv) in Hcor. rewrite <- (cyc_fun _ _ _ _ (v_ring_nodup _ Hv b) Hcor Hc). exact Hp.
  - destruct S as [|x S]; [congruence|]. exists x. split; [apply Hsub; cbn; auto|cbn; auto].
  - exact Hy.
Qed.

(** A triangle all of whose edges are already there. *)
Lemma add_face_wired m T t (R : N -> N -> Prop) :
  binv m T R (corners T) -> (forall x y, R x y -> R y x) ->
  proper t -> NoDup (dirs (T ++ [t])) ->
  (forall a b, In (a, b) (tdirs t) -> R a b) ->
  (forall b, fans_close R (T ++ [t]) b) ->
  (forall x, In x (tverts t) -> oget x (pts m) <> None) ->
  exists m', add_face m (tverts t) = (m', hd_error (tdirs t)) /\
    pts m' = pts m /\ cdata m' = cdata m /\ binv m' (T ++ [t]) R (corners (T ++ [t])).
Proof.
  intros Hb HRs Hp Hnd HR Hum Hpts. destruct t as [[a b] c]. cbn [tverts tdirs hd_error] in *.
  destruct Hp as [Hab [Hbc Hca]].
  rewrite dirs_app, dirs_one in Hnd.
  assert (Hnew : forall e, In e (tdirs (a, b, c)) -> ~ In e (dirs T)).
  { intros e He HT. eapply NoDup_app_disj; eauto. }
  pose proof (i_cells _ _ _ _ Hb) as Hcl.
  unfold add_face.
  assert (nodupb [a; b; c] = true) as ->.
  { apply nodupb_NoDup. repeat constructor; cbn; intuition congruence. }
  assert (forallb (fun p => omem p (pts m)) [a; b; c] = true) as ->.
  { apply forallb_forall. intros x Hx. unfold omem. specialize (Hpts x Hx).
    destruct (oget x (pts m)); congruence. }
  cbn [negb].
  assert (existsb (left_set m) (poly_dirs [a; b; c]) = false) as ->.
  { destruct (existsb (left_set m) (poly_dirs [a; b; c])) eqn:E; [|reflexivity].
    apply existsb_exists in E. destruct E as [e [He Hl]]. exfalso.
    apply (left_set_dirs _ _ _ Hcl) in Hl. eapply Hnew; [|exact Hl]. exact He. }
  change (poly_dirs [a; b; c]) with [(a, b); (b, c); (c, a)].
  assert (Hfind : forall x y, In (x, y) [(a, b); (b, c); (c, a)] -> find_edge m x y = Some (x, y)).
  { intros x y H. unfold find_edge.
    assert (memN y (ring m x) = true) as -> by (apply memN_In; apply (i_ring _ _ _ _ Hb); apply HR; exact H). reflexivity. }
  assert (add_missing_edges m [(a, b); (b, c); (c, a)] = (m, true)) as ->.
  { cbn [add_missing_edges]. rewrite !Hfind by (cbn; auto). reflexivity. }
  assert (Hclose : forall v p n, In (p, v, n) (tcorners (a, b, c)) ->
     forall S, S <> [] -> (forall x, In x S -> R v x) ->
     (forall x, In x S -> exists q, In q S /\ (In (q, v, x) (corners T) \/ (q = p /\ x = n))) ->
     forall y, R v y -> In y S).
  { intros v p n Hin S HS Hsub HclS. apply (Hum v S HS Hsub).
    intros x Hx. destruct (HclS x Hx) as [q [Hq [H|[-> ->]]]]; exists q + exists p; (split; [assumption|]);
      rewrite corners_app, corners_one; apply in_or_app; auto. }
  change (poly_corners [a; b; c]) with [(a, b, c); (b, c, a); (c, a, b)].
  assert (HRin : forall x y, In (x, y) [(a, b); (b, c); (c, a)] -> R x y /\ R y x) by (intros x y H; auto).
  destruct (HRin a b) as [Rab Rba]; [cbn; auto|].
  destruct (HRin b c) as [Rbc Rcb]; [cbn; auto|].
  destruct (HRin c a) as [Rca Rac]; [cbn; auto|].
  assert (Nab : ~ In (a, b) (dirs T)) by (apply Hnew; cbn; auto).
  assert (Nbc : ~ In (b, c) (dirs T)) by (apply Hnew; cbn; auto).
  assert (Nca : ~ In (c, a) (dirs T)) by (apply Hnew; cbn; auto).
  cbn [link_corners].
  destruct (link_ok m T R (corners T) a b c Hb) as [r1 [L1 B1]]; auto.
  { intros p n. tauto. }
  { apply (Hclose b a c). cbn; auto. }
  rewrite L1.
  destruct (link_ok (set_ring m b r1) T R (corners T ++ [(a, b, c)]) b c a B1) as [r2 [L2 B2]]; auto.
  { intros p n. rewrite in_app_iff. cbn. intuition congruence. }
  { apply (Hclose c b a). cbn; auto. }
  rewrite L2.
  destruct (link_ok (set_ring (set_ring m b r1) c r2) T R ((corners T ++ [(a, b, c)]) ++ [(b, c, a)]) c a b B2)
    as [r3 [L3 B3]]; auto.
  { intros p n. rewrite !in_app_iff. cbn. intuition congruence. }
  { apply (Hclose a c b). cbn; auto. }
  rewrite L3.
  eexists. split; [reflexivity|]. split; [reflexivity|]. split; [reflexivity|].
  apply (push_cell_ok _ _ _ _ (a, b, c)) in B3.
  eapply binv_ext; [exact B3|intros; tauto|].
  intros q. rewrite corners_app, corners_one, !in_app_iff. cbn. tauto.
Qed.

(** Copying the edges. *)
Lemma copy_edges_ok (es : omap (option dedge)) : forall m R,
  binv m [] R [] -> (forall x y, R x y -> R y x) ->
  (forall id o, In (id, o) es -> exists a b, o = Some (a, b) /\ a <> b) ->
  exists m' R', fold_left (fun m kv => match snd kv with
                             | Some (a, b) => fst (add_missing_edges m [(a, b)])
                             | None => m
                             end) es m = m' /\
    pts m' = pts m /\ cdata m' = cdata m /\ cells m' = cells m /\ binv m' [] R' [] /\ (forall x y, R' x y -> R' y x) /\
    (forall a b, R' a b <-> R a b \/ exists id e, In (id, Some e) es /\ undirected_eq e (a, b)).
Proof.
  induction es as [|[id o] es IH]; intros m R Hb HRs Hes.
  - exists m, R. cbn. split; [reflexivity|]. do 3 (split; [reflexivity|]). split; [exact Hb|]. split; [exact HRs|].
    intros a b. split; [auto|]. intros [H|[i [e [[] _]]]]. exact H.
  - destruct (Hes id o) as [a [b [-> Hne]]]; [cbn; auto|]. cbn [fold_left snd add_missing_edges].
    assert (Hstep : exists m1 R1,
      fst (match find_edge m a b with Some _ => (m, true) | None => match add_edge m a b with Some m' => (m', true) | None => (m, false) end end) = m1 /\
      pts m1 = pts m /\ cdata m1 = cdata m /\ cells m1 = cells m /\ binv m1 [] R1 [] /\ (forall x y, R1 x y -> R1 y x) /\
      (forall x y, R1 x y <-> R x y \/ undirected_eq (a, b) (x, y))).
    { unfold find_edge. destruct (R_dec _ _ _ _ a b Hb) as [HR|HR].
      - assert (memN b (ring m a) = true) as -> by (apply memN_In; apply (i_ring _ _ _ _ Hb); exact HR).
        exists m, R. do 4 (split; [reflexivity|]). split; [exact Hb|]. split; [exact HRs|].
        intros x y. split; [auto|]. intros [H|[H|H]]; [exact H| |]; cbn in H; inv H; auto.
      - assert (memN b (ring m a) = false) as -> by (apply memN_nIn; rewrite (i_ring _ _ _ _ Hb); exact HR).
        assert (Hroom : forall x, room m [] x).
        { intros x. unfold room. destruct (ring m x) as [|y r]; [auto|]. right. exists y. cbn. auto. }
        destruct (add_edge_ok m [] R a b Hb) as [m1 [E1 [Hp1 [Hd1 [Hc1 [Hb1 _]]]]]]; auto; [constructor|].
        rewrite E1. eexists. eexists. split; [reflexivity|]. do 3 (split; [assumption|]). split; [exact Hb1|]. split.
        + intros x y [H|[[-> ->]|[-> ->]]]; [left; auto|right; right; auto|right; left; auto].
        + intros x y. split.
          * intros [H|[[-> ->]|[-> ->]]]; [auto|right; left; reflexivity|right; right; reflexivity].
          * intros [H|[H|H]]; [auto| |]; cbn in H; inv H; auto. }
    destruct Hstep as [m1 [R1 [E1 [Hp1 [Hd1 [Hc1 [Hb1 [Hs1 HR1]]]]]]]]. rewrite E1.
    destruct (IH m1 R1 Hb1 Hs1) as [m' [R' [E [Hp [Hd [Hc [Hb' [Hs' HR']]]]]]]].
    { intros i o Ho. apply (Hes i). cbn. auto. }
    exists m', R'. split; [exact E|]. do 3 (split; [congruence|]). split; [exact Hb'|]. split; [exact Hs'|].
    intros x y. rewrite HR', HR1. split.
    + intros [[H|H]|[i [e [H1 H2]]]]; [auto| |].
      * right. exists id, (a, b). cbn. auto.
      * right. exists i, e. cbn. auto.
    + intros [H|[i [e [[H1|H1] H2]]]]; [auto| |].
      * inv H1. auto.
      * right. exists i, e. auto.
Qed.

(** Copying the triangles. *)
Lemma copy_tris_ok U : forall m T R,
  binv m T R (corners T) -> (forall x y, R x y -> R y x) ->
  (forall t, In t U -> proper t) -> NoDup (dirs (T ++ U)) ->
  (forall a b, In (a, b) (dirs U) -> R a b) -> (forall b, fans_close R (T ++ U) b) ->
  (forall t x, In t U -> In x (tverts t) -> oget x (pts m) <> None) ->
  binv (add_tris m U) (T ++ U) R (corners (T ++ U)) /\ pts (add_tris m U) = pts m /\ cdata (add_tris m U) = cdata m.
Proof.
  induction U as [|t U IH]; intros m T R Hb HRs Hpr Hnd HR Hum Hpts.
  - cbn. rewrite app_nil_r. auto.
  - assert (Eapp : T ++ t :: U = (T ++ [t]) ++ U) by (rewrite <- app_assoc; reflexivity).
    rewrite Eapp in *.
    destruct (add_face_wired m T t R Hb HRs) as [m1 [E [Hp [Hd Hb1]]]].
    + apply Hpr. cbn. auto.
    + rewrite dirs_app in Hnd. eapply NoDup_app_l; eauto.
    + intros a b H. apply HR. unfold dirs. cbn [flat_map]. apply in_or_app. auto.
    + intros b. eapply fans_close_prefix. apply Hum.
    + intros x Hx. apply (Hpts t); cbn; auto.
    + cbn. rewrite E. cbn [fst].
      destruct (IH m1 (T ++ [t]) R Hb1 HRs) as [H1 [H2 H3]]; auto.
      * intros u Hu. apply Hpr. cbn. auto.
      * intros a b H. apply HR. unfold dirs in *. cbn [flat_map]. apply in_or_app. auto.
      * intros u x Hu Hx. rewrite Hp. apply (Hpts u); cbn; auto.
      * unfold add_tris in *. split; [exact H1|]. split; congruence.
Qed.

Lemma binv_faces (out : mesh) T R C : binv out T R C -> T <> [] -> faces out = idx T.
Proof.
  intros Hb Hne. unfold faces. rewrite (i_some _ _ _ _ Hb Hne), (i_cells _ _ _ _ Hb). unfold idx.
  generalize 0 as k. clear. induction T as [|[[a b] c] T IH]; intros k; [reflexivity|].
  cbn [map]. rewrite !idx_from_cons. cbn [flat_map fst snd map app]. rewrite IH. reflexivity.
Qed.
Lemma binv_tris (out : mesh) T R C : binv out T R C -> tris out = T.
Proof.
  intros Hb. destruct T as [|t T].
  - pose proof (i_cells _ _ _ _ Hb) as H. unfold cells_list in H. unfold tris, faces.
    destruct (cells out) as [cs|]; [|reflexivity]. rewrite H. reflexivity.
  - unfold tris. rewrite (binv_faces _ _ _ _ Hb) by discriminate. apply idx_from_snd.
Qed.

(** The copy. *)
Lemma copy_geometry_ok m : valid m ->
  pts (copy_geometry m) = pts m /\ cdata (copy_geometry m) = None /\
  binv (copy_geometry m) (tris m) (joined m) (corners (tris m)).
Proof.
  intros Hv. unfold copy_geometry. rewrite (plain_copy_ok _ Hv).
  destruct (v_ecells _ Hv) as [es [Hes [_ [He1 [He2 _]]]]].
  unfold copy_ecells. rewrite Hes.
  destruct (copy_edges_ok es (set_pts empty_mesh (pts m)) (fun _ _ => False)) as [m1 [R' [E1 [Hp1 [Hd1 [Hc1 [Hb1 [Hs1 HR1]]]]]]]].
  - eapply binv_ext; [apply (built_empty (pts m))| |auto]. intros a b. unfold nbr. cbn. tauto.
  - auto.
  - intros id o Ho. destruct (He1 id o Ho) as [a [b [-> Hj]]]. exists a, b. split; [reflexivity|].
    intros ->. apply (v_ring_irr _ Hv b Hj).
  - rewrite E1.
    assert (HRj : forall a b, R' a b <-> joined m a b).
    { intros a b. rewrite HR1. split.
      - intros [[]|[id [e [Hin Hu]]]]. destruct (He1 id _ Hin) as [x [y [E Hj]]]. inv E.
        destruct Hu as [H|H]; cbn in H; inv H; [exact Hj|apply (v_ring_sym _ Hv); exact Hj].
      - intros H. right. apply He2. exact H. }
    assert (Hb2 : binv m1 [] (joined m) (corners [])).
    { eapply binv_ext; [exact Hb1|exact HRj|auto]. }
    destruct (copy_tris_ok (tris m) m1 [] (joined m) Hb2) as [H1 [H2 H3]].
    + apply (v_ring_sym _ Hv).
    + apply (v_proper _ Hv).
    + apply (v_dirs _ Hv).
    + apply (v_face_edges _ Hv).
    + intros b. apply valid_fans_close. exact Hv.
    + intros t x Ht Hx. rewrite Hp1. apply (v_verts _ Hv t); assumption.
    + assert (E : copy_cells m m1 = add_tris m1 (tris m)).
      { unfold copy_cells, add_tris. rewrite (valid_cells_list _ Hv). unfold tris.
        generalize m1 as mm. induction (faces m) as [|[i [[a b] c]] l IH]; intros mm; [reflexivity|].
        cbn [map fold_left fst snd poly]. apply IH. }
      rewrite E. split; [rewrite H2; exact Hp1|]. split; [rewrite H3; exact Hd1|]. exact H1.
Qed.

Lemma copy_valid m : valid m -> tris m <> [] -> valid (copy_geometry m).
Proof.
  intros Hv Hne. destruct (copy_geometry_ok m Hv) as [Hp [_ Hb]]. set (out := copy_geometry m) in *.
  assert (Ht : tris out = tris m) by (eapply binv_tris; eauto).
  destruct Hb as [H1 H2 H3 H4 H5 H6 [L [HL [HndL [La [Lb Lc]]]]]].
  split; [|rewrite Ht; apply (v_notwin _ Hv)].
  constructor; rewrite ?Ht, ?Hp; try (apply Hv; fail).
  - exists (cells_list out). split; [apply H2; exact Hne|]. intros id c Hin. rewrite H1 in Hin.
    apply idx_In in Hin. rewrite nth_error_map in Hin. destruct (nth_error (tris m) (N.to_nat id)) as [[[x y] z]|]; [|discriminate].
    inv Hin. exists x, y, z. reflexivity.
  - intros cs Hcs. rewrite (H2 Hne) in Hcs. inv Hcs. rewrite H1. apply idx_from_sorted.
  - exact H4.
  - intros a Ha. apply H5 in Ha. apply (v_ring_irr _ Hv a Ha).
  - intros a b Hab. apply H5. apply H5 in Hab. apply (v_ring_sym _ Hv). exact Hab.
  - intros a b Hab. apply H5 in Hab. apply (v_ring_pts _ Hv a b Hab).
  - intros a b Hab. apply H5. apply (v_face_edges _ Hv). exact Hab.
  - exact H6.
  - exists (idx (map Some L)). split; [exact HL|]. split; [apply idx_from_sorted|]. split; [|split].
    + intros id o Ho. apply idx_In in Ho. rewrite nth_error_map in Ho.
      destruct (nth_error L (N.to_nat id)) as [[a b]|] eqn:E; [|discriminate]. inv Ho.
      exists a, b. split; [reflexivity|]. apply H5. apply (La (a, b)). eapply nth_error_In; eauto.
    + intros a b Hab. apply H5 in Hab. destruct (Lb a b Hab) as [e [He Hu]].
      apply In_nth_error in He. destruct He as [i Hi]. exists (N.of_nat i), e. split; [|exact Hu].
      apply idx_In. rewrite Nat2N.id, nth_error_map, Hi. reflexivity.
    + intros i j e g Hi Hj Hu. apply idx_In in Hi. apply idx_In in Hj.
      rewrite nth_error_map in Hi, Hj.
      destruct (nth_error L (N.to_nat i)) as [e'|] eqn:Ei; [|discriminate].
      destruct (nth_error L (N.to_nat j)) as [g'|] eqn:Ej; [|discriminate]. inv Hi. inv Hj.
      assert (e = g) by (apply Lc; auto; eapply nth_error_In; eauto). subst g.
      assert (Hij : N.to_nat i = N.to_nat j).
      { apply (proj1 (NoDup_nth_error L) HndL); [apply nth_error_Some; congruence|congruence]. }
      lia.
Qed.
End COPY.
