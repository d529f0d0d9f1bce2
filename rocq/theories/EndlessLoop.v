(** * EndlessLoop: the conditional filter around the Loop filter that never ends (C109).

    A triangle (c, v, q) that is among its own four children, larger than the threshold for ever; its two
    neighbours at v stay below the threshold.  No old point is smoothed, because the id of the selected cell is
    not the id of a point. *)
From Verif Require Import Base Mesh Filters Drivers Spec SpecSub SpecDrive Lists AddFace SplitTri Split Points Valid Run Update Struct Count Face Copy PtsAny Geo GeoProps Conn Drive Area Cond DriveProps Never Endless.

Section NEVERF.
Context {O : Ops} {D : Type}.
Notation mesh := (mesh O D).
Implicit Types m inp : mesh.

(** [area_never] with an invariant that also depends on the state of the filter. *)
Lemma area_never_f s (t : K O) (G : fstate -> mesh -> Prop) old f inp :
  (forall f m, G f m -> cond_start (CellF s) m) -> (forall f m, G f m -> long_cells t m <> []) ->
  (forall f m fuel f' m', G f m -> update (CellF s) fuel (apply_selection f (asel t m)) m = Ok (f', m') -> G f' m') ->
  G f (copy_geometry inp) ->
  diverges (fun fuel => conditional_update fuel (CellF s) (Some (cell_area_criterion t)) old f inp).
Proof.
  intros HG Hn Hst H0 fuel. unfold conditional_update. destruct (HG _ _ H0) as [Hv _].
  destruct (crit_or (t := t) (copy_geometry inp) old fuel Hv) as [E|E]; rewrite E; cbn [rbind]; [reflexivity|]. clear E Hv.
  revert H0. generalize (copy_geometry inp) as m. revert f. induction fuel as [|fuel IH]; intros f m H0; [reflexivity|]. cbn [conditional_loop].
  assert (Es : sel_empty (asel t m) = false) by (cbn; specialize (Hn f m H0); destruct (long_cells t m); [congruence|reflexivity]). rewrite Es.
  pose proof (HG f m H0) as CS. pose proof (area_ready s t m f CS) as Hr. destruct CS as [Hv [Hd _]].
  destruct (face_completes (CellF s) _ m Hv Hd Hr) as [f1 [m1 [_ [n1 H1]]]]. cbv beta in H1.
  assert (Hu : update (CellF s) fuel (apply_selection f (asel t m)) m = OutOfFuel \/ update (CellF s) fuel (apply_selection f (asel t m)) m = Ok (f1, m1)).
  { destruct (update (CellF s) fuel (apply_selection f (asel t m)) m) as [x| | |] eqn:E; auto; right;
    specialize (H1 (fuel + n1)%nat ltac:(lia)); rewrite update_mono in H1 by congruence; congruence. }
  destruct Hu as [-> | E]; [reflexivity|]. rewrite E. cbn [rbind]. pose proof (Hst f m fuel f1 m1 H0 E) as HG1.
  destruct (HG _ _ HG1) as [Hv1 _].
  destruct (crit_or (t := t) m1 (asel t m) fuel Hv1) as [E1|E1]; rewrite E1; cbn [rbind]; [reflexivity|]. apply IH. exact HG1.
Qed.
End NEVERF.

Section ENDLESSLOOP.
Context {O : Ops} {D : Type}.
Notation mesh := (mesh O D).
Notation point := (list (K O)).
Implicit Types m inp out : mesh.

(** Loop's mask for the edge (a, b) with the opposite corners c and e. *)
Definition lmask (a b c e : point) : point := comb pzero loop_weights [a; b; c; e].
Definition lboth (a b c e r : point) : Prop := lmask a b c e = r /\ lmask b a e c = r.

Lemma lmask_eval m a b c e A B C E : valid m -> is_face m a b c -> is_face m b a e ->
  oget a (pts m) = Some A -> oget b (pts m) = Some B -> oget c (pts m) = Some C -> oget e (pts m) = Some E ->
  loop_point m (a, b) = Ok (lmask A B C E).
Proof.
  intros Hv Fc Fe HA HB HC HE. unfold loop_point. rewrite (faces_internal m a b c e Hv Fc Fe). cbn [fst snd].
  rewrite (face_lnext m a b c Hv Fc), (face_rprev m a b e Hv Fe). unfold get_pt. rewrite HA, HB. cbn [rbind].
  rewrite (get_dest m _ _ _ HC), (get_dest m _ _ _ HE). reflexivity.
Qed.

Definition in_rot (l : list tri) (a b e : N) : Prop := In (a, b, e) l \/ In (b, e, a) l \/ In (e, a, b) l.
Lemma halve_in (mid : N -> N -> option N) l a b e x : in_rot l a b e -> mid a b = Some x -> mid b e = None -> mid e a = None ->
  In (x, b, e) (concat (map (split_tri mid) l)) /\ In (x, e, a) (concat (map (split_tri mid) l)).
Proof.
  intros H M0 M1 M2. assert (CI : forall u w, In u l -> In w (split_tri mid u) -> In w (concat (map (split_tri mid) l))).
  { intros u w Hu Hw. apply in_concat. exists (split_tri mid u). split; [apply in_map; exact Hu|exact Hw]. }
  destruct H as [H|[H|H]]; split; apply (CI _ _ H); unfold split_tri, split_triangle, split_one; rewrite M0, M1, M2; cbn; auto.
Qed.
Lemma rot_two (mid : N -> N -> option N) l a b e x : in_rot l a b e -> mid a b = Some x -> mid b e = None -> mid e a = None ->
  exists u, In u l /\ In u [(a, b, e); (b, e, a); (e, a, b)] /\ length (split_tri mid u) = 2%nat.
Proof.
  intros H M0 M1 M2. destruct H as [H|[H|H]]; eexists; (split; [exact H|]); (split; [cbn; auto|]);
    unfold split_tri, split_triangle, split_one; rewrite M0, M1, M2; reflexivity.
Qed.
Lemma concat_grow {A B} (g : A -> list B) l : (forall w, 1 <= length (g w))%nat -> (length l <= length (concat (map g l)))%nat.
Proof. intros H. induction l as [|w l IH]; cbn; [lia|]. rewrite app_length. specialize (H w). lia. Qed.
Lemma concat_two {A B} (g : A -> list B) l x y : (forall w, 1 <= length (g w))%nat -> In x l -> In y l -> x <> y ->
  length (g x) = 2%nat -> length (g y) = 2%nat -> (length l + 2 <= length (concat (map g l)))%nat.
Proof.
  intros H Hx Hy N0 Lx Ly.
  assert (One : forall w l, In w l -> length (g w) = 2%nat -> (length l + 1 <= length (concat (map g l)))%nat).
  { intros w l0 Hw Lw. apply in_split in Hw. destruct Hw as [r [s ->]]. rewrite map_app, concat_app, !app_length. cbn [map concat length]. rewrite app_length.
    pose proof (concat_grow g r H). pose proof (concat_grow g s H). lia. }
  apply in_split in Hx. destruct Hx as [r [s ->]]. rewrite map_app, concat_app, !app_length. cbn [map concat length]. rewrite app_length.
  pose proof (concat_grow g r H). pose proof (concat_grow g s H). apply in_app_or in Hy. destruct Hy as [Hy|[Hy|Hy]]; [|congruence|];
    apply One in Hy; auto; lia.
Qed.
Lemma split_nonempty (mid : N -> N -> option N) u : (1 <= length (split_tri mid u))%nat.
Proof. destruct u as [[a b] e]. unfold split_tri, split_triangle. destruct (mid a b), (mid b e), (mid e a); cbn; lia. Qed.

Lemma pigeon L id q x c : (L + 3 <= N.to_nat id)%nat -> (forall k, (k <= id)%N -> (N.to_nat k < L)%nat \/ k = q \/ k = x \/ k = c) -> False.
Proof.
  intros G BD. assert (X : forall j, (j <= 3)%nat -> let k := N.of_nat (L + j) in k = q \/ k = x \/ k = c).
  { intros j Hj k. destruct (BD k) as [H|H]; [unfold k; lia|unfold k in H; lia|exact H]. }
  pose proof (X 0%nat ltac:(lia)) as X0. pose proof (X 1%nat ltac:(lia)) as X1. pose proof (X 2%nat ltac:(lia)) as X2. pose proof (X 3%nat ltac:(lia)) as X3. cbv zeta in *. clear X BD.
  destruct X0 as [X0|[X0|X0]]; destruct X1 as [X1|[X1|X1]]; try lia; destruct X2 as [X2|[X2|X2]]; try lia; destruct X3 as [X3|[X3|X3]]; lia.
Qed.

Section LOOPAGAIN.
Variables (V Z Z' : point) (t : K O).
Variable St : point -> point -> point -> Prop.
Notation small := (Endless.small t).
Hypothesis inner : forall Q C M, St Q C M -> kgtb O (area C V Q) t = true.
Hypothesis again : forall Q C M, St Q C M -> exists Q1 C1 M1, St Q1 C1 M1 /\
  lboth V Q C Z Q1 /\ lboth Q C V M M1 /\ lboth C V Q Z' C1 /\
  small Q1 V Z /\ small Q1 Z Q /\ small C1 C Z' /\ small C1 Z' V /\
  small Q1 Q M1 /\ small M1 C C1 /\ small Q1 M1 C1 /\ small M1 Q M /\ small M1 M C.

Record lconf m (v z q c z' x : N) (Q C M : point) (l1 l2 : list tri) : Prop := {
  lk_tris : tris m = l1 ++ (c, v, q) :: l2;
  lk_fan1 : in_rot l1 v z q;
  lk_fan2 : in_rot l1 v c z';
  lk_x : is_face m c q x;
  lk_ids : forall id, oget id (pts m) <> None -> (N.to_nat id < length l1)%nat;
  lk_zc : z <> c; lk_zq : z' <> q; lk_xv : x <> v;
  lp_v : oget v (pts m) = Some V; lp_z : oget z (pts m) = Some Z; lp_q : oget q (pts m) = Some Q; lp_c : oget c (pts m) = Some C;
  lp_z' : oget z' (pts m) = Some Z'; lp_x : oget x (pts m) = Some M
}.
Definition lothers m (v q c : N) : Prop := forall a b e, In (a, b, e) (tris m) ->
  (a, b, e) = (c, v, q) \/ exists A B E, tri_pts m a b e A B E /\ small A B E.
Definition numbered m : Prop := forall id u, In (id, u) (faces m) <-> nth_error (tris m) (N.to_nat id) = Some u.
Definition lstate m : Prop := cond_start (CellF CLoop) m /\ numbered m /\ exists v z q c z' x Q C M l1 l2,
  St Q C M /\ lconf m v z q c z' x Q C M l1 l2 /\ lothers m v q c.

Lemma once m l1 l2 u i : valid m -> tris m = l1 ++ u :: l2 -> nth_error (tris m) i = Some u -> i = length l1.
Proof.
  intros Hv Ht Hi.
  assert (ND : NoDup (tris m)).
  { pose proof (v_dirs _ Hv) as H. clear -H. induction (tris m) as [|[[a b] c] l IH]; [constructor|]. cbn in H. constructor.
    - intros Hin. inversion H as [|? ? Hn _]; subst. apply Hn. cbn. right. right. apply in_flat_map. exists (a, b, c). split; [exact Hin|cbn; auto].
    - apply IH. inversion H as [|? ? _ H1]; subst. inversion H1 as [|? ? _ H2]; subst. inversion H2; subst. assumption. }
  rewrite Ht in ND, Hi. rewrite NoDup_nth_error in ND. apply ND; [apply nth_error_Some; congruence|]. rewrite Hi, nth_error_app2, Nat.sub_diag by lia. reflexivity.
Qed.
Lemma lchosen m v q c Q C M i u : valid m -> St Q C M -> oget v (pts m) = Some V -> oget q (pts m) = Some Q -> oget c (pts m) = Some C -> lothers m v q c ->
  In (i, u) (faces m) -> (In i (long_cells t m) <-> u = (c, v, q)).
Proof.
  intros Hv HS Hv0 Hq Hc Ho Hi. rewrite (long_cells_In t m i Hv). split.
  - intros [a [b [e [A [B [E [Hf [[HA [HB HE]] G]]]]]]]].
    assert (u = (a, b, e)) as -> by (eapply faces_fun; [apply Hv|exact Hi|exact Hf]).
    destruct (Ho a b e) as [H|[A' [B' [E' [[HA' [HB' HE']] [Hs _]]]]]]; [apply face_id; eauto|exact H|].
    exfalso. unfold small1 in Hs. congruence.
  - intros ->. exists c, v, q, C, V, Q. unfold tri_pts. repeat split; auto. eapply inner; eauto.
Qed.

Lemma lstep m f n f1 m1 : uniform f = false -> lstate m -> update (CellF CLoop) n (apply_selection f (asel t m)) m = Ok (f1, m1) -> uniform f1 = false /\ lstate m1.
Proof.
  intros Uf [H0 [Num [v [z [q [c [z' [x [Q [C [M [l1 [l2 [HS [K Ho]]]]]]]]]]]]]]] E.
  pose proof (area_ready CLoop t m f H0) as Hr. pose proof (start_step _ _ _ _ _ _ H0 Hr E) as H1. pose proof H0 as [Hv [Hd _]].
  destruct (face_run _ _ m n f1 m1 Hv Hd Hr E) as [mid [Ls FR]]. pose proof (fr_sub _ _ _ _ _ _ _ FR) as Hsd.
  assert (Ht : tris m1 = concat (map (split_tri mid) (tris m))) by (rewrite (sd_tris _ _ _ _ _ Hsd), (fr_Ls _ _ _ _ _ _ _ FR); reflexivity).
  destruct K as [Kt Kf1 Kf2 Fx Ki Nzc Nzq Nxv Pv Pz Pq Pc Pz' Px].
  assert (Fin : In (c, v, q) (tris m)) by (rewrite Kt; apply in_or_app; right; left; reflexivity).
  assert (R1 : forall a b e, is_face m a b e -> is_face m b e a) by (intros; apply is_face_rot; assumption).
  assert (R2 : forall a b e, is_face m a b e -> is_face m e a b) by (intros; apply is_face_rot, is_face_rot; assumption).
  assert (FL : forall a b e, in_rot l1 a b e -> is_face m a b e).
  { intros a b e [H|[H|H]]; unfold is_face; rewrite Kt; rewrite !in_app_iff; tauto. }
  assert (F0 : is_face m v q c) by (apply R1; left; exact Fin).
  pose proof (FL _ _ _ Kf1) as Ff1. pose proof (FL _ _ _ Kf2) as Ff2.
  assert (LS : forall i, In i (long_cells t m) -> nth_error (tris m) (N.to_nat i) = Some (c, v, q)).
  { intros i Hi. pose proof Hi as Hi'. apply (long_cells_In t m i Hv) in Hi'. destruct Hi' as [a [b [e [A [B [E0 [Hf _]]]]]]].
    apply (lchosen m v q c Q C M i _ Hv HS Pv Pq Pc Ho Hf) in Hi. rewrite Hi in Hf. apply Num. exact Hf. }
  assert (NE0 : long_cells t m <> []).
  { intros E0. apply face_id in Fin. destruct Fin as [i Hi]. pose proof (proj2 (lchosen m v q c Q C M i _ Hv HS Pv Pq Pc Ho Hi) eq_refl) as L. rewrite E0 in L. destruct L. }
  split.
  { rewrite (fr_uniform _ _ _ _ _ _ _ FR). cbn. destruct (long_cells t m); [congruence|reflexivity]. }
  split; [exact H1|]. split; [exact (fr_ids _ _ _ _ _ _ _ FR)|].
  (* the edges that are split *)
  assert (SP : forall a b, mid a b <> None <-> edge_of (v, q, c) a b).
  { intros a b. rewrite (sd_dom _ _ _ _ _ Hsd). cbn [to_split]. split.
    - intros [u [Hs Hab]]. destruct Hs as [[Hn Hu]|[i [Hi Hu]]].
      + exfalso. cbn in Hn. congruence.
      + apply (lchosen m v q c Q C M i u Hv HS Pv Pq Pc Ho Hu) in Hi. subst u. unfold edge_of in *; cbn in *; tauto.
    - intros Hab. apply face_id in Fin. destruct Fin as [i Hi].
      exists (c, v, q). split; [right; exists i; split; [|exact Hi]; apply (lchosen m v q c Q C M i _ Hv HS Pv Pq Pc Ho Hi); reflexivity|]. unfold edge_of in *; cbn in *; tauto. }
  assert (NO : forall a b, ~ edge_of (v, q, c) a b -> mid a b = None).
  { intros a b H. destruct (mid a b) eqn:Em; [|reflexivity]. exfalso. apply H. apply SP. congruence. }
  assert (Sy : forall a b, mid a b = mid b a) by apply (sd_sym _ _ _ _ _ Hsd).
  destruct (mid v q) as [q1|] eqn:Eq; [|exfalso; revert Eq; apply SP; unfold edge_of; cbn; auto].
  destruct (mid q c) as [x1|] eqn:Ex; [|exfalso; revert Ex; apply SP; unfold edge_of; cbn; auto].
  destruct (mid c v) as [c1|] eqn:Ec; [|exfalso; revert Ec; apply SP; unfold edge_of; cbn; auto].
  pose proof Eq as Eq'. rewrite Sy in Eq'. pose proof Ex as Ex'. rewrite Sy in Ex'. pose proof Ec as Ec'. rewrite Sy in Ec'.
  assert (NEW : forall a b k, mid a b = Some k -> oget k (pts m) = None).
  { intros a b k Hk. apply (sd_new _ _ _ _ _ Hsd k). eauto. }
  pose proof (NEW _ _ _ Eq) as Fq. pose proof (NEW _ _ _ Ex) as Fx1. pose proof (NEW _ _ _ Ec) as Fc.
  assert (OLD : forall k p, oget k (pts m) = Some p -> oget k (pts m1) = Some p).
  { intros k p Hk. pose proof (fr_old_loop _ _ _ _ _ _ _ FR k p Hk eq_refl) as S. unfold smooths in S.
    destruct (memN k (csel (apply_selection f (asel t m)))) eqn:Em.
    - exfalso. apply memN_In in Em. cbn in Em. apply LS in Em. apply (once m l1 l2 _ _ Hv Kt) in Em. pose proof (Ki k ltac:(congruence)). lia.
    - cbn [apply_selection asel] in S. rewrite orb_false_r in S. replace (uniform (set_cells_to_be_subdivided f (long_cells t m))) with false in S by (cbn; congruence).
      exact S. }
  (* proper faces *)
  assert (PR : forall a b e, is_face m a b e -> a <> b /\ b <> e /\ e <> a).
  { intros a b e H. assert (P : forall u, In u (tris m) -> proper u) by apply (v_proper _ Hv).
    destruct H as [H|[H|H]]; apply P in H; unfold proper in H; cbn in H; tauto. }
  pose proof (PR _ _ _ F0) as D0. pose proof (PR _ _ _ Ff1) as D1. pose proof (PR _ _ _ Ff2) as D2. pose proof (PR _ _ _ Fx) as D5.
  (* the new points *)
  assert (PT : forall a b k cc ee A B CC EE r, mid a b = Some k -> is_face m a b cc -> is_face m b a ee ->
     oget a (pts m) = Some A -> oget b (pts m) = Some B -> oget cc (pts m) = Some CC -> oget ee (pts m) = Some EE ->
     lboth A B CC EE r -> oget k (pts m1) = Some r).
  { intros a b k cc ee A B CC EE r Hk X1 X2 HA HB HC HE [B1 B2].
    destruct (fr_new _ _ _ _ _ _ _ FR a b k Hk) as [e [p [Ue [_ [Pe Ge]]]]]. cbn [new_point cell_point] in Pe. rewrite Ge. f_equal.
    destruct Ue as [->| ->]; cbn [fst snd] in Pe.
    - rewrite (lmask_eval m a b cc ee A B CC EE Hv X1 X2 HA HB HC HE) in Pe. injection Pe as <-. exact B1.
    - rewrite (lmask_eval m b a ee cc B A EE CC Hv X2 X1 HB HA HE HC) in Pe. injection Pe as <-. exact B2. }
  destruct (again _ _ _ HS) as [Q1 [C1 [M1 [HS1 [Gq [Gm [Gc [A1 [A2 [A3 [A4 [A5 [A6 [A7 [A8 A9]]]]]]]]]]]]]]].
  assert (Pq1 : oget q1 (pts m1) = Some Q1) by exact (PT v q q1 c z V Q C Z Q1 Eq F0 (R2 _ _ _ Ff1) Pv Pq Pc Pz Gq).
  assert (Px1 : oget x1 (pts m1) = Some M1) by exact (PT q c x1 v x Q C V M M1 Ex (R1 _ _ _ F0) Fx Pq Pc Pv Px Gm).
  assert (Pc1 : oget c1 (pts m1) = Some C1) by exact (PT c v c1 q z' C V Q Z' C1 Ec (R2 _ _ _ F0) Ff2 Pc Pv Pq Pz' Gc).
  assert (NE : forall k p k', oget k (pts m) = Some p -> oget k' (pts m) = None -> k <> k') by (intros; congruence).
  assert (Z1 : mid v z = None /\ mid z q = None).
  { repeat split; apply NO; unfold edge_of; cbn; intros [H|H]; repeat (destruct H as [H|H]; [inv H; tauto|]); destruct H. }
  assert (Z2 : mid c z' = None /\ mid z' v = None).
  { repeat split; apply NO; unfold edge_of; cbn; intros [H|H]; repeat (destruct H as [H|H]; [inv H; tauto|]); destruct H. }
  assert (Z3 : mid q x = None /\ mid x c = None).
  { repeat split; apply NO; unfold edge_of; cbn; intros [H|H]; repeat (destruct H as [H|H]; [inv H; tauto|]); destruct H. }
  destruct Z1 as [Z11 Z12]. destruct Z2 as [Z21 Z22]. destruct Z3 as [Z31 Z32].
  destruct (four_faces m m1 mid Ht v q c q1 x1 c1 F0 Eq Ex Ec) as [N0 [N1 [N2 N3]]].
  assert (Kf1' : in_rot l1 q v z) by (unfold in_rot in *; tauto).
  destruct (halve_in mid l1 q v z q1 Kf1' Eq' Z11 Z12) as [N4 N5].
  destruct (halve_in mid l1 v c z' c1 Kf2 Ec' Z21 Z22) as [N6 N7].
  assert (Ht1 : tris m1 = (concat (map (split_tri mid) l1) ++ [(c, c1, x1)]) ++ (c1, v, q1) :: ([(q1, q, x1); (c1, q1, x1)] ++ concat (map (split_tri mid) l2))).
  { rewrite Ht, Kt, map_app, concat_app. cbn [map concat]. unfold split_tri at 2, split_triangle. rewrite Ec, Eq, Ex. cbn [split_three app]. rewrite <- app_assoc. reflexivity. }
  assert (SIX : forall a b, mid a b <> None -> (a = v /\ b = q) \/ (a = q /\ b = c) \/ (a = c /\ b = v) \/ (a = q /\ b = v) \/ (a = c /\ b = q) \/ (a = v /\ b = c)).
  { intros a b H. apply SP in H. unfold edge_of in H. cbn in H. destruct H as [H|H]; repeat (destruct H as [H|H]; [inv H; tauto|]); destruct H. }
  exists v, z, q1, c1, z', x1, Q1, C1, M1. do 2 eexists. split; [exact HS1|]. split.
  - constructor; [exact Ht1| | | | | | | |apply OLD; exact Pv|apply OLD; exact Pz|exact Pq1|exact Pc1|apply OLD; exact Pz'|exact Px1].
    + right; right. apply in_or_app. left. exact N4.
    + right; left. apply in_or_app. left. exact N7.
    + apply is_face_rot, is_face_rot. exact N3.
    + (* ids *)
      assert (GL : (length l1 + 3 <= length (concat (map (split_tri mid) l1) ++ [(c, c1, x1)]))%nat).
      { destruct (rot_two mid l1 q v z q1 Kf1' Eq' Z11 Z12) as [u1 [U1 [U2 U3]]]. destruct (rot_two mid l1 v c z' c1 Kf2 Ec' Z21 Z22) as [u2 [W1 [W2 W3]]].
        assert (u1 <> u2).
        { intros <-. cbn in U2, W2. destruct U2 as [<-|[<-|[<-|[]]]]; destruct W2 as [W|[W|[W|[]]]]; injection W; intros; subst; tauto. }
        rewrite app_length. cbn [length]. pose proof (concat_two (split_tri mid) l1 u1 u2 (split_nonempty mid) U1 W1 ltac:(assumption) U3 W3). lia. }
      assert (THREE : forall k, oget k (pts m1) <> None -> oget k (pts m) <> None \/ k = q1 \/ k = x1 \/ k = c1).
      { intros k Hk. destruct (oget k (pts m)) eqn:Ek; [left; discriminate|right]. destruct (proj2 (sd_new _ _ _ _ _ Hsd k) (conj Ek Hk)) as [a [b Hab]].
        assert (SX : mid a b <> None) by congruence. apply SIX in SX.
        destruct SX as [[-> ->]|[[-> ->]|[[-> ->]|[[-> ->]|[[-> ->]|[-> ->]]]]]]; [left|right; left|right; right|left|right; left|right; right]; congruence. }
      intros id Hid. apply Nat.lt_le_trans with (length l1 + 3)%nat; [|exact GL].
      pose proof (fr_dense _ _ _ _ _ _ _ FR) as Hd1.
      assert (IN : forall k, (k <= id)%N -> oget k (pts m1) <> None) by (intros k Hk; apply Hd1; apply Hd1 in Hid; lia).
      assert (BD : forall k, (k <= id)%N -> (N.to_nat k < length l1)%nat \/ k = q1 \/ k = x1 \/ k = c1).
      { intros k Hk. destruct (THREE k (IN k Hk)) as [G|G]; [left; apply Ki; exact G|right; exact G]. }
      destruct (Nat.lt_ge_cases (N.to_nat id) (length l1 + 3)) as [G|G]; [exact G|exfalso]. exact (pigeon _ _ _ _ _ G BD).
    + apply (NE _ _ _ Pz Fc).
    + apply (NE _ _ _ Pz' Fq).
    + intros ->. congruence.
  - assert (Q1' : forall k, is_face m q v k -> k = z) by (intros k H; eapply face_third; [exact Hv|exact H|apply R2; exact Ff1]).
    assert (Q2' : forall k, is_face m c q k -> k = x) by (intros k H; eapply face_third; [exact Hv|exact H|exact Fx]).
    assert (Q3' : forall k, is_face m v c k -> k = z') by (intros k H; eapply face_third; [exact Hv|exact H|exact Ff2]).
    assert (Q4' : forall k, is_face m v q k -> k = c) by (intros k H; eapply face_third; [exact Hv|exact H|exact F0]).
    assert (Q5' : forall k, is_face m q c k -> k = v) by (intros k H; eapply face_third; [exact Hv|exact H|apply R1; exact F0]).
    assert (Q6' : forall k, is_face m c v k -> k = q) by (intros k H; eapply face_third; [exact Hv|exact H|apply R2; exact F0]).
    assert (TW : forall a b e, In (a, b, e) (tris m) -> same_verts (a, b, e) (c, v, q) -> (a, b, e) = (c, v, q)) by (intros a b e Ha Hs; apply (v_notwin _ Hv); assumption).
    assert (PTS : forall a b e A B E, oget a (pts m1) = Some A -> oget b (pts m1) = Some B -> oget e (pts m1) = Some E -> small A B E ->
              exists A B E, tri_pts m1 a b e A B E /\ small A B E) by (intros a b e A B E0 HA HB HE Hs; exists A, B, E0; unfold tri_pts; auto).
    pose proof (OLD _ _ Pv) as Ov. pose proof (OLD _ _ Pq) as Oq. pose proof (OLD _ _ Pc) as Oc. pose proof (OLD _ _ Pz) as Oz.
    pose proof (OLD _ _ Pz') as Oz'. pose proof (OLD _ _ Px) as Ox.
    intros a b e He. apply (cut_cases m m1 mid Ht) in He. destruct He as [He|[He|[He|He]]].
    + destruct He as [a0 [b0 [e0 [Hin [E0 [E1 [E2 Ew]]]]]]]. injection Ew as -> -> ->.
      destruct (Ho _ _ _ Hin) as [H|[A [B [E3 [[HA [HB HE]] Hs]]]]].
      * exfalso. injection H as -> -> ->. congruence.
      * right. exact (PTS _ _ _ _ _ _ (OLD _ _ HA) (OLD _ _ HB) (OLD _ _ HE) Hs).
    + destruct He as [a0 [b0 [e0 [k [Hin [E0 [E1 [E2 Ew]]]]]]]]. right.
      assert (SX : mid a0 b0 <> None) by congruence. apply SIX in SX.
      destruct SX as [[-> ->]|[[-> ->]|[[-> ->]|[[-> ->]|[[-> ->]|[-> ->]]]]]].
      * exfalso. apply Q4' in Hin. subst e0. congruence.
      * exfalso. apply Q5' in Hin. subst e0. congruence.
      * exfalso. apply Q6' in Hin. subst e0. congruence.
      * apply Q1' in Hin. subst e0. assert (k = q1) as -> by congruence. destruct Ew as [Ew|Ew]; injection Ew as -> -> ->.
        -- apply (PTS _ _ _ _ _ _ Pq1 Ov Oz). exact A1.
        -- apply (PTS _ _ _ _ _ _ Pq1 Oz Oq). exact A2.
      * apply Q2' in Hin. subst e0. assert (k = x1) as -> by congruence. destruct Ew as [Ew|Ew]; injection Ew as -> -> ->.
        -- apply (PTS _ _ _ _ _ _ Px1 Oq Ox). exact A8.
        -- apply (PTS _ _ _ _ _ _ Px1 Ox Oc). exact A9.
      * apply Q3' in Hin. subst e0. assert (k = c1) as -> by congruence. destruct Ew as [Ew|Ew]; injection Ew as -> -> ->.
        -- apply (PTS _ _ _ _ _ _ Pc1 Oc Oz'). exact A3.
        -- apply (PTS _ _ _ _ _ _ Pc1 Oz' Ov). exact A4.
    + exfalso. destruct He as [a0 [b0 [e0 [Hin [E0 [E1 E2]]]]]]. apply SIX in E0.
      destruct E0 as [[-> ->]|[[-> ->]|[[-> ->]|[[-> ->]|[[-> ->]|[-> ->]]]]]].
      * apply Q4' in Hin. subst e0. congruence.
      * apply Q5' in Hin. subst e0. congruence.
      * apply Q6' in Hin. subst e0. congruence.
      * apply Q1' in Hin. subst e0. congruence.
      * apply Q2' in Hin. subst e0. congruence.
      * apply Q3' in Hin. subst e0. congruence.
    + destruct He as [a0 [b0 [e0 [k0 [k1 [k2 [Hin [E0 [E1 [E2 Ew]]]]]]]]]].
      assert (F : (a0, b0, e0) = (c, v, q)).
      { destruct (Ho _ _ _ Hin) as [H|_]; [exact H|]. assert (F : is_face m a0 b0 e0) by (left; exact Hin).
        assert (SX : mid a0 b0 <> None) by congruence. apply SIX in SX. apply (TW _ _ _ Hin).
        destruct SX as [[-> ->]|[[-> ->]|[[-> ->]|[[-> ->]|[[-> ->]|[-> ->]]]]]];
          [apply Q4' in F|apply Q5' in F|apply Q6' in F|apply Q1' in F|apply Q2' in F|apply Q3' in F]; subst e0; try congruence;
          intros w; cbn; tauto. }
      injection F as -> -> ->. assert (k0 = c1) as -> by congruence. assert (k1 = q1) as -> by congruence. assert (k2 = x1) as -> by congruence.
      assert (S1 : small C C1 M1) by (apply small_rot; exact A6). assert (S2 : small C1 Q1 M1) by (apply small_rot, small_rot; exact A7).
      cbn [In] in Ew. destruct Ew as [Ew|[Ew|[Ew|[Ew|[]]]]]; injection Ew as <- <- <-.
      * right. apply (PTS _ _ _ _ _ _ Oc Pc1 Px1 S1).
      * left. reflexivity.
      * right. apply (PTS _ _ _ _ _ _ Pq1 Oq Px1 A5).
      * right. apply (PTS _ _ _ _ _ _ Pc1 Pq1 Px1 S2).
Qed.

Lemma lstate_long m : lstate m -> long_cells t m <> [].
Proof.
  intros [[Hm _] [_ [v [z [q [c [z' [x [Q [C [M [l1 [l2 [HS [K Ho]]]]]]]]]]]]]]] E. destruct K as [Kt _ _ _ _ _ _ _ Pv _ Pq Pc _ _].
  assert (Fin : In (c, v, q) (tris m)) by (rewrite Kt; apply in_or_app; right; left; reflexivity). apply face_id in Fin. destruct Fin as [i Hi].
  pose proof (proj2 (lchosen m v q c Q C M i _ Hm HS Pv Pq Pc Ho Hi) eq_refl) as L. rewrite E in L. destruct L.
Qed.
Lemma copy_lstate inp v z q c z' x Q C M l1 l2 : valid inp -> dense inp -> no_isolated inp -> no_wire inp -> St Q C M ->
  lconf inp v z q c z' x Q C M l1 l2 -> lothers inp v q c -> lstate (copy_geometry inp).
Proof.
  intros Hv Hd Hi Hw HS K Ho. destruct (copy_shape inp Hv) as [Hp [Ht _]].
  assert (NE : tris inp <> []) by (rewrite (lk_tris _ _ _ _ _ _ _ _ _ _ _ _ K); destruct l1; discriminate). split.
  - apply copy_start. apply start_of; auto. unfold splits_faces; congruence.
  - split.
    + destruct (copy_geometry_ok inp Hv) as [_ [_ Hb]]. intros id u. rewrite Ht, (binv_faces _ _ _ _ Hb NE). apply idx_In.
    + exists v, z, q, c, z', x, Q, C, M, l1, l2. split; [exact HS|]. split.
      * destruct K. constructor; unfold is_face in *; rewrite ?Ht, ?Hp; assumption.
      * unfold lothers, tri_pts in *. rewrite Ht, Hp. exact Ho.
Qed.

Lemma lendless old f inp v z q c z' x Q C M l1 l2 : uniform f = false -> valid inp -> dense inp -> no_isolated inp -> no_wire inp -> St Q C M ->
  lconf inp v z q c z' x Q C M l1 l2 -> lothers inp v q c ->
  diverges (fun fuel => conditional_update fuel (CellF CLoop) (Some (cell_area_criterion t)) old f inp).
Proof.
  intros Uf Hv Hd Hi Hw HS K Ho. apply (area_never_f CLoop t (fun f m => uniform f = false /\ lstate m)).
  - intros f0 m [_ [H _]]. exact H.
  - intros f0 m [_ H]. apply lstate_long. exact H.
  - intros f0 m n f1 m1 [U H] E. eapply lstep; eauto.
  - split; [exact Uf|]. eapply copy_lstate; eauto.
Qed.
End LOOPAGAIN.
End ENDLESSLOOP.
