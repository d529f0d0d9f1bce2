(** * Shape: what Linear filters keep: the surface, integrals over it, orientation, similarity. *)
From Coq Require Import Reals Lra Psatz.
From Verif Require Import Base Mesh Filters Drivers Spec SpecSub Lists AddFace SplitTri Split Points Valid Run Update Struct Count Face Copy PtsAny SpecGeo Geo GeoProps SpecDrive Drive Area Cond Iter DriveProps SpecShape.

Lemma mid_length p q n : length p = n -> length q = n -> length (midpoint p q) = n.
Proof. intros <- H. unfold midpoint. rewrite map_length, combine_length, H. apply Nat.min_id. Qed.
Lemma mid_nth p q i : length p = length q -> nth i (midpoint p q) 0%R = ((nth i p 0 + nth i q 0) / 2)%R.
Proof.
  revert q i. induction p as [|x p IH]; intros [|y q] i H; try discriminate; [destruct i; cbn; lra|].
  destruct i as [|i]; cbn; [reflexivity|]. apply IH. cbn in H. lia.
Qed.
Lemma mid_sym p q : length p = length q -> midpoint p q = midpoint q p.
Proof.
  intros H. apply (nth_ext _ _ 0%R 0%R); [rewrite !(mid_length _ _ (length p)); auto|]. intros i _. rewrite !mid_nth by auto. lra.
Qed.
Lemma mid_cross p q r n : length p = n -> length q = n -> length r = n ->
  midpoint r (midpoint p q) = midpoint (midpoint q r) (midpoint r p).
Proof.
  intros Hp Hq Hr. assert (L : forall a b, length a = n -> length b = n -> length (midpoint a b) = n) by (intros; apply mid_length; auto).
  apply (nth_ext _ _ 0%R 0%R); [rewrite !L; auto|]. intros i _. rewrite !mid_nth by (rewrite ?L; auto; congruence). lra.
Qed.

(** ** Additive quantities *)
Section ADDITIVE.
Variables (n : nat) (g : list R -> list R -> list R -> R).
Hypothesis Hg : additive n g.
Lemma g_rot p q r : length p = n -> length q = n -> length r = n -> g p q r = g q r p. Proof. intros. apply Hg; auto. Qed.
Lemma g_cut p q r : length p = n -> length q = n -> length r = n -> g p q r = (g p (midpoint p q) r + g (midpoint p q) q r)%R.
Proof. intros. apply Hg; auto. Qed.
Lemma g_flip p q r : length p = n -> length q = n -> length r = n ->
  let x := midpoint p q in let y := midpoint q r in let z := midpoint r p in
  (g x r z + g x y r = g y r z + g x y z)%R.
Proof.
  intros Hp Hq Hr x y z.
  assert (Hx : length x = n) by (apply mid_length; auto). assert (Hy : length y = n) by (apply mid_length; auto).
  assert (Hz : length z = n) by (apply mid_length; auto).
  assert (E : midpoint x r = midpoint y z).
  { rewrite mid_sym by congruence. apply (mid_cross p q r n); auto. }
  set (o := midpoint x r) in *. assert (Ho : length o = n) by (apply mid_length; auto).
  rewrite (g_cut x r z) by auto. fold o.
  rewrite (g_rot x y r), (g_rot y r x) by auto. rewrite (g_cut r x y) by auto.
  replace (midpoint r x) with o by (apply mid_sym; congruence).
  rewrite (g_rot y r z), (g_rot r z y) by auto. rewrite (g_cut z y r) by auto.
  replace (midpoint z y) with o by (rewrite E; apply mid_sym; congruence).
  rewrite (g_rot x y z) by auto. rewrite (g_cut y z x) by auto. rewrite <- E.
  rewrite (g_rot x o z), (g_rot o r z), (g_rot r z o), (g_rot r o y), (g_rot o x y), (g_rot x y o) by auto.
  lra.
Qed.
End ADDITIVE.

Section SHAPE.
Context {d : nat} {D : Type}.
Notation mesh := (mesh (RO d) D).
Implicit Types m inp out : mesh.

(** ** One triangle *)
Section CHILDREN.
Variables (inp out : mesh) (mid : N -> N -> option N).
Hypothesis Hold : forall i x, oget x (pts inp) <> None -> crd out i x = crd inp i x.
Hypothesis Hmid : forall a b e i, mid a b = Some e -> crd out i e = ((crd inp i a + crd inp i b) / 2)%R.
Hypothesis Hlen : forall x, length (ptof inp x) = d.
Hypothesis Hlen' : forall x, length (ptof out x) = d.
Variables (a b c : N).
Hypothesis Ha : oget a (pts inp) <> None.
Hypothesis Hb : oget b (pts inp) <> None.
Hypothesis Hc : oget c (pts inp) <> None.

Lemma same_ptof x : oget x (pts inp) <> None -> ptof out x = ptof inp x.
Proof. intros H. apply (nth_ext _ _ 0%R 0%R); [rewrite Hlen, Hlen'; reflexivity|]. intros i _. apply (Hold i x H). Qed.
Lemma mid_ptof x y e : mid x y = Some e -> ptof out e = midpoint (ptof inp x) (ptof inp y).
Proof.
  intros H. apply (nth_ext _ _ 0%R 0%R); [rewrite Hlen', (mid_length _ _ d); auto|]. intros i _. rewrite mid_nth by (rewrite !Hlen; reflexivity). apply (Hmid _ _ _ i H).
Qed.

Lemma children_value g : additive d g ->
  rsum (tri_value g out) (split_triangle a b c (mid a b) (mid b c) (mid c a)) = tri_value g inp (a, b, c).
Proof.
  intros Hg. pose proof (same_ptof a Ha) as Ea. pose proof (same_ptof b Hb) as Eb. pose proof (same_ptof c Hc) as Ec.
  pose proof (mid_ptof a b) as Eab. pose proof (mid_ptof b c) as Ebc. pose proof (mid_ptof c a) as Eca.
  set (p := ptof inp a) in *. set (q := ptof inp b) in *. set (r := ptof inp c) in *.
  assert (Hp : length p = d) by apply Hlen. assert (Hq : length q = d) by apply Hlen. assert (Hr : length r = d) by apply Hlen.
  set (x := midpoint p q) in *. set (y := midpoint q r) in *. set (z := midpoint r p) in *.
  assert (Hx : length x = d) by (apply mid_length; auto). assert (Hy : length y = d) by (apply mid_length; auto). assert (Hz : length z = d) by (apply mid_length; auto).
  assert (X : g p q r = (g p x r + g x q r)%R) by (apply (g_cut d g Hg); auto).
  assert (Y : g p q r = (g q y p + g y r p)%R) by (rewrite (g_rot d g Hg p q r) by auto; apply (g_cut d g Hg); auto).
  assert (Z : g p q r = (g r z q + g z p q)%R) by (rewrite (g_rot d g Hg p q r), (g_rot d g Hg q r p) by auto; apply (g_cut d g Hg); auto).
  assert (XY : g x q r = (g q y x + g y r x)%R) by (rewrite (g_rot d g Hg x q r) by auto; apply (g_cut d g Hg); auto).
  assert (XZ : g p x r = (g r z x + g z p x)%R) by (rewrite (g_rot d g Hg p x r), (g_rot d g Hg x r p) by auto; apply (g_cut d g Hg); auto).
  assert (YZ : g y r p = (g r z y + g z p y)%R) by (rewrite (g_rot d g Hg y r p) by auto; apply (g_cut d g Hg); auto).
  assert (R3 : forall u v w, length u = d -> length v = d -> length w = d -> g u v w = g v w u /\ g v w u = g w u v).
  { intros u v w H1 H2 H3. split; apply (g_rot d g Hg); auto. }
  pose proof (g_flip d g Hg p q r Hp Hq Hr) as F. cbv zeta in F. fold x y z in F.
  destruct (mid a b) as [e0|]; destruct (mid b c) as [e1|]; destruct (mid c a) as [e2|];
    first [specialize (Eab _ eq_refl)|clear Eab]; first [specialize (Ebc _ eq_refl)|clear Ebc]; first [specialize (Eca _ eq_refl)|clear Eca];
    unfold split_triangle, split_one, split_two_01, split_two_02, split_two_12, split_three, rsum, tri_value; cbn [fold_right];
    fold p q r; rewrite ?Ea, ?Eb, ?Ec; try rewrite !Eab; try rewrite !Ebc; try rewrite !Eca.
  all: pose proof (R3 p x r Hp Hx Hr); pose proof (R3 x q r Hx Hq Hr); pose proof (R3 q y p Hq Hy Hp); pose proof (R3 y r p Hy Hr Hp);
    pose proof (R3 r z q Hr Hz Hq); pose proof (R3 z p q Hz Hp Hq); pose proof (R3 q y x Hq Hy Hx); pose proof (R3 y r x Hy Hr Hx);
    pose proof (R3 r z x Hr Hz Hx); pose proof (R3 z p x Hz Hp Hx); pose proof (R3 r z y Hr Hz Hy); pose proof (R3 z p y Hz Hp Hy); lra.
Qed.

(** Points of the parent and of the children. *)
Lemma child_inside u x : In u (split_triangle a b c (mid a b) (mid b c) (mid c a)) -> in_triangle out u x -> in_triangle inp (a, b, c) x.
Proof.
  pose proof (loc_a inp out Hold a b c Ha) as La. pose proof (loc_b inp out Hold a b c Hb) as Lb. pose proof (loc_c inp out Hold a b c Hc) as Lc.
  pose proof (loc_ab inp out mid Hmid a b c) as Lab. pose proof (loc_bc inp out mid Hmid a b c) as Lbc. pose proof (loc_ca inp out mid Hmid a b c) as Lca.
  assert (G : forall v ux vx uy vy uz vz, v = (fst (fst v), snd (fst v), snd v) ->
    loc inp out a b c (fst (fst v)) ux vx -> loc inp out a b c (snd (fst v)) uy vy -> loc inp out a b c (snd v) uz vz ->
    (0 <= ux /\ 0 <= vx /\ ux + vx <= 1)%R -> (0 <= uy /\ 0 <= vy /\ uy + vy <= 1)%R -> (0 <= uz /\ 0 <= vz /\ uz + vz <= 1)%R ->
    in_triangle out v x -> in_triangle inp (a, b, c) x).
  { intros [[o y] z] ux vx uy vy uz vz _ H1 H2 H3 R1 R2 R3 [s [t [w [P1 [P2 [P3 [P4 H]]]]]]]. cbn [fst snd] in H1, H2, H3. cbn [in_triangle].
    exists (s * (1 - ux - vx) + t * (1 - uy - vy) + w * (1 - uz - vz))%R, (s * ux + t * uy + w * uz)%R, (s * vx + t * vy + w * vz)%R.
    split; [nra|]. split; [nra|]. split; [nra|]. split; [nra|]. intros i Hi. rewrite (H i Hi), (H1 i), (H2 i), (H3 i).
    replace s with (1 - t - w)%R by lra. ring. }
  destruct (mid a b) as [e0|]; destruct (mid b c) as [e1|]; destruct (mid c a) as [e2|];
    first [specialize (Lab _ eq_refl)|clear Lab]; first [specialize (Lbc _ eq_refl)|clear Lbc]; first [specialize (Lca _ eq_refl)|clear Lca];
    intros Hu; unfold split_triangle, split_one, split_two_01, split_two_02, split_two_12, split_three in Hu; in_cases Hu; subst u;
    (eapply G; [reflexivity|cbn [fst snd]; eassumption|cbn [fst snd]; eassumption|cbn [fst snd]; eassumption|lra|lra|lra]).
Qed.

(** Two or three children cover a triangle, in coordinates of the parent. *)
Lemma parent_covered x : in_triangle inp (a, b, c) x ->
  exists u, In u (split_triangle a b c (mid a b) (mid b c) (mid c a)) /\ in_triangle out u x.
Proof.
  pose proof (loc_a inp out Hold a b c Ha) as La. pose proof (loc_b inp out Hold a b c Hb) as Lb. pose proof (loc_c inp out Hold a b c Hc) as Lc.
  pose proof (loc_ab inp out mid Hmid a b c) as Lab. pose proof (loc_bc inp out mid Hmid a b c) as Lbc. pose proof (loc_ca inp out mid Hmid a b c) as Lca.
  intros [u [v [w [P1 [P2 [P3 [P4 H]]]]]]].
  assert (G : forall L o y z s t r, In (o, y, z) L -> (0 <= s)%R -> (0 <= t)%R -> (0 <= r)%R -> (s + t + r = 1)%R ->
     (forall i, (i < d)%nat -> (u * crd inp i a + v * crd inp i b + w * crd inp i c = s * crd out i o + t * crd out i y + r * crd out i z)%R) ->
     exists q, In q L /\ in_triangle out q x).
  { intros L o y z s t r Hin S1 S2 S3 S4 Hc'. exists (o, y, z). split; [exact Hin|]. cbn [in_triangle]. exists s, t, r. repeat split; auto.
    intros i Hi. rewrite (H i Hi). apply Hc'. exact Hi. }
  assert (Hu : (u = 1 - v - w)%R) by lra.
  destruct (mid a b) as [e0|]; destruct (mid b c) as [e1|]; destruct (mid c a) as [e2|];
    first [specialize (Lab _ eq_refl)|clear Lab]; first [specialize (Lbc _ eq_refl)|clear Lbc]; first [specialize (Lca _ eq_refl)|clear Lca];
    unfold split_triangle, split_one, split_two_01, split_two_02, split_two_12, split_three.
  - (* all three *)
    destruct (Rle_dec (1 / 2) u); [|destruct (Rle_dec (1 / 2) v); [|destruct (Rle_dec (1 / 2) w)]].
    + apply (G _ a e0 e2 (2 * u - 1) (2 * v) (2 * w))%R; [cbn; auto|lra|lra|lra|lra|]. intros i _. rewrite (La i), (Lab i), (Lca i), Hu. field.
    + apply (G _ e0 b e1 (2 * u) (2 * v - 1) (2 * w))%R; [cbn; auto|lra|lra|lra|lra|]. intros i _. rewrite (Lb i), (Lab i), (Lbc i), Hu. field.
    + apply (G _ e1 c e2 (2 * v) (2 * w - 1) (2 * u))%R; [cbn; auto|lra|lra|lra|lra|]. intros i _. rewrite (Lc i), (Lca i), (Lbc i), Hu. field.
    + apply (G _ e0 e1 e2 (1 - 2 * w) (1 - 2 * u) (1 - 2 * v))%R; [cbn; auto 6|lra|lra|lra|lra|]. intros i _. rewrite (Lab i), (Lca i), (Lbc i), Hu. field.
  - (* 01: (c,a,e0) (c,e0,e1) (e0,b,e1) *)
    destruct (Rle_dec v u); [|destruct (Rle_dec (v - u) w)].
    + apply (G _ c a e0 w (u - v) (2 * v))%R; [cbn; auto|lra|lra|lra|lra|]. intros i _. rewrite (La i), (Lab i), (Lc i), Hu. field.
    + apply (G _ c e0 e1 (w - (v - u)) (2 * u) (2 * (v - u)))%R; [cbn; auto|lra|lra|lra|lra|]. intros i _. rewrite (Lbc i), (Lab i), (Lc i), Hu. field.
    + apply (G _ e0 b e1 (2 * u) (v - u - w) (2 * w))%R; [cbn; auto|lra|lra|lra|lra|]. intros i _. rewrite (Lb i), (Lab i), (Lbc i), Hu. field.
  - (* 02: (b,c,e0) (c,e2,e0) (e2,a,e0) *)
    destruct (Rle_dec u v); [|destruct (Rle_dec (u - v) w)].
    + apply (G _ b c e0 (v - u) w (2 * u))%R; [cbn; auto|lra|lra|lra|lra|]. intros i _. rewrite (Lb i), (Lab i), (Lc i), Hu. field.
    + apply (G _ c e2 e0 (w - (u - v)) (2 * (u - v)) (2 * v))%R; [cbn; auto|lra|lra|lra|lra|]. intros i _. rewrite (Lca i), (Lab i), (Lc i), Hu. field.
    + apply (G _ e2 a e0 (2 * w) (u - v - w) (2 * v))%R; [cbn; auto|lra|lra|lra|lra|]. intros i _. rewrite (La i), (Lab i), (Lca i), Hu. field.
  - destruct (Rle_dec u v).
    + apply (G _ e0 b c (2 * u) (v - u) w)%R; [cbn; auto|lra|lra|lra|lra|]. intros i _. rewrite (Lb i), (Lab i), (Lc i), Hu. field.
    + apply (G _ e0 c a (2 * v) w (u - v))%R; [cbn; auto|lra|lra|lra|lra|]. intros i _. rewrite (La i), (Lab i), (Lc i), Hu. field.
  - (* 12: (a,b,e1) (a,e1,e2) (e1,c,e2) *)
    destruct (Rle_dec w v); [|destruct (Rle_dec (w - v) u)].
    + apply (G _ a b e1 u (v - w) (2 * w))%R; [cbn; auto|lra|lra|lra|lra|]. intros i _. rewrite (La i), (Lb i), (Lbc i), Hu. field.
    + apply (G _ a e1 e2 (u - (w - v)) (2 * v) (2 * (w - v)))%R; [cbn; auto|lra|lra|lra|lra|]. intros i _. rewrite (La i), (Lca i), (Lbc i), Hu. field.
    + apply (G _ e1 c e2 (2 * v) (w - v - u) (2 * u))%R; [cbn; auto|lra|lra|lra|lra|]. intros i _. rewrite (Lc i), (Lca i), (Lbc i), Hu. field.
  - destruct (Rle_dec v w).
    + apply (G _ e1 c a (2 * v) (w - v) u)%R; [cbn; auto|lra|lra|lra|lra|]. intros i _. rewrite (La i), (Lbc i), (Lc i), Hu. field.
    + apply (G _ e1 a b (2 * w) u (v - w))%R; [cbn; auto|lra|lra|lra|lra|]. intros i _. rewrite (La i), (Lbc i), (Lb i), Hu. field.
  - destruct (Rle_dec w u).
    + apply (G _ e2 a b (2 * w) (u - w) v)%R; [cbn; auto|lra|lra|lra|lra|]. intros i _. rewrite (La i), (Lca i), (Lb i), Hu. field.
    + apply (G _ e2 b c (2 * u) v (w - u))%R; [cbn; auto|lra|lra|lra|lra|]. intros i _. rewrite (Lb i), (Lca i), (Lc i), Hu. field.
  - apply (G _ a b c u v w); [cbn; auto|lra|lra|lra|lra|]. intros i _. rewrite (La i), (Lb i), (Lc i). field.
Qed.

(** Orientation of the children. *)
Lemma child_normal u : In u (split_triangle a b c (mid a b) (mid b c) (mid c a)) ->
  exists w, (0 < w <= 1)%R /\ forall i j, normal out u i j = (w * normal inp (a, b, c) i j)%R.
Proof.
  pose proof (loc_a inp out Hold a b c Ha) as La. pose proof (loc_b inp out Hold a b c Hb) as Lb. pose proof (loc_c inp out Hold a b c Hc) as Lc.
  pose proof (loc_ab inp out mid Hmid a b c) as Lab. pose proof (loc_bc inp out mid Hmid a b c) as Lbc. pose proof (loc_ca inp out mid Hmid a b c) as Lca.
  assert (G : forall v ux vx uy vy uz vz,
    loc inp out a b c (fst (fst v)) ux vx -> loc inp out a b c (snd (fst v)) uy vy -> loc inp out a b c (snd v) uz vz ->
    (0 < (uy - ux) * (vz - vx) - (vy - vx) * (uz - ux) <= 1)%R ->
    exists w, (0 < w <= 1)%R /\ forall i j, normal out v i j = (w * normal inp (a, b, c) i j)%R).
  { intros [[o y] z] ux vx uy vy uz vz H1 H2 H3 R1. cbn [fst snd] in H1, H2, H3. eexists. split; [exact R1|]. intros i j. unfold normal.
    rewrite (H1 i), (H2 i), (H3 i), (H1 j), (H2 j), (H3 j). ring. }
  destruct (mid a b) as [e0|]; destruct (mid b c) as [e1|]; destruct (mid c a) as [e2|];
    first [specialize (Lab _ eq_refl)|clear Lab]; first [specialize (Lbc _ eq_refl)|clear Lbc]; first [specialize (Lca _ eq_refl)|clear Lca];
    intros Hu; unfold split_triangle, split_one, split_two_01, split_two_02, split_two_12, split_three in Hu; in_cases Hu; subst u;
    (eapply G; [cbn [fst snd]; eassumption|cbn [fst snd]; eassumption|cbn [fst snd]; eassumption|lra]).
Qed.

(** Three split edges: every child is a copy of half the size. *)
Lemma child_scaled u : mid a b <> None -> mid b c <> None -> mid c a <> None ->
  In u (split_triangle a b c (mid a b) (mid b c) (mid c a)) ->
  exists s t, (s = 1 / 2 \/ s = - (1 / 2))%R /\ In t [(a, b, c); (b, c, a); (c, a, b)] /\ scaled s inp t out u.
Proof.
  pose proof (loc_a inp out Hold a b c Ha) as La. pose proof (loc_b inp out Hold a b c Hb) as Lb. pose proof (loc_c inp out Hold a b c Hc) as Lc.
  pose proof (loc_ab inp out mid Hmid a b c) as Lab. pose proof (loc_bc inp out mid Hmid a b c) as Lbc. pose proof (loc_ca inp out mid Hmid a b c) as Lca.
  destruct (mid a b) as [e0|]; [|congruence]. destruct (mid b c) as [e1|]; [|congruence]. destruct (mid c a) as [e2|]; [|congruence].
  specialize (Lab _ eq_refl). specialize (Lbc _ eq_refl). specialize (Lca _ eq_refl). intros _ _ _ Hu. cbn in Hu.
  destruct Hu as [<-|[<-|[<-|[<-|[]]]]].
  - exists (1 / 2)%R, (a, b, c). split; [auto|]. split; [cbn; auto|]. intros i. rewrite (La i), (Lab i), (Lca i). lra.
  - exists (1 / 2)%R, (a, b, c). split; [auto|]. split; [cbn; auto|]. intros i. rewrite (Lb i), (Lab i), (Lbc i). lra.
  - exists (1 / 2)%R, (b, c, a). split; [auto|]. split; [cbn; auto|]. intros i. rewrite (Lc i), (Lbc i), (Lca i). lra.
  - exists (- (1 / 2))%R, (c, a, b). split; [auto|]. split; [cbn; auto|]. intros i. rewrite (Lab i), (Lbc i), (Lca i). lra.
Qed.
End CHILDREN.

(** ** One Update() *)
Lemma in_ptof_length m x : valid m -> length (ptof m x) = d.
Proof.
  intros Hv. unfold ptof. destruct (oget x (pts m)) as [p|] eqn:Ep; [|apply repeat_length].
  destruct (valid_wf m Hv) as [_ H]. exact (H x p Ep).
Qed.
Lemma tri_points inp a b c : valid inp -> In (a, b, c) (tris inp) -> oget a (pts inp) <> None /\ oget b (pts inp) <> None /\ oget c (pts inp) <> None.
Proof. intros Hv Ht. repeat split; apply (v_verts _ Hv _ _ Ht); cbn; auto. Qed.

Lemma step_integral g k f inp fuel f' out : additive d g -> is_linear k -> valid inp -> dense inp -> ready k f inp ->
  update k fuel f inp = Ok (f', out) -> integral g out = integral g inp.
Proof.
  intros Hg Hk Hv Hd Hr E. destruct (linear_facts k f inp fuel f' out Hk Hv Hd Hr E) as [mid [Ls [FR [Hold Hmid]]]].
  pose proof (fr_sub _ _ _ _ _ _ _ FR) as Hsd. unfold integral. rewrite (sd_tris _ _ _ _ _ Hsd), (fr_Ls _ _ _ _ _ _ _ FR).
  assert (Hp : forall a b c, In (a, b, c) (tris inp) -> oget a (pts inp) <> None /\ oget b (pts inp) <> None /\ oget c (pts inp) <> None)
    by (intros; apply tri_points; auto).
  revert Hp. generalize (tris inp) as T. induction T as [|[[a b] c] T IH]; intros Hp; [reflexivity|].
  cbn [map concat]. rewrite rsum_app, IH by (intros x y z H; apply Hp; cbn; auto).
  unfold split_tri at 1. destruct (Hp a b c) as [Ha [Hb Hc]]; [cbn; auto|].
  rewrite (children_value inp out mid Hold Hmid (fun x => in_ptof_length inp x Hv)); auto.
  intros x. eapply out_ptof_length; eauto.
Qed.

Lemma step_surface k f inp fuel f' out : is_linear k -> valid inp -> dense inp -> ready k f inp ->
  update k fuel f inp = Ok (f', out) -> forall x, on_surface out x <-> on_surface inp x.
Proof.
  intros Hk Hv Hd Hr E x. destruct (linear_facts k f inp fuel f' out Hk Hv Hd Hr E) as [mid [Ls [FR [Hold Hmid]]]]. split.
  - intros [u [Hu Hx]]. destruct (out_tri_parent k f inp f' out mid Ls u Hv FR Hu) as [a [b [c [Ht Hc]]]].
    destruct (tri_points inp a b c Hv Ht) as [Ha [Hb Hc']]. exists (a, b, c). split; [exact Ht|].
    eapply (child_inside inp out mid Hold Hmid); eauto.
  - intros [[[a b] c] [Ht Hx]]. destruct (tri_points inp a b c Hv Ht) as [Ha [Hb Hc]].
    destruct (parent_covered inp out mid Hold Hmid a b c Ha Hb Hc x Hx) as [u [Hu Hxu]]. exists u. split; [|exact Hxu].
    rewrite (sd_tris _ _ _ _ _ (fr_sub _ _ _ _ _ _ _ FR)), (fr_Ls _ _ _ _ _ _ _ FR). apply in_concat.
    exists (split_tri mid (a, b, c)). split; [apply in_map; exact Ht|exact Hu].
Qed.

Lemma step_normal k f inp fuel f' out : is_linear k -> valid inp -> dense inp -> ready k f inp ->
  update k fuel f inp = Ok (f', out) -> forall u, In u (tris out) ->
  exists t w, In t (tris inp) /\ (0 < w <= 1)%R /\ (forall i j, normal out u i j = (w * normal inp t i j)%R) /\
    (forall x, in_triangle out u x -> in_triangle inp t x).
Proof.
  intros Hk Hv Hd Hr E u Hu. destruct (linear_facts k f inp fuel f' out Hk Hv Hd Hr E) as [mid [Ls [FR [Hold Hmid]]]].
  destruct (out_tri_parent k f inp f' out mid Ls u Hv FR Hu) as [a [b [c [Ht Hc]]]].
  destruct (tri_points inp a b c Hv Ht) as [Ha [Hb Hc']].
  destruct (child_normal inp out mid Hold Hmid a b c Ha Hb Hc' u Hc) as [w [Hw H]].
  exists (a, b, c), w. repeat split; try assumption; try apply Hw. intros x Hx.
  eapply (child_inside inp out mid Hold Hmid); eauto.
Qed.

Lemma step_scaled k f inp fuel f' out : is_linear k -> valid inp -> dense inp -> ready k f inp -> whole k f = true ->
  update k fuel f inp = Ok (f', out) -> forall u, In u (tris out) ->
  exists s a b c, (s = 1 / 2 \/ s = - (1 / 2))%R /\ is_face inp a b c /\ scaled s inp (a, b, c) out u.
Proof.
  intros Hk Hv Hd Hr Hw E u Hu. destruct (linear_facts k f inp fuel f' out Hk Hv Hd Hr E) as [mid [Ls [FR [Hold Hmid]]]].
  destruct (out_tri_parent k f inp f' out mid Ls u Hv FR Hu) as [a [b [c [Ht Hc]]]].
  destruct (tri_points inp a b c Hv Ht) as [Ha [Hb Hc']]. pose proof (fr_sub _ _ _ _ _ _ _ FR) as Hsd.
  assert (Hs : forall x y, In (x, y) (tdirs (a, b, c)) -> mid x y <> None).
  { intros x y Hxy. apply (sd_dom _ _ _ _ _ Hsd). eapply uniform_split_all; eauto. }
  destruct (child_scaled inp out mid Hold Hmid a b c Ha Hb Hc' u) as [s [t [H1 [H2 H3]]]]; try (apply Hs; cbn; auto; fail); [exact Hc|].
  destruct H2 as [<-|[<-|[<-|[]]]]; [exists s, a, b, c|exists s, b, c, a|exists s, c, a, b]; (split; [exact H1|split; [|exact H3]]); unfold is_face; auto.
Qed.

(** ** Chains and drivers *)
Section RELATION.
Variable Q : mesh -> mesh -> Prop.
Hypothesis Qcopy : forall m m', same_shape m m' -> Q m m'.
Hypothesis Qtrans : forall a b c, Q a b -> Q b c -> Q a c.
Hypothesis Qstep : forall k f inp fuel f' out, is_linear k -> valid inp -> dense inp -> ready k f inp ->
  update k fuel f inp = Ok (f', out) -> Q inp out.
Lemma same_shape_refl m : same_shape m m. Proof. split; [reflexivity|]. split; [reflexivity|]. tauto. Qed.

Lemma chain_ok inp n out : valid inp -> dense inp -> tris inp <> [] -> linear_chain inp n out ->
  valid out /\ dense out /\ tris out <> [] /\ Q inp out.
Proof.
  intros Hv Hd Hne H. induction H as [|n m k f fuel f' out H IH Hk Hr E].
  - repeat (split; [assumption|]). apply Qcopy, same_shape_refl.
  - destruct IH as [V1 [V2 [V3 V4]]]. destruct (step_ok _ _ _ _ _ _ V1 V2 V3 Hr E) as [S1 [S2 [S3 _]]].
    repeat (split; [assumption|]). eapply Qtrans; [exact V4|]. eapply Qstep; eauto.
Qed.

Lemma iter_rel levels fuel sel inp f' out : valid inp -> dense inp -> tris inp <> [] -> existing inp sel ->
  iterative_update CLinear levels fuel sel inp = Ok (f', out) -> Q inp out.
Proof.
  intros Hv Hd Hne He H. unfold iterative_update in H.
  assert (G : forall n sel m, valid m -> dense m -> tris m <> [] -> existing m sel ->
            iterative_levels (S n) CLinear fuel sel m = Ok (f', out) -> Q m out).
  { clear - Qcopy Qtrans Qstep. induction n as [|n IH]; intros sel m Hv Hd Hne He H; rewrite iter_unfold in H;
      destruct (update (CellF CLinear) fuel (fresh sel) m) as [[f1 m1]| | |] eqn:E; cbn [rbind] in H; try discriminate;
      (assert (Hr : ready (CellF CLinear) (fresh sel) m) by (split; [discriminate|]; split; [intros [X|X]; discriminate|exact He])).
    - inv H. eapply Qstep; [left; reflexivity|exact Hv|exact Hd|exact Hr|exact E].
    - destruct (step_ok _ _ _ _ _ _ Hv Hd Hne Hr E) as [S1 [S2 [S3 _]]]. eapply Qtrans.
      + eapply Qstep; [left; reflexivity|exact Hv|exact Hd|exact Hr|exact E].
      + eapply (IH (csel f1)); try assumption. intros i Hi. destruct (face_run _ _ _ _ _ _ Hv Hd Hr E) as [mid [Ls FR]].
        apply (fr_csel _ _ _ _ _ _ _ FR) in Hi. destruct Hi as [_ [pid [t [u [Hu _]]]]]. eauto. }
  destruct (Nat.max 1 levels) as [|n] eqn:En; [lia|]. eapply G; eauto.
Qed.

Lemma cond_rel k crt fuel old f inp f' out : valid inp -> dense inp -> tris inp <> [] ->
  (exists t, k = CellF CLinear /\ crt = cell_area_criterion (O := RO d) t) \/ (exists t, k = EdgeF ELinear /\ crt = edge_length_criterion (O := RO d) t) ->
  conditional_update fuel k (Some crt) old f inp = Ok (f', out) -> Q inp out.
Proof.
  intros Hv Hd Hne Hk H.
  assert (HG : cond_start k inp).
  { apply start_of; auto; destruct Hk as [[t [-> _]]|[t [-> _]]]; try discriminate; intros [E|E]; discriminate. }
  apply copy_start in HG. eapply Qtrans; [apply Qcopy; apply copy_shape; exact Hv|].
  assert (G : exists selof, (forall n m o x, crt n m o = Ok x -> x = selof m) /\
              (forall m f, cond_start k m -> sel_empty (selof m) = false -> ready k (apply_selection f (selof m)) m)).
  { destruct Hk as [[t [-> ->]]|[t [-> ->]]].
    - exists (asel (O := RO d) t). split; [intros n m o x E; apply area_crit_inv in E; apply E|]. intros m f0 H0 _. apply area_ready. exact H0.
    - exists (esl_ (O := RO d) t). split; [intros n m o x E; apply edge_crit_inv in E; apply E|]. intros m f0 H0 He. apply edge_ready; assumption. }
  destruct G as [selof [Hdet Hready]]. assert (HL : is_linear k) by (destruct Hk as [[t [-> _]]|[t [-> _]]]; [left|right]; reflexivity).
  unfold conditional_update in H. destruct (crt fuel (copy_geometry inp) old) as [s0| | |] eqn:E; cbn [rbind] in H; try discriminate.
  apply Hdet in E. subst s0. revert H HG. generalize (copy_geometry inp) as m. intros m. revert m f.
  generalize fuel at 1 as q. clear - Qcopy Qtrans Qstep Hdet Hready HL. induction q as [|q IH]; intros m f H HG; [discriminate|]. cbn [conditional_loop] in H.
  destruct (sel_empty (selof m)) eqn:Es; [inv H; apply Qcopy, same_shape_refl|].
  destruct (update k q (apply_selection f (selof m)) m) as [[f1 m1]| | |] eqn:E; cbn [rbind] in H; try discriminate.
  destruct (crt q m1 (selof m)) as [s1| | |] eqn:Ec; cbn [rbind] in H; try discriminate. apply Hdet in Ec. subst s1.
  pose proof (Hready m f HG Es) as Hr. pose proof HG as [Hv [Hd _]].
  eapply Qtrans; [eapply Qstep; [exact HL|exact Hv|exact Hd|exact Hr|exact E]|]. apply (IH m1 f1 H). eapply start_step; [exact HG|exact Hr|exact E].
Qed.
End RELATION.
End SHAPE.

(** ** The property lemmas *)
Definition keeps_surface {d D} (m m' : mesh (RO d) D) : Prop := forall x, on_surface m' x <-> on_surface m x.
Definition keeps_integrals {d D} (m m' : mesh (RO d) D) : Prop := forall g, additive d g -> integral g m' = integral g m.
Definition keeps_normals {d D} (m m' : mesh (RO d) D) : Prop := forall u, In u (tris m') -> exists t w, In t (tris m) /\ (0 < w <= 1)%R /\
  (forall i j, normal m' u i j = (w * normal m t i j)%R) /\ (forall x, in_triangle m' u x -> in_triangle m t x).

Lemma same_ptof_shape {d D} (m m' : mesh (RO d) D) : pts m' = pts m -> forall x, ptof m' x = ptof m x.
Proof. intros H x. unfold ptof. rewrite H. reflexivity. Qed.
Lemma surface_copy {d D} (m m' : mesh (RO d) D) : same_shape m m' -> keeps_surface m m'.
Proof.
  intros [Hp [Ht _]] x. unfold on_surface. rewrite Ht. pose proof (same_shape_crd m m' Hp) as Hc.
  split; intros [[[a b] c] [H1 [u [v [w [P1 [P2 [P3 [P4 H]]]]]]]]]; exists (a, b, c); (split; [exact H1|]); exists u, v, w; repeat split; auto; intros i Hi;
    specialize (H i Hi); rewrite ?Hc in *; auto.
Qed.
Lemma integral_copy {d D} (m m' : mesh (RO d) D) : same_shape m m' -> keeps_integrals m m'.
Proof.
  intros [Hp [Ht _]] g _. unfold integral. rewrite Ht. apply rsum_ext. intros [[a b] c] _. cbn. rewrite !(same_ptof_shape m m' Hp). reflexivity.
Qed.
Lemma normal_copy {d D} (m m' : mesh (RO d) D) : same_shape m m' -> keeps_normals m m'.
Proof.
  intros S. pose proof S as [Hp [Ht _]]. intros u Hu. rewrite Ht in Hu. exists u, 1%R. split; [exact Hu|]. split; [lra|].
  pose proof (same_shape_crd m m' Hp) as Hc. destruct u as [[a b] c]. split.
  - intros i j. unfold normal. rewrite !Hc. lra.
  - intros x [p [q [r [P1 [P2 [P3 [P4 H]]]]]]]. exists p, q, r. repeat split; auto. intros i Hi. specialize (H i Hi). rewrite !Hc in H. exact H.
Qed.
Lemma normal_trans {d D} (m1 m2 m3 : mesh (RO d) D) : keeps_normals m1 m2 -> keeps_normals m2 m3 -> keeps_normals m1 m3.
Proof.
  intros H1 H2 u Hu. destruct (H2 u Hu) as [t [w [Ht [Hw [Hn Hi]]]]]. destruct (H1 t Ht) as [t' [w' [Ht' [Hw' [Hn' Hi']]]]].
  exists t', (w * w')%R. split; [exact Ht'|]. split; [nra|]. split; [intros i j; rewrite Hn, Hn'; lra|]. auto.
Qed.

Lemma run_rel {d D} (Q : mesh (RO d) D -> mesh (RO d) D -> Prop) (inp out : mesh (RO d) D) :
  (forall m m', same_shape m m' -> Q m m') -> (forall a b c, Q a b -> Q b c -> Q a c) ->
  (forall k f inp fuel f' out, is_linear k -> valid inp -> dense inp -> ready k f inp -> update k fuel f inp = Ok (f', out) -> Q inp out) ->
  valid inp -> dense inp -> tris inp <> [] -> linear_run inp out -> Q inp out.
Proof.
  intros Q1 Q2 Q3 Hv Hd Hne [[n H]|[[l [fuel [sel [f' [He H]]]]]|[[t [fuel [old [f [f' H]]]]]|[t [fuel [old [f [f' H]]]]]]]].
  - apply (chain_ok Q Q1 Q2 Q3 inp n out Hv Hd Hne H).
  - eapply (iter_rel Q Q1 Q2 Q3); eauto.
  - eapply (cond_rel Q Q1 Q2 Q3 _ _ _ _ _ _ _ _ Hv Hd Hne); [left; exists t; split; reflexivity|exact H].
  - eapply (cond_rel Q Q1 Q2 Q3 _ _ _ _ _ _ _ _ Hv Hd Hne); [right; exists t; split; reflexivity|exact H].
Qed.

Lemma C93_pf : forall (d : nat) (D : Type) (inp out : mesh (RO d) D),
  valid inp -> dense inp -> tris inp <> [] -> linear_run inp out -> forall x, on_surface out x <-> on_surface inp x.
Proof.
  intros d D inp out Hv Hd Hne H. apply (run_rel keeps_surface inp out); auto.
  - apply surface_copy.
  - intros a b c H1 H2 x. rewrite (H2 x). apply H1.
  - intros k f i fuel f' o Hk V1 V2 Hr E x. eapply step_surface; eauto.
Qed.
Lemma C94_pf : forall (d : nat) (D : Type) (g : list R -> list R -> list R -> R) (inp out : mesh (RO d) D), additive d g ->
  valid inp -> dense inp -> tris inp <> [] -> linear_run inp out -> integral g out = integral g inp.
Proof.
  intros d D g inp out Hg Hv Hd Hne H. apply (run_rel keeps_integrals inp out); auto.
  - apply integral_copy.
  - intros a b c H1 H2 g' Hg'. rewrite (H2 g' Hg'). apply H1. exact Hg'.
  - intros k f i fuel f' o Hk V1 V2 Hr E g' Hg'. eapply step_integral; eauto.
Qed.
Lemma det3_additive : additive 3 (fun p q r => (det3 p q r / 6)%R).
Proof.
  intros p q r Hp Hq Hr. destruct p as [|p0 [|p1 [|p2 [|]]]]; try discriminate. destruct q as [|q0 [|q1 [|q2 [|]]]]; try discriminate.
  destruct r as [|r0 [|r1 [|r2 [|]]]]; try discriminate. unfold det3, midpoint. cbn. split; field.
Qed.
Lemma C94_volume_pf : forall (D : Type) (inp out : mesh (RO 3) D),
  valid inp -> dense inp -> tris inp <> [] -> linear_run inp out -> signed_volume out = signed_volume inp.
Proof. intros D inp out Hv Hd Hne H. apply C94_pf; auto. exact det3_additive. Qed.
Lemma C95_pf : forall (d : nat) (D : Type) (inp out : mesh (RO d) D),
  valid inp -> dense inp -> tris inp <> [] -> linear_run inp out -> forall u, In u (tris out) ->
  exists t w, In t (tris inp) /\ (0 < w <= 1)%R /\ (forall i j, normal out u i j = (w * normal inp t i j)%R) /\
    (forall x, in_triangle out u x -> in_triangle inp t x).
Proof.
  intros d D inp out Hv Hd Hne H. apply (run_rel keeps_normals inp out); auto.
  - apply normal_copy.
  - apply normal_trans.
  - intros k f i fuel f' o Hk V1 V2 Hr E x. eapply step_normal; eauto.
Qed.

(** ** Uniform levels *)
Lemma scaled_rot {d D} (m m' : mesh (RO d) D) s a b c x y z : scaled s m (a, b, c) m' (x, y, z) -> scaled s m (b, c, a) m' (y, z, x).
Proof. intros H i. destruct (H i) as [H1 H2]. rewrite H2, H1. lra. Qed.
Lemma scaled_trans {d D} (m1 m2 m3 : mesh (RO d) D) s r a b c x y z u : scaled s m1 (a, b, c) m2 (x, y, z) -> scaled r m2 (x, y, z) m3 u -> scaled (r * s) m1 (a, b, c) m3 u.
Proof. destruct u as [[p q] w]. intros H G i. destruct (H i) as [H1 H2]. destruct (G i) as [G1 G2]. rewrite G2, G1, H1, H2. lra. Qed.

Definition shrunk {d D} (n : nat) (m m' : mesh (RO d) D) : Prop := forall u, In u (tris m') ->
  exists s a b c, (s = (1 / 2) ^ n \/ s = - (1 / 2) ^ n)%R /\ is_face m a b c /\ scaled s m (a, b, c) m' u.
Lemma shrunk_trans {d D} n (m1 m2 m3 : mesh (RO d) D) : shrunk 1 m1 m2 -> shrunk n m2 m3 -> shrunk (S n) m1 m3.
Proof.
  intros H1 H2 u Hu. destruct (H2 u Hu) as [r [x [y [z [Hr [Hf Hs]]]]]].
  assert (G : exists s a b c, (s = (1 / 2) ^ 1 \/ s = - (1 / 2) ^ 1)%R /\ is_face m1 a b c /\ scaled s m1 (a, b, c) m2 (x, y, z)).
  { destruct Hf as [Hf|[Hf|Hf]]; destruct (H1 _ Hf) as [s [a [b [c [Hs' [Hf' Hsc]]]]]]; exists s.
    - exists a, b, c. auto.
    - exists c, a, b. split; [exact Hs'|]. split; [unfold is_face in *; tauto|]. apply scaled_rot, scaled_rot. exact Hsc.
    - exists b, c, a. split; [exact Hs'|]. split; [unfold is_face in *; tauto|]. apply scaled_rot. exact Hsc. }
  destruct G as [s [a [b [c [Hs' [Hf' Hsc]]]]]]. exists (r * s)%R, a, b, c. split; [|split; [exact Hf'|eapply scaled_trans; eauto]].
  cbn [pow] in *. destruct Hr as [-> | ->]; destruct Hs' as [-> | ->]; [left|right|right|left]; ring.
Qed.
Lemma uniform_shrunk {d D} n fuel : forall (inp : mesh (RO d) D) f' out, valid inp -> dense inp -> tris inp <> [] ->
  iterative_levels (S n) CLinear fuel [] inp = Ok (f', out) -> shrunk (S n) inp out /\ no_wire out /\ valid out.
Proof.
  induction n as [|n IH]; intros inp f' out Hv Hd Hne H; rewrite iter_unfold in H;
    destruct (update (CellF CLinear) fuel (fresh []) inp) as [[f1 m1]| | |] eqn:E; cbn [rbind fst snd] in H; try discriminate;
    (assert (Hr : ready (CellF CLinear) (fresh []) inp) by (split; [discriminate|]; split; [intros [X|X]; discriminate|intros i []]));
    (assert (S1 : shrunk 1 inp m1) by (intros u Hu; destruct (step_scaled (CellF CLinear) (fresh []) inp fuel f1 m1 (or_introl eq_refl) Hv Hd Hr eq_refl E u Hu) as [s [a [b [c [Hs Hx]]]]];
      exists s, a, b, c; split; [cbn [pow]; destruct Hs as [-> | ->]; [left|right]; lra|exact Hx]));
    destruct (step_ok _ _ _ _ _ _ Hv Hd Hne Hr E) as [V1 [V2 [V3 [V4 _]]]].
  - inv H. auto.
  - assert (Ec : csel f1 = []).
    { destruct (face_run _ _ _ _ _ _ Hv Hd Hr E) as [mid [Ls FR]]. destruct (csel f1) as [|i l] eqn:Ec; [reflexivity|]. exfalso.
      destruct (proj1 (fr_csel _ _ _ _ _ _ _ FR i)) as [Hw _]; [rewrite Ec; cbn; auto|discriminate]. }
    rewrite Ec in H. destruct (IH m1 f' out V1 V2 V3 H) as [I1 I2]. split; [eapply shrunk_trans; eauto|exact I2].
Qed.
Lemma scaled_dot {d D} (m m' : mesh (RO d) D) s a b c x y z : scaled s m (a, b, c) m' (x, y, z) -> (dot m' x y y = s ^ 2 * dot m a b b)%R.
Proof. intros H. unfold dot. rewrite <- rsum_scal. apply rsum_ext. intros i _. destruct (H i) as [-> _]. ring. Qed.

Lemma C96_pf : forall (d : nat) (D : Type) levels fuel (inp : mesh (RO d) D) f' out,
  valid inp -> dense inp -> tris inp <> [] -> iterative_update CLinear levels fuel [] inp = Ok (f', out) ->
  let n := Nat.max 1 levels in
  (forall u, In u (tris out) -> exists s a b c, (s = (1 / 2) ^ n \/ s = - (1 / 2) ^ n)%R /\ is_face inp a b c /\ scaled s inp (a, b, c) out u) /\
  (forall x y, joined out x y -> exists a b, joined inp a b /\ (seg_length out x y = seg_length inp a b / 2 ^ n)%R).
Proof.
  intros d D levels fuel inp f' out Hv Hd Hne H n. unfold iterative_update in H. fold n in H.
  assert (Hn : exists q, n = S q) by (exists (n - 1)%nat; unfold n; lia). destruct Hn as [q Eq]. rewrite Eq in *.
  destruct (uniform_shrunk q fuel inp f' out Hv Hd Hne H) as [H1 [H2 H3]]. split; [exact H1|].
  assert (G : forall x y, In (x, y) (dirs (tris out)) -> exists a b, joined inp a b /\ (seg_length out x y = seg_length inp a b / 2 ^ (S q))%R).
  { intros x y Hxy. apply dir_is_face in Hxy. destruct Hxy as [z Hf].
    assert (F : exists s a b c, (s = (1 / 2) ^ S q \/ s = - (1 / 2) ^ S q)%R /\ is_face inp a b c /\ scaled s inp (a, b, c) out (x, y, z)).
    { destruct Hf as [Hf|[Hf|Hf]]; destruct (H1 _ Hf) as [s [a [b [c [Hs' [Hf' Hsc]]]]]]; exists s.
      - exists a, b, c. auto.
      - exists c, a, b. split; [exact Hs'|]. split; [unfold is_face in *; tauto|]. apply scaled_rot, scaled_rot. exact Hsc.
      - exists b, c, a. split; [exact Hs'|]. split; [unfold is_face in *; tauto|]. apply scaled_rot. exact Hsc. }
    destruct F as [s [a [b [c [Hs [Hf' Hsc]]]]]]. exists a, b. split; [apply (v_face_edges _ Hv); eapply is_face_dir; exact Hf'|].
    unfold seg_length. rewrite (scaled_dot _ _ _ _ _ _ _ _ _ Hsc).
    assert (P : (0 < (1 / 2) ^ S q)%R) by (apply pow_lt; lra).
    replace (s ^ 2)%R with (Rsqr ((1 / 2) ^ S q)) by (unfold Rsqr; destruct Hs as [-> | ->]; ring).
    rewrite sqrt_mult_alt by apply Rle_0_sqr. rewrite sqrt_Rsqr by lra.
    unfold Rdiv. rewrite Rmult_comm, Rmult_1_l. f_equal. apply pow_inv. }
  intros x y Hj. destruct (H2 x y Hj) as [Hxy|Hxy]; [apply G; exact Hxy|].
  destruct (G y x Hxy) as [a [b [Ha Hl]]]. exists a, b. split; [exact Ha|]. rewrite seg_sym. exact Hl.
Qed.
