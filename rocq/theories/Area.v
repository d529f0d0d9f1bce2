(** * Area: children of the Linear scheme: areas and edge lengths. *)
From Coq Require Import Reals Lra Psatz.
From Verif Require Import Base Mesh Filters Drivers Spec SpecSub Lists AddFace SplitTri Split Points Valid Run Update Struct Count Face PtsAny SpecGeo Geo GeoProps SpecDrive Drive.

Section AREA.
Context {d : nat} {D : Type}.
Notation mesh := (mesh (RO d) D).
Implicit Types m inp out : mesh.

(** The point [x] of [m'] is a + u (b - a) + v (c - a) in [m]. *)
Definition loc m m' (a b c x : N) (u v : R) : Prop :=
  forall i, crd m' i x = (crd m i a + u * (crd m i b - crd m i a) + v * (crd m i c - crd m i a))%R.

Lemma dot_loc m m' a b c x y z ux vx uy vy uz vz :
  loc m m' a b c x ux vx -> loc m m' a b c y uy vy -> loc m m' a b c z uz vz ->
  dot m' x y z = ((uy - ux) * (uz - ux) * dot m a b b
                  + ((uy - ux) * (vz - vx) + (uz - ux) * (vy - vx)) * dot m a b c
                  + (vy - vx) * (vz - vx) * dot m a c c)%R.
Proof.
  intros Hx Hy Hz. unfold dot. rewrite <- !rsum_scal, <- !rsum_plus. apply rsum_ext. intros i _.
  rewrite (Hx i), (Hy i), (Hz i). ring.
Qed.

Lemma area_loc m m' a b c x y z ux vx uy vy uz vz :
  loc m m' a b c x ux vx -> loc m m' a b c y uy vy -> loc m m' a b c z uz vz ->
  tri_area m' (x, y, z) = (Rabs ((uy - ux) * (vz - vx) - (uz - ux) * (vy - vx)) * tri_area m (a, b, c))%R.
Proof.
  intros Hx Hy Hz. unfold tri_area.
  rewrite (dot_loc _ _ _ _ _ _ _ _ _ _ _ _ _ _ Hx Hy Hy), (dot_loc _ _ _ _ _ _ _ _ _ _ _ _ _ _ Hx Hz Hz),
    (dot_loc _ _ _ _ _ _ _ _ _ _ _ _ _ _ Hx Hy Hz).
  set (B := dot m a b b). set (C := dot m a c c). set (P := dot m a b c).
  match goal with |- (1 / 2 * sqrt ?g = _)%R =>
    replace g with (((uy - ux) * (vz - vx) - (uz - ux) * (vy - vx)) ^ 2 * (B * C - P ^ 2))%R by ring end.
  rewrite sqrt_mult_alt by apply pow2_ge_0.
  replace (((uy - ux) * (vz - vx) - (uz - ux) * (vy - vx)) ^ 2)%R with (Rsqr ((uy - ux) * (vz - vx) - (uz - ux) * (vy - vx))) by (unfold Rsqr; ring).
  rewrite sqrt_Rsqr_abs. ring.
Qed.

Section CHILDREN.
Variables (inp out : mesh) (mid : N -> N -> option N).
Hypothesis Hold : forall i x, oget x (pts inp) <> None -> crd out i x = crd inp i x.
Hypothesis Hmid : forall a b e i, mid a b = Some e -> crd out i e = ((crd inp i a + crd inp i b) / 2)%R.
Variables (a b c : N).
Hypothesis Ha : oget a (pts inp) <> None.
Hypothesis Hb : oget b (pts inp) <> None.
Hypothesis Hc : oget c (pts inp) <> None.

Lemma loc_a : loc inp out a b c a 0 0. Proof. intros i. rewrite Hold by assumption. ring. Qed.
Lemma loc_b : loc inp out a b c b 1 0. Proof. intros i. rewrite Hold by assumption. ring. Qed.
Lemma loc_c : loc inp out a b c c 0 1. Proof. intros i. rewrite Hold by assumption. ring. Qed.
Lemma loc_ab e : mid a b = Some e -> loc inp out a b c e (1 / 2) 0. Proof. intros H i. rewrite (Hmid _ _ _ _ H). field. Qed.
Lemma loc_bc e : mid b c = Some e -> loc inp out a b c e (1 / 2) (1 / 2). Proof. intros H i. rewrite (Hmid _ _ _ _ H). field. Qed.
Lemma loc_ca e : mid c a = Some e -> loc inp out a b c e 0 (1 / 2). Proof. intros H i. rewrite (Hmid _ _ _ _ H). field. Qed.

(** Areas of the children, in the order in which they are produced. *)
Definition weights (e0 e1 e2 : option N) : list R :=
  match e0, e1, e2 with
  | None, None, None => [1]
  | Some _, None, None | None, Some _, None | None, None, Some _ => [1 / 2; 1 / 2]
  | Some _, Some _, None => [1 / 2; 1 / 4; 1 / 4]
  | Some _, None, Some _ => [1 / 2; 1 / 4; 1 / 4]
  | None, Some _, Some _ => [1 / 2; 1 / 4; 1 / 4]
  | Some _, Some _, Some _ => [1 / 4; 1 / 4; 1 / 4; 1 / 4]
  end%R.

Lemma child_areas :
  map (tri_area out) (split_triangle a b c (mid a b) (mid b c) (mid c a)) =
  map (fun w => w * tri_area inp (a, b, c))%R (weights (mid a b) (mid b c) (mid c a)).
Proof.
  pose proof loc_a as La. pose proof loc_b as Lb. pose proof loc_c as Lc.
  pose proof loc_ab as Lab. pose proof loc_bc as Lbc. pose proof loc_ca as Lca.
  destruct (mid a b) as [x|]; destruct (mid b c) as [y|]; destruct (mid c a) as [z|];
    try (specialize (Lab _ eq_refl)); try (specialize (Lbc _ eq_refl)); try (specialize (Lca _ eq_refl));
    cbn [split_triangle split_one split_two_01 split_two_02 split_two_12 split_three weights map];
    repeat (apply (f_equal2 cons); [erewrite area_loc by eassumption; f_equal;
      unfold Rabs; match goal with |- context[Rcase_abs ?x] => destruct (Rcase_abs x) end; lra|]);
    reflexivity.
Qed.

Lemma children_total :
  rsum (tri_area out) (split_triangle a b c (mid a b) (mid b c) (mid c a)) = tri_area inp (a, b, c).
Proof.
  assert (E : rsum (tri_area out) (split_triangle a b c (mid a b) (mid b c) (mid c a)) =
     rsum (fun x => x) (map (tri_area out) (split_triangle a b c (mid a b) (mid b c) (mid c a)))).
  { symmetry. apply (rsum_map (tri_area out) (fun x => x)). }
  rewrite E, child_areas. destruct (mid a b), (mid b c), (mid c a); cbn; lra.
Qed.

Lemma child_area u : In u (split_triangle a b c (mid a b) (mid b c) (mid c a)) ->
  exists w, (tri_area out u = w * tri_area inp (a, b, c))%R /\ (0 < w <= 1)%R /\
    (all_three (mid a b) (mid b c) (mid c a) = true -> w = (1 / 4)%R).
Proof.
  intros Hu. apply (in_map (tri_area out)) in Hu. rewrite child_areas in Hu. apply in_map_iff in Hu.
  destruct Hu as [w [Hw Hi]]. exists w. split; [congruence|].
  destruct (mid a b), (mid b c), (mid c a); cbn in Hi |- *; in_cases Hi; subst; (split; [lra|]); (discriminate || reflexivity).
Qed.

(** Edges of the children: half an edge, an unsplit edge, or a median of a triangle with an unsplit
    side next to it. *)
Variable L2 M2 : R.
Hypothesis HL : (0 <= L2)%R.
Hypothesis HLM : (L2 <= M2)%R.
Hypothesis Hlen : forall x y, In (x, y) (tdirs (a, b, c)) -> (dot inp x y y <= M2)%R.
Hypothesis Hcut : forall x y, In (x, y) (tdirs (a, b, c)) -> mid x y <> None -> (L2 < dot inp x y y)%R.
Hypothesis Hkeep : forall x y, In (x, y) (tdirs (a, b, c)) -> mid x y = None -> (dot inp x y y <= L2)%R.

Lemma child_edge u x y : In u (split_triangle a b c (mid a b) (mid b c) (mid c a)) -> In (x, y) (tdirs u) ->
  (dot out x y y <= L2 \/ dot out x y y <= M2 / 2 + L2 / 4)%R.
Proof.
  pose proof loc_a as La. pose proof loc_b as Lb. pose proof loc_c as Lc.
  pose proof loc_ab as Lab. pose proof loc_bc as Lbc. pose proof loc_ca as Lca.
  assert (M1 := Hlen a b ltac:(cbn; auto)). assert (M3 := Hlen b c ltac:(cbn; auto)). assert (M4 := Hlen c a ltac:(cbn; auto)).
  assert (C1 := Hcut a b ltac:(cbn; auto)). assert (C3 := Hcut b c ltac:(cbn; auto)). assert (C4 := Hcut c a ltac:(cbn; auto)).
  assert (K1 := Hkeep a b ltac:(cbn; auto)). assert (K3 := Hkeep b c ltac:(cbn; auto)). assert (K4 := Hkeep c a ltac:(cbn; auto)).
  rewrite (dot_cos inp a b c) in M3, C3, K3. rewrite (dot_swap inp c a) in M4, C4, K4.
  pose proof (dot_nonneg inp a b) as NB. pose proof (dot_nonneg inp a c) as NC.
  destruct (mid a b) as [e0|]; destruct (mid b c) as [e1|]; destruct (mid c a) as [e2|];
    try (specialize (Lab _ eq_refl)); try (specialize (Lbc _ eq_refl)); try (specialize (Lca _ eq_refl));
    try (specialize (C1 ltac:(discriminate))); try (specialize (C3 ltac:(discriminate))); try (specialize (C4 ltac:(discriminate)));
    try (specialize (K1 eq_refl)); try (specialize (K3 eq_refl)); try (specialize (K4 eq_refl));
    intros Hu Hxy; unfold split_triangle, split_one, split_two_01, split_two_02, split_two_12, split_three in Hu; in_cases Hu; subst u; cbn [tdirs] in Hxy; in_cases Hxy; injection Hxy as <- <-;
    (erewrite dot_loc by eassumption); set (B := dot inp a b b) in *; set (C := dot inp a c c) in *; set (P := dot inp a b c) in *;
    first [left; lra | right; lra].
Qed.
End CHILDREN.
End AREA.
