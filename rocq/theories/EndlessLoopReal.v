(** * EndlessLoopReal: the triangle the Loop filter reproduces, with real coordinates, in any dimension (C109). *)
From Coq Require Import Reals Lra Lia.
From Verif Require Import Base Mesh Filters Drivers Samples Spec SpecSub SpecGeo SpecDrive SpecEndless Check CheckGeo Lists AddFace SplitTri Split Points Valid Run Update Struct Count Face Copy PtsAny Geo GeoProps Conn Drive Area Cond DriveProps Never Endless EndlessReal EndlessLoop.
Open Scope R_scope.

Section LPLACES.
Context {d : nat}.
Variables (V Q C : list R).
Lemma at_lmask P0 P1 P2 P3 a0 a1 a2 a3 b0 b1 b2 b3 :
  at_ (d := d) V Q C P0 a0 b0 -> at_ (d := d) V Q C P1 a1 b1 -> at_ (d := d) V Q C P2 a2 b2 -> at_ (d := d) V Q C P3 a3 b3 ->
  at_ (d := d) V Q C (@lmask (RO d) P0 P1 P2 P3) (3 / 8 * (a0 + a1) + 1 / 8 * (a2 + a3)) (3 / 8 * (b0 + b1) + 1 / 8 * (b2 + b3)).
Proof.
  intros [L0 H0] [L1 H1] [L2 H2] [L3 H3]. unfold lmask.
  assert (LP : forall p, In p [P0; P1; P2; P3] -> length p = d).
  { intros p H. cbn in H. repeat (destruct H as [<-|H]; [assumption|]). destruct H. }
  split.
  - apply comb_length; [apply repeat_length|exact LP].
  - intros i.
    pose proof (lin_comb (d := d) (delta i) (@loop_weights (RO d)) [P0; P1; P2; P3] (@pzero (RO d)) (repeat_length _ _) LP eq_refl) as L.
    assert (E0 : lin (delta i) (@pzero (RO d)) = 0) by apply (lin_zero (delta i) d).
    cbn [combine loop_weights rsum fold_right fst snd] in L. rewrite E0 in L. rewrite !lin_delta in L. rewrite H0, H1, H2, H3 in L.
    unfold kfrac in L. cbn [kdiv kZ RO] in L. etransitivity; [exact L|]. field.
Qed.
Lemma lboth_at P0 P1 P2 P3 r a0 a1 a2 a3 b0 b1 b2 b3 a b :
  at_ (d := d) V Q C P0 a0 b0 -> at_ (d := d) V Q C P1 a1 b1 -> at_ (d := d) V Q C P2 a2 b2 -> at_ (d := d) V Q C P3 a3 b3 -> at_ (d := d) V Q C r a b ->
  a = 3 / 8 * (a0 + a1) + 1 / 8 * (a2 + a3) -> b = 3 / 8 * (b0 + b1) + 1 / 8 * (b2 + b3) -> lboth (O := RO d) P0 P1 P2 P3 r.
Proof.
  intros H0 H1 H2 H3 Hr Ea Eb. split.
  - exact (at_eq V Q C _ _ _ _ _ _ (at_lmask _ _ _ _ _ _ _ _ _ _ _ _ H0 H1 H2 H3) Hr (eq_sym Ea) (eq_sym Eb)).
  - refine (at_eq V Q C _ _ _ _ _ _ (at_lmask _ _ _ _ _ _ _ _ _ _ _ _ H1 H0 H3 H2) Hr _ _); lra.
Qed.
End LPLACES.

(** The size of the new triangles: bounds on the parameters. *)
Lemma prod_bound x y c e : - c <= x <= c -> - e <= y <= e -> - (c * e) <= x * y <= c * e.
Proof. intros Hx Hy. split; nra. Qed.

Section KNIFE.
Context {d : nat} {D : Type}.
Notation mesh := (mesh (RO d) D).

Lemma C109_local_pf : forall (t k xi : R) (inp : mesh) v z q c z' x l1 l2,
  valid inp -> dense inp -> no_wire inp -> no_isolated inp -> knife_edge inp k xi v z q c z' x l1 l2 ->
  4 <= k < 6 -> 3 / 7 <= xi <= 5 / 8 -> 0 < t -> t = k / 6 * tri_area inp (c, v, q) ->
  (forall u, In u (tris inp) -> u = (c, v, q) \/ tri_area inp u <= t) ->
  forall old f, uniform f = false -> diverges (fun fuel => conditional_update fuel (CellF CLoop) (Some (cell_area_criterion (O := RO d) t)) old f inp).
Proof.
  intros t k xi inp v z q c z' x l1 l2 Hv Hd Hw Hi [Kt Kf1 Kf2 Fx Kl Xz Xz' Xx] Hk Hxi Ht0 Ht Ho old f Uf.
  assert (PT : forall a b e, is_face inp a b e -> oget a (pts inp) = Some (ptof inp a)).
  { intros a b e H. apply is_face_dir in H. apply (v_face_edges _ Hv) in H. destruct (joined_get inp a b Hv H) as [G _].
    unfold get_pt in G. destruct (oget a (pts inp)); [|discriminate]. injection G as ->. reflexivity. }
  assert (LN : forall k, length (ptof inp k) = d) by (intros k0; apply ptof_length; exact Hv).
  assert (R1 : forall a b e, is_face inp a b e -> is_face inp b e a) by (intros; apply is_face_rot; assumption).
  assert (R2 : forall a b e, is_face inp a b e -> is_face inp e a b) by (intros; apply is_face_rot, is_face_rot; assumption).
  assert (FL : forall a b e, listed l1 a b e -> is_face inp a b e).
  { intros a b e [H|[H|H]]; unfold is_face; rewrite Kt; rewrite !in_app_iff; tauto. }
  assert (F0 : is_face inp v q c) by (unfold is_face; rewrite Kt; rewrite !in_app_iff; cbn; tauto).
  pose proof (FL _ _ _ Kf1) as F1. pose proof (FL _ _ _ Kf2) as F2.
  set (V := ptof inp v). set (Q := ptof inp q). set (C := ptof inp c).
  pose proof (PT _ _ _ F0) as Pv. pose proof (PT _ _ _ (R1 _ _ _ F0)) as Pq. pose proof (PT _ _ _ (R2 _ _ _ F0)) as Pc.
  pose proof (PT _ _ _ (R1 _ _ _ F1)) as Pz. pose proof (PT _ _ _ (R2 _ _ _ F2)) as Pz'. pose proof (PT _ _ _ (R2 _ _ _ Fx)) as Px.
  pose proof (valid_wf inp Hv) as WF.
  pose proof (area_heron inp v q c _ _ _ WF Pv Pq Pc) as EA. fold V Q C in EA, Pv, Pq, Pc.
  rewrite (turn_area inp q c v), (turn_area inp v q c) in Ht || rewrite <- (turn_area inp c v q) in Ht.
  set (A := tri_area inp (v, q, c)) in *.
  pose proof (LN v) as LV. pose proof (LN q) as LQ. pose proof (LN c) as LC. fold V in LV. fold Q in LQ. fold C in LC.
  assert (AT : forall k a b, placed inp v q c k a b -> at_ (d := d) V Q C (ptof inp k) a b) by (intros k0 a b H; split; [apply LN|exact H]).
  pose proof (at_V V Q C LV) as AV. pose proof (at_Q V Q C LQ) as AQ. pose proof (at_C V Q C LC) as AC.
  apply AT in Xz, Xz', Xx.
  assert (A0 : 0 < A) by nra.
  assert (SM : forall P0 P1 P2 a0 b0 a1 b1 a2 b2, at_ (d := d) V Q C P0 a0 b0 -> at_ (d := d) V Q C P1 a1 b1 -> at_ (d := d) V Q C P2 a2 b2 ->
    - (k / 6) <= (a1 - a0) * (b2 - b0) - (a2 - a0) * (b1 - b0) <= k / 6 -> small (O := RO d) t P0 P1 P2).
  { intros p0 p1 p2 a0 b0 a1 b1 a2 b2 H0 H1 H2 Hd0.
    assert (G : forall X Y W u1 v1 u2 v2 u3 v3, at_ (d := d) V Q C X u1 v1 -> at_ (d := d) V Q C Y u2 v2 -> at_ (d := d) V Q C W u3 v3 ->
       - (k / 6) <= (u2 - u1) * (v3 - v1) - (u3 - u1) * (v2 - v1) <= k / 6 -> small1 (O := RO d) t X Y W).
    { intros X Y W u1 v1 u2 v2 u3 v3 HX HY HW Hdet. unfold small1. apply kgtb_false. rewrite (at_area V Q C LV LQ LC X Y W _ _ _ _ _ _ HX HY HW), EA, Ht.
      apply Rmult_le_compat_r; [lra|]. apply Rabs_le. exact Hdet. }
    split; [|split]; [eapply G; [exact H0|exact H1|exact H2|lra]|eapply G; [exact H1|exact H2|exact H0|lra]|eapply G; [exact H2|exact H0|exact H1|lra]]. }
  assert (AB : forall P a b a' b', at_ (d := d) V Q C P a b -> at_ (d := d) V Q C P a' b' -> Rabs b = Rabs b').
  { intros P a b a' b' H H'. pose proof (at_area V Q C LV LQ LC V Q P _ _ _ _ _ _ AV AQ H) as E1. pose proof (at_area V Q C LV LQ LC V Q P _ _ _ _ _ _ AV AQ H') as E2.
    rewrite EA in E1, E2. rewrite E1 in E2. apply Rmult_eq_reg_r in E2; [|lra].
    replace ((1 - 0) * (b - 0) - (a - 0) * (0 - 0)) with b in E2 by ring. replace ((1 - 0) * (b' - 0) - (a' - 0) * (0 - 0)) with b' in E2 by ring. exact E2. }
  assert (NE : forall k k' a b a' b', at_ (d := d) V Q C (ptof inp k) a b -> at_ (d := d) V Q C (ptof inp k') a' b' -> Rabs b <> Rabs b' -> k <> k').
  { intros k0 k' a b a' b' H H' Hne ->. apply Hne. eapply AB; eauto. }
  set (Z := ptof inp z) in *. set (Z' := ptof inp z') in *. set (X := ptof inp x) in *.
  set (St := fun Q1 C1 M1 : list R => exists h y, k / 12 < h <= 1 / 2 /\ 3 / 7 <= y <= 5 / 8 /\
     at_ (d := d) V Q C Q1 (1 / 2 + h) (1 / 2 - h) /\ at_ (d := d) V Q C C1 (1 / 2 - h) (1 / 2 + h) /\ at_ (d := d) V Q C M1 y y).
  refine (lendless (O := RO d) V Z Z' t St _ _ old f inp v z q c z' x Q C X l1 l2 Uf Hv Hd Hi Hw _ _ _).
  - intros Q1 C1 M1 [h [y [Hh [Hy [HQ [HC HM]]]]]]. apply kgtb_true. rewrite (at_area V Q C LV LQ LC C1 V Q1 _ _ _ _ _ _ HC AV HQ), EA, Ht.
    apply Rmult_lt_compat_r; [exact A0|]. match goal with |- _ < Rabs ?e => replace e with (2 * h) by field end. rewrite Rabs_pos_eq; lra.
  - intros Q1 C1 M1 [h [y [Hh [Hy [HQ [HC HM]]]]]].
    pose (h' := h / 4 + k / 16). pose (y' := 3 / 8 + y / 8).
    assert (Hh' : k / 12 < h' <= 1 / 2) by (unfold h'; lra). assert (Hy' : 3 / 7 <= y' <= 5 / 8) by (unfold y'; lra).
    assert (Eh : h' = h / 4 + k / 16) by reflexivity. assert (Ey : y' = 3 / 8 + y / 8) by reflexivity. clearbody h' y'.
    pose proof (point_at_ok V Q C LV LQ LC (1 / 2 + h') (1 / 2 - h')) as HQ'. pose proof (point_at_ok V Q C LV LQ LC (1 / 2 - h') (1 / 2 + h')) as HC'.
    pose proof (point_at_ok V Q C LV LQ LC y' y') as HM'.
    set (Q' := point_at V Q C (1 / 2 + h') (1 / 2 - h')) in *. set (C' := point_at V Q C (1 / 2 - h') (1 / 2 + h')) in *. set (M' := point_at V Q C y' y') in *.
    exists Q', C', M'. split; [exists h', y'; auto|].
    assert (W1 : - (1 / 8) <= h - h' <= 1 / 8) by lra. assert (W2 : - (1 / 7) <= 2 * y' - 1 <= 1 / 7) by lra. assert (W3 : - (1 / 5) <= y - y' <= 1 / 5) by lra.
    assert (W4 : - (1 / 2) <= h <= 1 / 2) by lra. assert (W5 : - (1 / 2) <= h' <= 1 / 2) by lra.
    pose proof (prod_bound _ _ _ _ W2 W1) as B1. pose proof (prod_bound _ _ _ _ W2 W5) as B2. pose proof (prod_bound _ _ _ _ W3 W4) as B3.
    split; [eapply lboth_at; [exact AV|exact HQ|exact HC|exact Xz|exact HQ'|lra|lra]|].
    split; [eapply lboth_at; [exact HQ|exact HC|exact AV|exact HM|exact HM'|lra|lra]|].
    split; [eapply lboth_at; [exact HC|exact AV|exact HQ|exact Xz'|exact HC'|lra|lra]|].
    assert (RW : forall e g, e = g -> - (k / 6) <= g <= k / 6 -> - (k / 6) <= e <= k / 6) by (intros e g ->; auto).
    split; [eapply SM; [exact HQ'|exact AV|exact Xz|]; apply (RW _ (k / 2 - 4 * h')); [field|lra]|].
    split; [eapply SM; [exact HQ'|exact Xz|exact HQ|]; apply (RW _ (3 * (h' - h))); [field|lra]|].
    split; [eapply SM; [exact HC'|exact HC|exact Xz'|]; apply (RW _ (3 * (h' - h))); [field|lra]|].
    split; [eapply SM; [exact HC'|exact Xz'|exact AV|]; apply (RW _ (k / 2 - 4 * h')); [field|lra]|].
    split; [eapply SM; [exact HQ'|exact HQ|exact HM'|]; apply (RW _ ((2 * y' - 1) * (h - h'))); [field|lra]|].
    split; [eapply SM; [exact HM'|exact HC|exact HC'|]; apply (RW _ ((2 * y' - 1) * (h - h'))); [field|lra]|].
    split; [eapply SM; [exact HQ'|exact HM'|exact HC'|]; apply (RW _ (2 * ((2 * y' - 1) * h'))); [field|lra]|].
    split; [eapply SM; [exact HM'|exact HQ|exact HM|]; apply (RW _ (2 * ((y - y') * h))); [field|lra]|].
    eapply SM; [exact HM'|exact HM|exact HC|]; apply (RW _ (2 * ((y - y') * h))); [field|lra].
  - exists (1 / 2), xi. split; [lra|]. split; [lra|]. replace (1 / 2 + 1 / 2) with 1 by lra. replace (1 / 2 - 1 / 2) with 0 by lra. auto.
  - constructor; try assumption; unfold Q, C, V in *.
    + intros id H. apply Kl in H. lia.
    + eapply NE; [exact Xz|exact AC|]. rewrite Rabs_R1, Rabs_left1 by lra. lra.
    + eapply NE; [exact Xz'|exact AQ|]. rewrite Rabs_R0, Rabs_right by lra. lra.
    + eapply NE; [exact Xx|exact AV|]. rewrite Rabs_R0, Rabs_right by lra. lra.
  - intros a b e He. destruct (Ho (a, b, e) He) as [H|H]; [left; exact H|right].
    assert (Fa : is_face inp a b e) by (left; exact He).
    pose proof (PT _ _ _ Fa) as Pa. pose proof (PT _ _ _ (R1 _ _ _ Fa)) as Pb. pose proof (PT _ _ _ (R2 _ _ _ Fa)) as Pe.
    exists (ptof inp a), (ptof inp b), (ptof inp e). split; [split; [exact Pa|split; [exact Pb|exact Pe]]|].
    unfold small, small1. rewrite (area_heron inp a b e _ _ _ WF Pa Pb Pe), (area_heron inp b e a _ _ _ WF Pb Pe Pa), (area_heron inp e a b _ _ _ WF Pe Pa Pb).
    rewrite (turn_area inp b e a), (turn_area inp a b e). split; [|split]; apply kgtb_false; exact H.
Qed.
End KNIFE.

(** ** Meshes with integer coordinates, at every scale *)
Notation zpoint := (Z * Z * Z)%type.
Definition zx (p : zpoint) : Z := fst (fst p).
Definition zy (p : zpoint) : Z := snd (fst p).
Definition zz (p : zpoint) : Z := snd p.
Definition zdot (o a b : zpoint) : Z := ((zx a - zx o) * (zx b - zx o) + (zy a - zy o) * (zy b - zy o) + (zz a - zz o) * (zz b - zz o))%Z.
Definition zgram (a b c : zpoint) : Z := (zdot a b b * zdot a c c - zdot a b c * zdot a b c)%Z.
Definition scaled (s : R) (m : mesh (RO 3) N) (P : N -> zpoint) (k : N) : Prop :=
  crd m 0 k = s * IZR (zx (P k)) /\ crd m 1 k = s * IZR (zy (P k)) /\ crd m 2 k = s * IZR (zz (P k)).
Lemma zarea s m P a b c : scaled s m P a -> scaled s m P b -> scaled s m P c -> 0 <= s ->
  tri_area m (a, b, c) = s * s / 2 * sqrt (IZR (zgram (P a) (P b) (P c))).
Proof.
  intros [A0 [A1 A2]] [B0 [B1 B2]] [C0 [C1 C2]] Hs. unfold tri_area, dot. cbn [seq rsum fold_right]. rewrite A0, A1, A2, B0, B1, B2, C0, C1, C2.
  match goal with |- 1 / 2 * sqrt ?g = _ => replace g with ((s * s) * (s * s) * IZR (zgram (P a) (P b) (P c))) end.
  - rewrite sqrt_mult_alt; [|apply Rle_0_sqr]. rewrite sqrt_square; [field|nra].
  - unfold zgram, zdot. repeat (rewrite plus_IZR || rewrite minus_IZR || rewrite mult_IZR). ring.
Qed.
Lemma zarea_le s m P a b c n : scaled s m P a -> scaled s m P b -> scaled s m P c -> 0 <= s -> (0 <= n)%Z ->
  (9 * zgram (P a) (P b) (P c) <=? n * n)%Z = true -> tri_area m (a, b, c) <= s * s / 6 * IZR n.
Proof.
  intros Ha Hb Hc Hs Hn H. rewrite (zarea s m P a b c Ha Hb Hc Hs). apply Z.leb_le, IZR_le in H. rewrite !mult_IZR in H. apply IZR_le in Hn.
  assert (B : sqrt (IZR (zgram (P a) (P b) (P c))) <= IZR n / 3).
  { rewrite <- (sqrt_square (IZR n / 3)) by lra. apply sqrt_le_1_alt. lra. }
  assert (0 <= s * s) by nra. nra.
Qed.
Lemma zarea_pos s m P a b c : scaled s m P a -> scaled s m P b -> scaled s m P c -> 0 < s ->
  (0 <? zgram (P a) (P b) (P c))%Z = true -> 0 < tri_area m (a, b, c).
Proof.
  intros Ha Hb Hc Hs H. rewrite (zarea s m P a b c Ha Hb Hc) by lra. apply Z.ltb_lt, IZR_lt in H. apply Rmult_lt_0_compat; [nra|]. apply sqrt_lt_R0. exact H.
Qed.

Definition kpoints : list zpoint :=
  [(0, 0, 0); (66, 46, 0); (16, 12, 0); (12, 16, 0); (46, 66, 0); (1, 1, 0); (-1, -1, 0); (12, 12, 0); (67, 47, 0); (65, 45, 0); (45, 65, 0); (47, 67, 0);
   (3, -3, 0); (-3, 3, 0); (-3, -3, 1); (3, 3, 1); (-1, -2, 3); (1, 2, 3); (0, 0, 5);
   (3, -3, -1); (-3, 3, -1); (-3, -3, -2); (3, 3, -2); (-1, -2, -4); (1, 2, -4); (0, 0, -6)]%Z.
Definition kholes (s : N) : list (list N) :=
  map (map (N.add s)) [[1; 2; 4]; [2; 5; 4]; [3; 6; 5]; [4; 5; 0]; [4; 0; 6]; [5; 6; 1]; [5; 1; 0]; [6; 0; 2]; [6; 2; 1]]%N.
Definition kcells : list (list N) :=
  [[0; 5; 1]; [0; 1; 2]; [0; 3; 4]; [0; 4; 6]; [1; 5; 8]; [2; 1; 9]; [4; 3; 10]; [6; 4; 11]; [3; 2; 7]]%N ++ kholes 12 ++ kholes 19 ++ [[3; 0; 2]]%N.
Definition rp3 (s : R) (p : zpoint) : list R := [s * IZR (zx p); s * IZR (zy p); s * IZR (zz p)].
Definition kmesh (s : R) : mesh (RO 3) N := build (O := RO 3) (number (map (rp3 s) kpoints)) kcells.
Definition kpoint (k : N) : zpoint := nth (N.to_nat k) kpoints (0, 0, 0)%Z.
Definition ktris : list tri := Eval vm_compute in tris (kmesh 0).

Lemma kmesh_good s : valid (kmesh s) /\ dense (kmesh s) /\ no_wire (kmesh s) /\ no_isolated (kmesh s).
Proof.
  split; [apply validb_ok; vm_compute; reflexivity|]. split; [apply denseb_ok; vm_compute; reflexivity|].
  split; [apply no_wireb_ok; vm_compute; reflexivity|apply no_isolatedb_ok; vm_compute; reflexivity].
Qed.
Lemma kmesh_tris s : tris (kmesh s) = ktris.
Proof. vm_compute. reflexivity. Qed.
Lemma scaled_pts s (m : mesh (RO 3) N) P k : oget k (pts m) = Some (rp3 s (P k)) -> scaled s m P k.
Proof. intros H. unfold scaled, crd, ptof. rewrite H. split; [|split]; reflexivity. Qed.
Lemma kmesh_scaled s k : (k < 26)%N -> scaled s (kmesh s) kpoint k.
Proof.
  intros H. apply scaled_pts.
  assert (P : pts (kmesh s) = map (fun k => (k, rp3 s (kpoint k))) (map N.of_nat (seq 0 26))) by (vm_compute; reflexivity).
  rewrite P. assert (E : In k (map N.of_nat (seq 0 26))). { apply in_map_iff. exists (N.to_nat k). split; [lia|]. apply in_seq. lia. }
  clear P H. cbn [seq map] in E. repeat (destruct E as [<-|E]; [reflexivity|]). destruct E.
Qed.
Definition okb (P : N -> zpoint) (n : Z) (u : tri) : bool := let '(a, b, c) := u in
  (a <? 26)%N && (b <? 26)%N && (c <? 26)%N && (9 * zgram (P a) (P b) (P c) <=? n * n)%Z && (0 <? zgram (P a) (P b) (P c))%Z.
Lemma okb_all s (m : mesh (RO 3) N) P n l : (forall k, (k < 26)%N -> scaled s m P k) -> 0 < s -> (0 <= n)%Z -> forallb (okb P n) l = true ->
  forall u, In u l -> 0 < tri_area m u <= s * s / 6 * IZR n.
Proof.
  intros Hp Hs Hn H [[a b] c] Hu. rewrite forallb_forall in H. specialize (H _ Hu). cbv beta iota delta [okb] in H.
  apply andb_prop in H. destruct H as [H H5]. apply andb_prop in H. destruct H as [H H4]. apply andb_prop in H. destruct H as [H H3].
  apply andb_prop in H. destruct H as [H1 H2]. apply N.ltb_lt in H1, H2, H3. split.
  - apply (zarea_pos s m P); auto.
  - apply (zarea_le s m P); auto. lra.
Qed.
Lemma kmesh_small s u : 0 < s -> In u (removelast ktris) -> 0 < tri_area (kmesh s) u <= s * s / 6 * 280.
Proof. intros Hs Hu. apply (okb_all s (kmesh s) kpoint 280 (removelast ktris)); [intros k; apply kmesh_scaled|exact Hs|lia|vm_compute; reflexivity|exact Hu]. Qed.
Lemma kmesh_large s : 0 < s -> tri_area (kmesh s) (3, 0, 2)%N = s * s * 56.
Proof.
  intros Hs. rewrite (zarea s (kmesh s) kpoint 3 0 2) by (try apply kmesh_scaled; lra || reflexivity).
  replace (zgram (kpoint 3) (kpoint 0) (kpoint 2)) with (112 * 112)%Z by reflexivity. rewrite mult_IZR, sqrt_square by lra. lra.
Qed.
Lemma scaled_crd s (m : mesh (RO 3) N) P k i : valid m -> scaled s m P k -> crd m i k = nth i (rp3 s (P k)) 0.
Proof.
  intros V [G0 [G1 G2]]. destruct i as [|[|[|i]]]; [exact G0|exact G1|exact G2|].
  unfold crd. rewrite nth_overflow; [destruct i; reflexivity|]. rewrite ptof_length; [lia|exact V].
Qed.
Lemma kmesh_placed s k a b : (k < 26)%N -> IZR (zx (kpoint k)) = 16 * a + 12 * b -> IZR (zy (kpoint k)) = 12 * a + 16 * b -> zz (kpoint k) = 0%Z ->
  placed (kmesh s) 0 2 3 k a b.
Proof.
  intros Hk Hx Hy Hz i.
  assert (G : forall k', (k' < 26)%N -> crd (kmesh s) i k' = nth i (rp3 s (kpoint k')) 0).
  { intros k' H. apply scaled_crd; [apply kmesh_good|apply kmesh_scaled; exact H]. }
  rewrite !G by (exact Hk || reflexivity). unfold rp3 at 1. rewrite Hx, Hy, Hz.
  change (rp3 s (kpoint 0)) with [s * 0; s * 0; s * 0]. change (rp3 s (kpoint 2)) with [s * 16; s * 12; s * 0]. change (rp3 s (kpoint 3)) with [s * 12; s * 16; s * 0].
  destruct i as [|[|[|i]]]; cbn [nth]; [ring|ring|ring|destruct i; ring].
Qed.
Lemma kmesh_edge s : knife_edge (kmesh s) 5 (3 / 7) 0 1 2 3 4 7 (removelast ktris) [].
Proof.
  constructor.
  - rewrite kmesh_tris. vm_compute. reflexivity.
  - left. vm_compute. auto 40.
  - left. vm_compute. auto 40.
  - apply is_faceb_ok. vm_compute. reflexivity.
  - intros id H. apply (proj1 (proj2 (kmesh_good s))) in H. change (osize (pts (kmesh s))) with 26%N in H. change (N.of_nat (length (removelast ktris))) with 27%N. lia.
  - apply kmesh_placed; [reflexivity| | |reflexivity]; change (kpoint 1) with (66, 46, 0)%Z; cbn [zx zy fst snd]; lra.
  - apply kmesh_placed; [reflexivity| | |reflexivity]; change (kpoint 4) with (46, 66, 0)%Z; cbn [zx zy fst snd]; lra.
  - apply kmesh_placed; [reflexivity| | |reflexivity]; change (kpoint 7) with (12, 12, 0)%Z; cbn [zx zy fst snd]; lra.
Qed.
Lemma kmesh_split u : In u ktris -> In u (removelast ktris) \/ u = (3, 0, 2)%N.
Proof. intros H. assert (E : ktris = removelast ktris ++ [(3, 0, 2)%N]) by reflexivity. rewrite E in H. apply in_app_or in H. destruct H as [H|[H|[]]]; auto. Qed.

Lemma C109_every_pf : forall t : R, 0 < t -> exists inp : mesh (RO 3) N, valid inp /\ dense inp /\ no_wire inp /\ no_isolated inp /\
  (forall u, In u (tris inp) -> 0 < tri_area inp u) /\ nF inp = 28%Z /\
  forall old f, uniform f = false -> diverges (fun fuel => conditional_update fuel (CellF CLoop) (Some (cell_area_criterion (O := RO 3) t)) old f inp).
Proof.
  intros t Ht. set (s := sqrt (3 * t / 140)). assert (Hs : 0 < s) by (apply sqrt_lt_R0; lra). assert (S2 : s * s = 3 * t / 140) by (apply sqrt_sqrt; lra).
  destruct (kmesh_good s) as [V [Dn [NW NI]]]. exists (kmesh s). split; [exact V|]. split; [exact Dn|]. split; [exact NW|]. split; [exact NI|].
  pose proof (kmesh_large s Hs) as EA. split; [|split; [vm_compute; reflexivity|]].
  - intros u Hu. rewrite kmesh_tris in Hu. destruct (kmesh_split u Hu) as [U| ->]; [apply (kmesh_small s u Hs U)|rewrite EA; lra].
  - intros old f Uf. apply (C109_local_pf t 5 (3 / 7) (kmesh s) 0 1 2 3 4 7 (removelast ktris) [] V Dn NW NI (kmesh_edge s)); [lra|lra|exact Ht|rewrite EA; lra| |exact Uf].
    intros u Hu. rewrite kmesh_tris in Hu. destruct (kmesh_split u Hu) as [U| ->]; [right|left; reflexivity]. pose proof (kmesh_small s u Hs U). lra.
Qed.
