(** * CondRoot3: the conditional filter around the sqrt(3) filter with the area criterion ends (C106). *)
From Coq Require Import Reals Lra Psatz Sorted.
From Verif Require Import Base Mesh Filters Drivers Spec SpecSub SpecGeo SpecDrive SpecRoot3 Lists AddFace SplitTri Split Points Valid Run Update Struct Count Face Copy PtsAny Geo GeoProps Conn Drive Area Cond FaceProps DriveProps Gaps Root3Main Root3Props Conv.
Open Scope R_scope.

Lemma chained_any_cons {O D} (m : mesh O D) k f fuel f' m1 n out : ready_any k f m -> update k fuel f m = Ok (f', m1) ->
  chained_any m1 n out -> chained_any m (S n) out.
Proof.
  intros Hr E H. induction H as [|n m2 k2 f2 fuel2 f2' out H IH Hr2 E2].
  - eapply chained_any_S; [apply chained_any_0|exact Hr|exact E].
  - eapply chained_any_S; [exact IH|exact Hr2|exact E2].
Qed.

Ltac weights := unfold cabs, rsum; cbn [fold_right fst snd]; repeat rewrite Rabs_Ropp; repeat rewrite Rabs_pos_eq by lra; lra.
Ltac ucomb := unfold comb, rsum; cbn [fold_right fst snd]; unfold vec, gap.

Section ROOT3.
Context {d : nat} {D : Type}.
Notation mesh := (mesh (RO d) D).
Implicit Types m inp out : mesh.

Lemma dot_sq m a b : dot m a b b = sq d (vec m a b).
Proof. reflexivity. Qed.

Lemma dot_sym2 m a b : dot m a b b = dot m b a a.
Proof. rewrite !dot_sq. apply sq_opp. intros i. unfold vec. ring. Qed.

(** A face seen from one of its oriented edges. *)
Lemma seen_from m t a b : In t (tris m) -> In (a, b) (tdirs t) -> exists c, is_face m a b c /\
  (forall i, crd m i a + crd m i b + crd m i c = let '(x, y, z) := t in crd m i x + crd m i y + crd m i z) /\
  tri_area m t = tri_area m (a, b, c) /\
  forall v w, In (v, w) (tdirs (a, b, c)) <-> In (v, w) (tdirs t).
Proof.
  destruct t as [[x y] z]. intros Ht Hab.
  assert (L1 : forall u v w, loc m m u v w u 0 0) by (intros u v w i; ring).
  assert (L2 : forall u v w, loc m m u v w v 1 0) by (intros u v w i; ring).
  assert (L3 : forall u v w, loc m m u v w w 0 1) by (intros u v w i; ring).
  assert (rotA : forall u v w, tri_area m (u, v, w) = tri_area m (v, w, u)).
  { intros u v w. rewrite (area_loc m m u v w v w u 1 0 0 1 0 0 (L2 u v w) (L3 u v w) (L1 u v w)).
    replace ((0 - 1) * (0 - 0) - (0 - 1) * (1 - 0)) with 1 by ring. rewrite Rabs_R1. lra. }
  cbn [tdirs In] in Hab. destruct Hab as [X|[X|[X|[]]]]; injection X as <- <-.
  - exists z. split; [left; exact Ht|]. split; [reflexivity|]. split; [reflexivity|]. intros; reflexivity.
  - exists x. split; [right; right; exact Ht|]. split; [intros i; ring|]. split; [apply rotA|]. intros v w. cbn [tdirs In]. tauto.
  - exists y. split; [right; left; exact Ht|]. split; [intros i; ring|]. split; [rewrite rotA; apply rotA|]. intros v w. cbn [tdirs In]. tauto.
Qed.

Lemma area_le m a b c B : 0 <= B -> dot m a b b <= B * B -> dot m a c c <= B * B -> tri_area m (a, b, c) <= B * B / 2.
Proof.
  intros B0 H1 H2. unfold tri_area. pose proof (dot_nonneg m a b) as N1. pose proof (dot_nonneg m a c) as N2.
  assert (H : sqrt (dot m a b b * dot m a c c - dot m a b c ^ 2) <= B * B); [|lra].
  apply (sqrt_le_sq _ (B * B)); [nra|]. pose proof (pow2_ge_0 (dot m a b c)). nra.
Qed.

(** ** One round *)
(** Every face over the threshold has sides up to [B]; it is smaller by [3 ^ k], unless its sides are at most 2/3 [B]. *)
Definition within m (B : R) (u : tri) : Prop := forall a b, In (a, b) (tdirs u) -> dot m a b b <= B * B.
Definition stage (t B : R) (k : nat) m : Prop := forall u, In u (tris m) -> t < tri_area m u ->
  within m B u /\ (within m (2 / 3 * B) u \/ tri_area m u <= t * 3 ^ k).

Lemma within_le m B C u : 0 <= B <= C -> within m B u -> within m C u.
Proof. intros H W a b Hab. pose proof (W a b Hab). nra. Qed.

Section ROUND.
Variables (t : R) (m m1 : mesh) (f f1 : fstate) (fuel : nat).
Hypotheses (Hv : valid m) (Hd : dense m) (Hr : ready3 (apply_selection f (asel (O := RO d) t m)) m)
  (Hs : sel_empty (asel (O := RO d) t m) = false)
  (E : update (CellF CSqrt3) fuel (apply_selection f (asel (O := RO d) t m)) m = Ok (f1, m1)).

Lemma selected_iff u : In u (tris m) -> (selected m (csel (apply_selection f (asel (O := RO d) t m))) u <-> t < tri_area m u).
Proof.
  intros Hu. cbn. unfold selected. split.
  - intros [[H _]|[i [Hi Hf]]]; [exfalso; cbn in Hs; rewrite H in Hs; discriminate|].
    apply (long_cells_R t m i Hv) in Hi. destruct Hi as [u' [Hu' Hlt]]. rewrite (faces_fun _ _ _ _ Hv Hf Hu'). exact Hlt.
  - intros Hlt. right. unfold tris in Hu. apply in_map_iff in Hu. destruct Hu as [[i u'] [Eu Hi]]. cbn in Eu. subst u'.
    exists i. split; [|exact Hi]. apply (long_cells_R t m i Hv). exists u. auto.
Qed.

(** What the faces of the next mesh are. *)
Lemma round_faces w : In w (tris m1) ->
  (In w (tris m) /\ tri_area m1 w = tri_area m w /\ tri_area m w <= t /\ forall B, within m B w -> within m1 B w) \/
  (exists u a b, In u (tris m) /\ t < tri_area m u /\ In (a, b) (tdirs u) /\
     tri_area m1 w = tri_area m u / 3 /\
     forall B, 0 <= B -> within m B u -> forall x y, In (x, y) (tdirs w) ->
       dot m1 x y y <= (2 / 3 * B) * (2 / 3 * B) \/ (dot m1 x y y = dot m a b b)) \/
  (exists u u', In u (tris m) /\ In u' (tris m) /\ t < tri_area m u /\ t < tri_area m u' /\
     forall B, 0 <= B -> within m B u -> within m B u' -> within m1 (2 / 3 * B) w).
Proof.
  intros Hw. destruct (C20_centroid_pf d D _ m fuel f1 m1 Hv Hd Hr E) as [cen [Hsd [Ho Hg]]].
  assert (Hsel : forall u, In u (tris m) -> cen u <> None -> t < tri_area m u).
  { intros u Hu Hc. apply selected_iff; [exact Hu|]. apply (r3_dom _ _ _ _ Hsd u Hu). exact Hc. }
  assert (Hpt : forall u x, In u (tris m) -> In x (tverts u) -> oget x (pts m) <> None) by (intros u x; apply (v_verts _ Hv)).
  assert (HC : forall u a b g, In u (tris m) -> In (a, b) (tdirs u) -> cen u = Some g -> exists c,
     tri_area m u = tri_area m (a, b, c) /\ (forall v q, In (v, q) (tdirs (a, b, c)) <-> In (v, q) (tdirs u)) /\
     oget a (pts m) <> None /\ oget b (pts m) <> None /\ oget c (pts m) <> None /\
     forall i, crd m1 i g = (crd m i a + crd m i b + crd m i c) / 3).
  { intros u a b g Hu Hab Hcen. destruct (seen_from m u a b Hu Hab) as [c [F [Es [Ea Ed]]]].
    exists c. split; [exact Ea|]. split; [exact Ed|].
    destruct u as [[x y] z].
    assert (V : forall v, In v [a; b; c] -> oget v (pts m) <> None).
    { intros v Hvv. assert (exists q, In (v, q) (tdirs (a, b, c))) as [q Hw1] by (cbn [tdirs In] in *; intuition (subst; eauto)).
      apply Ed in Hw1. apply (Hpt (x, y, z)); [exact Hu|]. cbn in Hw1 |- *. intuition congruence. }
    split; [apply V; cbn; auto|]. split; [apply V; cbn; auto|]. split; [apply V; cbn; auto|].
    intros i. rewrite (Hg x y z g i Hu Hcen). rewrite (Es i). reflexivity. }
  apply (r3_faces _ _ _ _ Hsd) in Hw. destruct Hw as [u [Hu [[K ->]|[K|K]]]].
  - left. split; [exact Hu|]. destruct u as [[x y] z].
    assert (Hc : forall v i, In v [x; y; z] -> crd m1 i v = crd m i v).
    { intros v i Hvv. apply Ho. apply (Hpt (x, y, z)); assumption. }
    assert (Hdd : forall p q r, In p [x; y; z] -> In q [x; y; z] -> In r [x; y; z] -> dot m1 p q r = dot m p q r).
    { intros p q r H1 H2 H3. unfold dot. apply rsum_ext. intros i _. rewrite !Hc by assumption. reflexivity. }
    split; [unfold tri_area; rewrite !Hdd by (cbn; auto); reflexivity|]. split.
    + destruct (Rle_dec (tri_area m (x, y, z)) t) as [H|H]; [exact H|]. exfalso.
      assert (X : cen (x, y, z) <> None) by (apply (r3_dom _ _ _ _ Hsd _ Hu); apply selected_iff; [exact Hu|lra]). congruence.
    + intros B W a b Hab. rewrite Hdd; [apply W; exact Hab| | |]; cbn in Hab |- *; intuition congruence.
  - right; left. destruct K as [g [a [b [Hcen [Hab [_ ->]]]]]]. exists u, a, b. split; [exact Hu|].
    split; [apply Hsel; [exact Hu|congruence]|]. split; [exact Hab|].
    destruct (HC u a b g Hu Hab Hcen) as [c [Ea [Ed [Pa [Pb [Pc Eg]]]]]]. split.
    + rewrite Ea, (area_loc m m1 a b c a b g 0 0 1 0 (1 / 3) (1 / 3)).
      * replace ((1 - 0) * (1 / 3 - 0) - (1 / 3 - 0) * (0 - 0)) with (1 / 3) by field. rewrite Rabs_pos_eq by lra. lra.
      * intros i. rewrite (Ho a i Pa). ring.
      * intros i. rewrite (Ho b i Pb). ring.
      * intros i. rewrite Eg. field.
    + intros B B0 W x y Hxy. cbn [tdirs In] in Hxy.
      assert (Wab : sq d (vec m a b) <= B * B) by (apply W; apply Ed; cbn; auto).
      assert (Wbc : sq d (vec m b c) <= B * B) by (apply W; apply Ed; cbn; auto).
      assert (Wca : sq d (vec m c a) <= B * B) by (apply W; apply Ed; cbn; auto).
      destruct Hxy as [X|[X|[X|[]]]]; injection X as <- <-.
      * right. rewrite !dot_sq. apply rsum_ext. intros i _. unfold vec. rewrite (Ho a i Pa), (Ho b i Pb). reflexivity.
      * left. rewrite dot_sq. apply (comb_len d [(- (1 / 3), vec m a b); (1 / 3, vec m b c)]); [exact B0| | |].
        -- intros c0 z [X|[X|[]]]; injection X as <- <-; assumption.
        -- intros i. ucomb. rewrite (Ho b i Pb), Eg. field.
        -- unfold cabs, rsum; cbn [fold_right fst snd]. rewrite Rabs_Ropp, !Rabs_pos_eq by lra. lra.
      * left. rewrite dot_sq. apply (comb_len d [(- (1 / 3), vec m a b); (1 / 3, vec m c a)]); [exact B0| | |].
        -- intros c0 z [X|[X|[]]]; injection X as <- <-; assumption.
        -- intros i. ucomb. rewrite (Ho a i Pa), Eg. field.
        -- unfold cabs, rsum; cbn [fold_right fst snd]. rewrite Rabs_Ropp, !Rabs_pos_eq by lra. lra.
  - right; right. destruct K as [g [h [a [b [Hcen [Hab [[u' [Hu' [Hba Hcu]]] ->]]]]]]]. exists u, u'.
    split; [exact Hu|]. split; [exact Hu'|]. split; [apply Hsel; [exact Hu|congruence]|]. split; [apply Hsel; [exact Hu'|congruence]|].
    destruct (HC u a b g Hu Hab Hcen) as [c [_ [Ed [Pa [Pb [Pc Eg]]]]]].
    destruct (HC u' b a h Hu' Hba Hcu) as [e [_ [Ed' [_ [_ [Pe Eh]]]]]].
    intros B B0 W W' x y Hxy.
    assert (Wab : sq d (vec m a b) <= B * B) by (apply W; apply Ed; cbn; auto).
    assert (Wbc : sq d (vec m b c) <= B * B) by (apply W; apply Ed; cbn; auto).
    assert (Wca : sq d (vec m c a) <= B * B) by (apply W; apply Ed; cbn; auto).
    assert (Wae : sq d (vec m a e) <= B * B) by (apply W'; apply Ed'; cbn; auto).
    assert (Web : sq d (vec m e b) <= B * B) by (apply W'; apply Ed'; cbn; auto).
    cbn [tdirs In] in Hxy. rewrite dot_sq. destruct Hxy as [X|[X|[X|[]]]]; injection X as <- <-.
    + apply (comb_len d [(1 / 3, vec m c a); (1 / 3, vec m a e)]); [exact B0| | |weights].
      * intros c0 z [X|[X|[]]]; injection X as <- <-; assumption.
      * intros i. ucomb. rewrite Eg, Eh. field.
    + apply (comb_len d [(1 / 3, vec m e b); (1 / 3, vec m a b)]); [exact B0| | |weights].
      * intros c0 z [X|[X|[]]]; injection X as <- <-; assumption.
      * intros i. ucomb. rewrite (Ho b i Pb), Eh. field.
    + apply (comb_len d [(1 / 3, vec m b c); (- (1 / 3), vec m a b)]); [exact B0| | |].
      * intros c0 z [X|[X|[]]]; injection X as <- <-; assumption.
      * intros i. ucomb. rewrite (Ho b i Pb), Eg. field.
      * unfold cabs, rsum; cbn [fold_right fst snd]. rewrite Rabs_Ropp, !Rabs_pos_eq by lra. lra.
Qed.

Lemma round_stage B k : 0 <= B -> stage t B (S k) m -> stage t B k m1.
Proof.
  intros B0 HQ w Hw Hlt. destruct (round_faces w Hw) as [[_ [Ea [Hle _]]]|[[u [a [b [Hu [Hu2 [Hab [Ea Hsd]]]]]]]|[u [u' [Hu [Hu' [H1 [H2 Hsd]]]]]]]].
  - lra.
  - destruct (HQ u Hu Hu2) as [W W2]. assert (B2 : (2 / 3 * B) * (2 / 3 * B) <= B * B) by nra. split.
    + intros x y Hxy. destruct (Hsd B B0 W x y Hxy) as [H| ->]; [lra|]. apply W. exact Hab.
    + destruct W2 as [W2|W2].
      * left. intros x y Hxy. destruct (Hsd B B0 W x y Hxy) as [H| ->]; [exact H|]. apply W2. exact Hab.
      * right. rewrite Ea. cbn [pow] in W2. lra.
  - destruct (HQ u Hu H1) as [W _]. destruct (HQ u' Hu' H2) as [W' _]. pose proof (Hsd B B0 W W') as H.
    split; [eapply within_le; [|exact H]; lra|left; exact H].
Qed.

Lemma round_within B : 0 <= B -> (forall u, In u (tris m) -> within m B u) -> forall w, In w (tris m1) -> within m1 B w.
Proof.
  intros B0 HW w Hw. assert (B2 : (2 / 3 * B) * (2 / 3 * B) <= B * B) by nra.
  destruct (round_faces w Hw) as [[Hw0 [_ [_ H]]]|[[u [a [b [Hu [_ [Hab [_ Hsd]]]]]]]|[u [u' [Hu [Hu' [_ [_ Hsd]]]]]]]].
  - apply H. apply HW. exact Hw0.
  - intros x y Hxy. destruct (Hsd B B0 (HW u Hu) x y Hxy) as [H| ->]; [lra|]. apply (HW u Hu). exact Hab.
  - eapply within_le; [|exact (Hsd B B0 (HW u Hu) (HW u' Hu'))]. lra.
Qed.
End ROUND.

(** ** All rounds *)
Lemma area_ready3 t m f : valid m -> (nV m + nF m < 2 ^ 64)%Z -> ready3 (apply_selection f (asel (O := RO d) t m)) m.
Proof.
  intros Hv Hsz. split; [|split; [|exact Hsz]].
  - cbn. intros i Hi. apply (long_cells_In (O := RO d) t m i Hv) in Hi. destruct Hi as [a [b [c [pa [pb [pc [H _]]]]]]]. eauto.
  - cbn. pose proof (long_cells_sorted (O := RO d) t m Hv) as H. clear - H. induction H as [|x l H IH HF]; constructor; [|exact IH].
    intros Hx. rewrite Forall_forall in HF. specialize (HF x Hx). lia.
Qed.

Lemma some_selected t m : valid m -> sel_empty (asel (O := RO d) t m) = false -> exists u, In u (tris m) /\ t < tri_area m u.
Proof.
  intros Hv H. cbn in H. destruct (long_cells (O := RO d) t m) as [|i l] eqn:El; [discriminate|].
  assert (Hi : In i (long_cells (O := RO d) t m)) by (rewrite El; cbn; auto).
  apply (long_cells_R t _ i Hv) in Hi. destruct Hi as [u [Hu Hlt]]. exists u. split; [|exact Hlt]. apply in_map_iff. exists (i, u). auto.
Qed.
Lemma none_selected t m : valid m -> sel_empty (asel (O := RO d) t m) = true -> forall u, In u (tris m) -> tri_area m u <= t.
Proof.
  intros Hv H u Hu. destruct (Rle_dec (tri_area m u) t) as [Hle|Hle]; [exact Hle|]. exfalso.
  unfold tris in Hu. apply in_map_iff in Hu. destruct Hu as [[i u'] [Eu Hi]]. cbn in Eu. subst u'.
  assert (Hin : In i (long_cells (O := RO d) t m)) by (apply (long_cells_R t m i Hv); exists u; split; [exact Hi|lra]).
  cbn in H. destruct (long_cells (O := RO d) t m); [destruct Hin|discriminate].
Qed.

Lemma within_area m B u : 0 <= B -> within m B u -> tri_area m u <= B * B / 2.
Proof.
  intros B0 W. destruct u as [[a b] c]. apply area_le; [exact B0| |].
  - apply W. cbn. auto.
  - rewrite dot_sym2. apply W. cbn. auto.
Qed.

Lemma crit_more t m old n k : cell_area_criterion (O := RO d) t n m old = Ok (asel (O := RO d) t m) -> (n <= k)%nat ->
  cell_area_criterion (O := RO d) t k m old = Ok (asel (O := RO d) t m).
Proof. intros H Hk. replace k with (n + (k - n))%nat by lia. rewrite (area_crit_mono (O := RO d) t); congruence. Qed.
Lemma loop_more t m f n k r : conditional_loop n (CellF CSqrt3) (cell_area_criterion (O := RO d) t) (asel (O := RO d) t m) f m = Ok r -> (n <= k)%nat ->
  conditional_loop k (CellF CSqrt3) (cell_area_criterion (O := RO d) t) (asel (O := RO d) t m) f m = Ok r.
Proof.
  intros H Hk. replace k with (n + (k - n))%nat by lia.
  rewrite (cond_loop_mono (O := RO d)); [exact H|apply (area_crit_mono (O := RO d))|congruence].
Qed.

Lemma rounds3 t q : 0 < t -> forall n m f p k B, valid m -> dense m -> tris m <> [] -> 0 <= B -> n = (p * q + k)%nat ->
  stage t B k m -> B * B / 2 * (4 / 9) ^ S p <= t -> B * B / 2 <= t * 3 ^ q ->
  (2 * nV m + nF m * (3 ^ Z.of_nat (S n) - 1) < 2 ^ 65)%Z ->
  exists fuel f' out, conditional_loop fuel (CellF CSqrt3) (cell_area_criterion (O := RO d) t) (asel (O := RO d) t m) f m = Ok (f', out) /\
    valid out /\ dense out /\ (forall u, In u (tris out) -> tri_area out u <= t) /\
    (exists r, (r <= n)%nat /\ chained_any m r out) /\
    (forall C, 0 <= C -> (forall u, In u (tris m) -> within m C u) -> forall u, In u (tris out) -> within out C u) /\
    (forall id x, oget id (pts m) = Some x -> oget id (pts out) = Some x).
Proof.
  intros Ht. induction n as [n IH] using (well_founded_induction Wf_nat.lt_wf). intros m f p k B Hv Hd Hne B0 En HQ Hp Hq Hsz.
  destruct (sel_empty (asel (O := RO d) t m)) eqn:Es.
  - exists 1%nat, f, m. cbn [conditional_loop]. rewrite Es. split; [reflexivity|]. split; [exact Hv|]. split; [exact Hd|].
    split; [apply none_selected; assumption|]. split; [exists 0%nat; split; [lia|apply chained_any_0]|]. auto.
  - destruct (some_selected t m Hv Es) as [u0 [Hu0 Hlt0]].
    assert (NF : exists p k B, 0 <= B /\ n = (p * q + S k)%nat /\ stage t B (S k) m /\ B * B / 2 * (4 / 9) ^ S p <= t /\ B * B / 2 <= t * 3 ^ q).
    { destruct k as [|k]; [|exists p, k, B; auto].
      assert (W : forall u, In u (tris m) -> t < tri_area m u -> within m (2 / 3 * B) u).
      { intros u Hu Hlt. destruct (HQ u Hu Hlt) as [_ [W|W]]; [exact W|]. cbn [pow] in W. lra. }
      assert (A : forall u, In u (tris m) -> t < tri_area m u -> tri_area m u <= 2 / 3 * B * (2 / 3 * B) / 2).
      { intros u Hu Hlt. apply within_area; [lra|]. apply W; assumption. }
      pose proof (A u0 Hu0 Hlt0) as A0.
      destruct p as [|p]; [exfalso; cbn [pow] in Hp; lra|].
      destruct q as [|q]; [exfalso; cbn [pow] in Hq; nra|].
      exists p, q, (2 / 3 * B). split; [lra|]. split; [lia|].
      assert (Hq2 : 2 / 3 * B * (2 / 3 * B) / 2 <= t * 3 ^ S q) by nra. split; [|split; [|exact Hq2]].
      - intros u Hu Hlt. split; [apply W; assumption|]. right. pose proof (A u Hu Hlt). lra.
      - cbn [pow] in Hp |- *. lra. }
    clear p k B B0 En HQ Hp Hq. destruct NF as [p [k [B [B0 [En [HQ [Hp Hq]]]]]]].
    destruct n as [|n]; [lia|].
    assert (P3 : (1 <= 3 ^ Z.of_nat n)%Z) by (pose proof (Z.pow_pos_nonneg 3 (Z.of_nat n)); lia).
    assert (PS : (3 ^ Z.of_nat (S (S n)) = 9 * 3 ^ Z.of_nat n)%Z).
    { replace (Z.of_nat (S (S n))) with (Z.of_nat n + 2)%Z by lia. rewrite Z.pow_add_r by lia. lia. }
    assert (PS1 : (3 ^ Z.of_nat (S n) = 3 * 3 ^ Z.of_nat n)%Z).
    { replace (Z.of_nat (S n)) with (Z.of_nat n + 1)%Z by lia. rewrite Z.pow_add_r by lia. lia. }
    assert (FN : (0 <= nF m)%Z) by (unfold nF; lia).
    assert (Hsz1 : (nV m + nF m < 2 ^ 64)%Z) by (rewrite PS in Hsz; nia).
    pose proof (area_ready3 t m f Hv Hsz1) as Hr.
    destruct (root3_completes _ m Hv Hd Hr) as [f1 [m1 [H1 RR]]].
    set (n1 := S (length (tris m))). assert (E1 := H1 n1 ltac:(unfold n1; lia)).
    destruct (rr_valid _ _ _ _ _ RR Hne) as [Hv1 Hd1]. pose proof (tris_out3 _ _ _ _ _ Hv RR Hne) as Hne1.
    assert (Kle : (Z.of_nat (ksel m (apply_selection f (asel (O := RO d) t m))) <= nF m)%Z).
    { rewrite <- (tris_len m) by exact Hv. unfold ksel. pose proof (visited_le m (csel (apply_selection f (asel (O := RO d) t m))) Hv). 
      destruct Hr as [_ [Hr _]]. specialize (H Hr). lia. }
    destruct (IH n ltac:(lia) m1 f1 p k B Hv1 Hd1 Hne1 B0 ltac:(lia)) as [n3 [f' [out [E3 [R1 [R2 [R3 [[r [R4 R4']] [R5 R6]]]]]]]]].
    { eapply round_stage; [exact Hv|exact Hd|exact Hr|exact Es|exact E1|exact B0|exact HQ]. }
    { exact Hp. } { exact Hq. }
    { rewrite (rr_nV _ _ _ _ _ RR), (rr_nF _ _ _ _ _ RR). rewrite PS1. rewrite PS in Hsz.
      set (K := Z.of_nat (ksel m (apply_selection f (asel (O := RO d) t m)))) in *. assert (0 <= K)%Z by (unfold K; lia).
      set (X := (3 ^ Z.of_nat n)%Z) in *. nia. }
    destruct (area_crit_runs (O := RO d) t m1 (asel (O := RO d) t m) Hv1) as [n2 H2].
    exists (S (Nat.max n1 (Nat.max n2 n3))), f', out. split; [|split; [exact R1|split; [exact R2|split; [exact R3|split; [|split]]]]].
    + cbn [conditional_loop]. rewrite Es. rewrite H1 by (unfold n1; lia). cbn [rbind].
      rewrite (crit_more t m1 _ n2) by (assumption || lia). cbn [rbind]. apply (loop_more t m1 f1 n3); [exact E3|lia].
    + exists (S r). split; [lia|]. eapply chained_any_cons; [|exact E1|exact R4']. exact Hr.
    + intros C C0 HW. apply R5; [exact C0|]. eapply round_within; [exact Hv|exact Hd|exact Hr|exact Es|exact E1|exact C0|exact HW].
    + intros id x Hx. apply R6. apply (rr_old _ _ _ _ _ RR). exact Hx.
Qed.
End ROOT3.

Lemma C106_pf : forall (d : nat) (D : Type) (maxarea M : R) (p q : nat) old f (inp : mesh (RO d) D),
  valid inp -> dense inp -> tris inp <> [] -> 0 < maxarea ->
  (forall u a b, In u (tris inp) -> In (a, b) (tdirs u) -> seg_length inp a b <= M) ->
  M * M / 2 <= maxarea * (9 / 4) ^ p -> M * M / 2 <= maxarea * 3 ^ q ->
  (nV inp + 2 * nF inp * 3 ^ Z.of_nat (p * q) < 2 ^ 64)%Z ->
  exists f' out, completes (fun fuel => conditional_update fuel (CellF CSqrt3)
      (Some (cell_area_criterion (O := RO d) maxarea)) old f inp) (Ok (f', out)) /\
    valid out /\ dense out /\ (forall u, In u (tris out) -> tri_area out u <= maxarea) /\
    (forall u a b, In u (tris out) -> In (a, b) (tdirs u) -> seg_length out a b <= M) /\
    (forall id x, oget id (pts inp) = Some x -> oget id (pts out) = Some x) /\
    exists m0 r, same_shape inp m0 /\ (r <= p * q)%nat /\ chained_any m0 r out.
Proof.
  intros d D t M p q old f inp Hv Hd Hne Ht HM Hp Hq Hsz.
  destruct (copy_shape inp Hv) as [Hpt [Htr Hjo]].
  assert (M0 : 0 <= M).
  { destruct (tris inp) as [|[[a b] c] T]; [congruence|]. apply Rle_trans with (seg_length inp a b); [apply sqrt_pos|].
    apply (HM (a, b, c)); cbn; auto. }
  set (m0 := copy_geometry inp) in *.
  assert (Hv0 : valid m0) by (apply copy_valid; assumption).
  assert (Hd0 : dense m0) by (unfold dense; rewrite Hpt; exact Hd).
  assert (Hne0 : tris m0 <> []) by (rewrite Htr; exact Hne).
  assert (HW : forall u, In u (tris m0) -> within m0 M u).
  { intros u Hu a b Hab. rewrite Htr in Hu. rewrite (same_shape_dot inp m0 Hpt). apply seg_le; [exact M0|]. eapply HM; eauto. }
  assert (HA : forall u, In u (tris m0) -> tri_area m0 u <= M * M / 2) by (intros u Hu; apply within_area; [exact M0|apply HW; exact Hu]).
  assert (NV : (nV m0 = nV inp)%Z) by (unfold nV; rewrite Hpt; reflexivity).
  assert (NF : (nF m0 = nF inp)%Z) by (rewrite <- (tris_len m0 Hv0), <- (tris_len inp Hv), Htr; reflexivity).
  assert (HM2 : M * M / 2 * (4 / 9) ^ p <= t).
  { assert (X : (9 / 4) ^ p * (4 / 9) ^ p = 1) by (rewrite <- Rpow_mult_distr; replace (9 / 4 * (4 / 9)) with 1 by field; apply pow1).
    assert (0 < (4 / 9) ^ p) by (apply pow_lt; lra). nra. }
  assert (GO : exists fuel f' out, conditional_loop fuel (CellF CSqrt3) (cell_area_criterion (O := RO d) t) (asel (O := RO d) t m0) f m0 = Ok (f', out) /\
    valid out /\ dense out /\ (forall u, In u (tris out) -> tri_area out u <= t) /\
    (exists r, (r <= p * q)%nat /\ chained_any m0 r out) /\
    (forall C, 0 <= C -> (forall u, In u (tris m0) -> within m0 C u) -> forall u, In u (tris out) -> within out C u) /\
    (forall id x, oget id (pts m0) = Some x -> oget id (pts out) = Some x)).
  { destruct p as [|p].
    - assert (Es : sel_empty (asel (O := RO d) t m0) = true).
      { destruct (sel_empty (asel (O := RO d) t m0)) eqn:Es; [reflexivity|]. destruct (some_selected t m0 Hv0 Es) as [u [Hu Hlt]].
        pose proof (HA u Hu). cbn [pow] in HM2. lra. }
      exists 1%nat, f, m0. cbn [conditional_loop]. rewrite Es. split; [reflexivity|]. split; [exact Hv0|]. split; [exact Hd0|].
      split; [apply none_selected; assumption|]. split; [exists 0%nat; split; [lia|apply chained_any_0]|]. auto.
    - apply (rounds3 t q Ht (S p * q) m0 f p q M); auto; [lia| |].
      + intros u Hu Hlt. split; [apply HW; exact Hu|]. right. pose proof (HA u Hu). lra.
      + rewrite NV, NF. replace (Z.of_nat (S (S p * q))) with (Z.of_nat (S p * q) + 1)%Z by lia. rewrite Z.pow_add_r by lia.
        assert (FN : (0 <= nF inp)%Z) by (unfold nF; lia).
        assert (P3 : (1 <= 3 ^ Z.of_nat (S p * q))%Z) by (pose proof (Z.pow_pos_nonneg 3 (Z.of_nat (S p * q))); lia).
        set (X := (3 ^ Z.of_nat (S p * q))%Z) in *. change (2 ^ 65)%Z with (2 * 2 ^ 64)%Z. nia. }
  destruct GO as [fuel [f' [out [E [R1 [R2 [R3 [[r [R4 R4']] [R5 R6]]]]]]]]].
  exists f', out. split; [|split; [exact R1|split; [exact R2|split; [exact R3|split; [|split]]]]].
  - destruct (area_crit_runs (O := RO d) t m0 old Hv0) as [n2 H2].
    apply (cond_completes (O := RO d)) with (fuel := Nat.max fuel n2); [apply area_crit_mono| |discriminate].
    unfold conditional_update. fold m0.
    rewrite (crit_more t m0 _ n2) by (assumption || lia). cbn [rbind]. apply (loop_more t m0 f fuel); [exact E|lia].
  - intros u a b Hu Hab. apply seg_le; [exact M0|]. apply (R5 M M0 HW u Hu). exact Hab.
  - intros id x Hx. apply R6. rewrite Hpt. exact Hx.
  - exists m0, r. split; [apply copy_shape; exact Hv|]. auto.
Qed.

Lemma side_joined {O D} (m : mesh O D) : valid m -> forall u a b, In u (tris m) -> In (a, b) (tdirs u) -> joined m a b.
Proof. intros Hv u a b Hu Hab. apply (v_face_edges _ Hv). apply dirs_tri. exists u. auto. Qed.
