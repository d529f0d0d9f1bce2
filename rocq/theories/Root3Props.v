(** * Root3Props: the properties of the sqrt(3) filter. *)
From Coq Require Import Permutation Sorted Reals Lra.
From Verif Require Import Base Mesh Filters Drivers Spec SpecSub Lists AddFace SplitTri Split Points Valid Run Update Struct Count Face FaceProps Conn SpecGeo Geo GeoProps PtsAny SpecDrive Iter SpecRoot3 Root3 Root3Run Root3Main.

(** ** Points *)
Lemma C20_centroid_any_pf : forall (O : Ops) (D : Type) f (inp : mesh O D) fuel f' out,
  valid inp -> dense inp -> ready3 f inp -> update (CellF CSqrt3) fuel f inp = Ok (f', out) ->
  exists cen, root3_subdivision inp out (selected inp (csel f)) cen /\
    (forall id p, oget id (pts inp) = Some p -> oget id (pts out) = Some p) /\
    forall a b c g, In (a, b, c) (tris inp) -> cen (a, b, c) = Some g -> exists pa pb pc p,
      oget a (pts inp) = Some pa /\ oget b (pts inp) = Some pb /\ oget c (pts inp) = Some pc /\
      oget g (pts out) = Some p /\ length p = kdim O /\
      forall i xa xb xc, nth_error pa i = Some xa -> nth_error pb i = Some xb -> nth_error pc i = Some xc ->
        nth_error p i = Some (kmul O (kadd O (kadd O (kadd O (kZ O 0) xa) xb) xc) (kdiv O (kZ O 1) (kZ O 3))).
Proof.
  intros O D f inp fuel f' out Hv Hd Hr E. pose proof (root3_run f inp fuel f' out Hv Hd Hr E) as RR.
  exists (cenm inp f). split; [apply (rr_sub _ _ _ _ _ RR)|]. split; [apply (rr_old _ _ _ _ _ RR)|].
  intros a b c g Ht Hg. pose proof (rr_new _ _ _ _ _ RR _ _ Ht Hg) as Hn.
  destruct (centre_ok inp _ Hv Ht) as [Hc Hl].
  assert (Hpt : forall x, In x [a; b; c] -> exists p, oget x (pts inp) = Some p /\ length p = kdim O).
  { intros x Hx. pose proof (v_verts _ Hv _ x Ht Hx) as H. destruct (oget x (pts inp)) as [p|] eqn:Ex; [|congruence].
    exists p. split; [reflexivity|]. eapply (v_pts_dim _ Hv); eauto. }
  destruct (Hpt a ltac:(cbn; auto)) as [pa [Ea La]]. destruct (Hpt b ltac:(cbn; auto)) as [pb [Eb Lb]].
  destruct (Hpt c ltac:(cbn; auto)) as [pc [Ec Lc]].
  exists pa, pb, pc, (cpt inp (a, b, c)). repeat (split; [assumption|]).
  unfold centre_point, elem_pt in Hc. rewrite Ea, Eb, Ec in Hc. cbn [rbind] in Hc. injection Hc as <-.
  intros i xa xb xc Ha Hb Hcc. unfold pscale. rewrite nth_error_map.
  assert (M : forall (F : K O -> K O -> K O) l l' j x y, nth_error l j = Some x -> nth_error l' j = Some y ->
             nth_error (map2 F l l') j = Some (F x y)).
  { clear. intros F l. induction l as [|z l IH]; intros [|z' l'] [|j] x y H1 H2; cbn in *; try discriminate; [congruence|]. apply IH; assumption. }
  assert (Hz : nth_error (@pzero O) i = Some (kZ O 0)).
  { unfold pzero. rewrite nth_error_repeat; [reflexivity|]. rewrite <- La. apply nth_error_Some. congruence. }
  unfold padd. rewrite (M _ _ _ _ (kadd O (kadd O (kZ O 0) xa) xb) xc); [reflexivity| |exact Hcc].
  rewrite (M _ _ _ _ (kadd O (kZ O 0) xa) xb); [reflexivity| |exact Hb].
  rewrite (M _ _ _ _ (kZ O 0) xa); auto.
Qed.

Section REAL3.
Context {d : nat} {D : Type}.
Notation mesh := (mesh (RO d) D).
Implicit Types inp out : mesh.

Lemma lin_cpt c inp x y z : valid inp -> In (x, y, z) (tris inp) ->
  lin c (cpt inp (x, y, z)) = (1 / 3 * (lin c (ptof inp x) + lin c (ptof inp y) + lin c (ptof inp z)))%R.
Proof.
  intros Hv Ht. destruct (centre_ok inp _ Hv Ht) as [Hc _].
  assert (Hpt : forall v, In v [x; y; z] -> elem_pt inp v = Ok (ptof inp v)).
  { intros v Hvv. pose proof (v_verts _ Hv _ v Ht Hvv) as H. unfold elem_pt, ptof. clear - H. revert H. cbv zeta. destruct (oget v (pts inp)); [reflexivity|]. intros H. exfalso. apply H. reflexivity. }
  unfold centre_point in Hc. rewrite !Hpt in Hc by (cbn; auto). cbn [rbind] in Hc. injection Hc as <-.
  assert (HL : forall v, length (ptof inp v) = d) by (intros v; apply ptof_length; exact Hv).
  assert (Hs : forall s p, lin c (@pscale (RO d) s p) = (s * lin c p)%R).
  { intros s p. revert c. induction p as [|u p IH]; intros c; cbn [pscale map lin]; [lra|].
    unfold pscale in IH. rewrite IH. cbn. lra. }
  assert (Ha : forall p q, length p = length q -> lin c (@padd (RO d) p q) = (lin c p + lin c q)%R).
  { intros p q H. unfold padd. cbn [kadd RO]. rewrite (map2_ext _ (fun x y => 1 * x + 1 * y)%R) by (intros; lra).
    rewrite lin_map2 by exact H. lra. }
  assert (Hal : forall p q, length p = d -> length q = d -> length (@padd (RO d) p q) = d).
  { intros p q H1 H2. unfold padd. apply map2_length; assumption. }
  assert (Hz : length (@pzero (RO d)) = d) by (unfold pzero; apply repeat_length).
  rewrite Hs, !Ha.
  - unfold pzero. cbn [kdim RO kZ kdiv]. rewrite lin_zero. lra.
  - transitivity d; [exact Hz|symmetry; apply HL].
  - transitivity d; [apply Hal; auto|symmetry; apply HL].
  - transitivity d; [apply Hal; auto|symmetry; apply HL].
Qed.
Lemma ptof_new f inp fuel f' out t g : valid inp -> dense inp -> ready3 f inp ->
  update (CellF CSqrt3) fuel f inp = Ok (f', out) -> In t (tris inp) -> cenm inp f t = Some g ->
  ptof out g = cpt inp t.
Proof.
  intros Hv Hd Hr E Ht Hg. pose proof (root3_run f inp fuel f' out Hv Hd Hr E) as RR.
  unfold ptof. rewrite (rr_new _ _ _ _ _ RR t g Ht Hg). reflexivity.
Qed.
Lemma ptof_old3 f inp fuel f' out id : valid inp -> dense inp -> ready3 f inp ->
  update (CellF CSqrt3) fuel f inp = Ok (f', out) -> oget id (pts inp) <> None -> ptof out id = ptof inp id.
Proof.
  intros Hv Hd Hr E Hid. pose proof (root3_run f inp fuel f' out Hv Hd Hr E) as RR.
  destruct (oget id (pts inp)) as [p|] eqn:Ep; [|congruence]. unfold ptof. rewrite Ep, (rr_old _ _ _ _ _ RR _ _ Ep). reflexivity.
Qed.
Lemma out_kind3 f inp fuel f' out id : valid inp -> dense inp -> ready3 f inp ->
  update (CellF CSqrt3) fuel f inp = Ok (f', out) -> oget id (pts out) <> None ->
  oget id (pts inp) <> None \/ exists t, In t (tris inp) /\ cenm inp f t = Some id.
Proof.
  intros Hv Hd Hr E Hid. pose proof (root3_run f inp fuel f' out Hv Hd Hr E) as RR.
  destruct (oget id (pts inp)) as [p|] eqn:Ep; [left; discriminate|right].
  apply (r3_new _ _ _ _ (rr_sub _ _ _ _ _ RR)). auto.
Qed.
Lemma ptof_out_length f inp fuel f' out id : valid inp -> dense inp -> ready3 f inp ->
  update (CellF CSqrt3) fuel f inp = Ok (f', out) -> oget id (pts out) <> None -> length (ptof out id) = d.
Proof.
  intros Hv Hd Hr E Hid. destruct (out_kind3 f inp fuel f' out id Hv Hd Hr E Hid) as [Ho|[t [Ht Hg]]].
  - rewrite (ptof_old3 f inp fuel f' out id Hv Hd Hr E Ho). apply ptof_length. exact Hv.
  - rewrite (ptof_new f inp fuel f' out t id Hv Hd Hr E Ht Hg). apply (centre_ok inp t Hv Ht).
Qed.
End REAL3.

Lemma C20_centroid_pf : forall (d : nat) (D : Type) f (inp : mesh (RO d) D) fuel f' out,
  valid inp -> dense inp -> ready3 f inp -> update (CellF CSqrt3) fuel f inp = Ok (f', out) ->
  exists cen, root3_subdivision inp out (selected inp (csel f)) cen /\
    (forall id i, oget id (pts inp) <> None -> crd out i id = crd inp i id) /\
    forall a b c g i, In (a, b, c) (tris inp) -> cen (a, b, c) = Some g ->
      crd out i g = ((crd inp i a + crd inp i b + crd inp i c) / 3)%R.
Proof.
  intros d D f inp fuel f' out Hv Hd Hr E. pose proof (root3_run f inp fuel f' out Hv Hd Hr E) as RR.
  exists (cenm inp f). split; [apply (rr_sub _ _ _ _ _ RR)|]. split.
  - intros id i Hid. unfold crd. rewrite (ptof_old3 f inp fuel f' out id Hv Hd Hr E Hid). reflexivity.
  - intros a b c g i Ht Hg. rewrite !crd_lin, (ptof_new f inp fuel f' out _ g Hv Hd Hr E Ht Hg), lin_cpt by assumption. lra.
Qed.

(** ** Connectivity without coordinates *)
Section CONN3.
Context {O1 O2 : Ops} {D1 D2 : Type}.
Variable m1 : mesh O1 D1.
Variable m2 : mesh O2 D2.
Hypothesis HS : same_connectivity m1 m2.

Lemma size3 : osize (pts m1) = osize (pts m2).
Proof.
  destruct HS as [H _]. unfold osize. rewrite <- (map_length fst (pts m1)), <- (map_length fst (pts m2)).
  unfold okeys in H. rewrite H. reflexivity.
Qed.
Lemma faces3 : faces m1 = faces m2.
Proof. unfold faces. destruct HS as [_ [_ [-> _]]]. reflexivity. Qed.
Lemma tris3 : tris m1 = tris m2.
Proof. unfold tris. rewrite faces3. reflexivity. Qed.
Lemma visited3 sel : visited m1 sel = visited m2 sel.
Proof. unfold visited, sel_tris. rewrite tris3, faces3. reflexivity. Qed.
Lemma cenm3 f t : cenm m1 f t = cenm m2 f t.
Proof. unfold cenm. rewrite size3, visited3. reflexivity. Qed.
Lemma plan3_same f : plan3 m1 f = plan3 m2 f.
Proof. unfold plan3, cenm. rewrite tris3, faces3, size3, visited3. reflexivity. Qed.
Lemma start3_same f : start3 m1 f = start3 m2 f.
Proof. unfold start3, st3. cbn [fst]. rewrite size3, visited3. reflexivity. Qed.
Lemma dense3 : dense m1 -> dense m2.
Proof.
  intros H id. destruct HS as [K _]. rewrite oget_Some_key, <- K, <- oget_Some_key, <- size3. apply H.
Qed.
Lemma ready3_same f : ready3 f m1 -> ready3 f m2.
Proof.
  intros [H1 [H2 H3]]. split; [|split; [exact H2|]].
  - unfold existing in *. rewrite <- faces3. exact H1.
  - pose proof size3 as Hz. unfold osize in Hz. unfold nV, nF in *. destruct HS as [_ [_ [Hc _]]]. rewrite <- Hc. lia.
Qed.
End CONN3.

Lemma erase_run_plan {O D} (inp : mesh O D) (inp0 : mesh U0 unit) : rings inp0 = rings inp -> cdata inp0 = None ->
  forall L st, run_plan inp0 L (erase_st st) = rmap erase_st (run_plan inp L st).
Proof.
  intros Hr Hc. induction L as [|x L IH]; intros st; [reflexivity|]. cbn [run_plan]. rewrite (erase_emit inp inp0 Hc).
  destruct (emit inp _ _ _ st) as [st'| | |]; cbn [rmap rbind]; [apply IH|reflexivity..].
Qed.

Lemma conn3 : forall (O1 O2 : Ops) (D1 D2 : Type) f (m1 : mesh O1 D1) (m2 : mesh O2 D2) n1 n2 f1' o1 f2' o2,
  valid m1 -> dense m1 -> ready3 f m1 -> valid m2 -> same_connectivity m1 m2 ->
  update (CellF CSqrt3) n1 f m1 = Ok (f1', o1) -> update (CellF CSqrt3) n2 f m2 = Ok (f2', o2) ->
  same_connectivity o1 o2 /\ csel f1' = csel f2'.
Proof.
  intros O1 O2 D1 D2 f m1 m2 n1 n2 f1' o1 f2' o2 Hv1 Hd1 Hr1 Hv2 HS E1 E2.
  pose proof (dense3 _ _ HS Hd1) as Hd2. pose proof (ready3_same _ _ HS f Hr1) as Hr2.
  pose proof (update3_inv _ _ _ _ _ Hv1 Hd1 Hr1 E1) as R1. pose proof (update3_inv _ _ _ _ _ Hv2 Hd2 Hr2 E2) as R2.
  split; [|rewrite (q_csel _ _ _ _ R1), (q_csel _ _ _ _ R2), (plan3_same _ _ HS); reflexivity].
  destruct (q_run _ _ _ _ R1) as [g1 X1]. destruct (q_run _ _ _ _ R2) as [g2 X2].
  assert (HK : okeys (pts o1) = okeys (pts o2)).
  { rewrite (q_pts _ _ _ _ R1), (q_pts _ _ _ _ R2), !okeys_app, <- (size3 _ _ HS), <- (visited3 _ _ HS).
    f_equal; [apply HS|]. generalize (osize (pts m1)). induction (visited m1 (csel f)) as [|t L IH]; intros v; [reflexivity|].
    cbn [map]. rewrite !idx_from_cons. unfold okeys in *. cbn [map fst]. f_equal. apply IH. }
  assert (Hst : erase_st (O := O1) (D := D1) (start3 m1 f, set_pts empty_mesh (pts o1)) = erase_st (O := O2) (D := D2) (start3 m2 f, set_pts empty_mesh (pts o2))).
  { unfold erase_st. cbn [fst snd]. rewrite (start3_same _ _ HS). f_equal. apply erase_eq; try reflexivity. exact HK. }
  pose proof (erase_run_plan m1 (erase m1) eq_refl eq_refl (plan3 m1 f) (start3 m1 f, set_pts empty_mesh (pts o1))) as L1.
  pose proof (erase_run_plan m2 (erase m1) ltac:(apply HS) eq_refl (plan3 m2 f) (start3 m2 f, set_pts empty_mesh (pts o2))) as L2.
  rewrite X1, Hst, (plan3_same _ _ HS) in L1. rewrite X2, L1 in L2. cbn [rmap rbind erase_st fst snd] in L2.
  assert (Heq : erase o1 = erase o2) by exact (f_equal (fun r => match r with Ok x => snd x | _ => erase o2 end) L2). apply erase_eq_inv in Heq. exact Heq.
Qed.

Lemma C48_sqrt3_pf : forall (O1 O2 : Ops) (D1 D2 : Type) f (m1 : mesh O1 D1) (m2 : mesh O2 D2) n1 n2 f1' o1 f2' o2,
  valid m1 -> dense m1 -> ready3 f m1 -> valid m2 -> same_connectivity m1 m2 ->
  update (CellF CSqrt3) n1 f m1 = Ok (f1', o1) -> update (CellF CSqrt3) n2 f m2 = Ok (f2', o2) ->
  same_connectivity o1 o2 /\ csel f1' = csel f2'.
Proof. exact conn3. Qed.

Lemma C21_sqrt3_pf : forall (d1 d2 : nat) (D1 D2 : Type) f (m1 : mesh (RO d1) D1) (m2 : mesh (RO d2) D2) M t n1 n2 f1 o1 f2 o2,
  valid m1 -> dense m1 -> ready3 f m1 -> valid m2 -> same_connectivity m1 m2 -> affine_image M t m1 m2 ->
  update (CellF CSqrt3) n1 f m1 = Ok (f1, o1) -> update (CellF CSqrt3) n2 f m2 = Ok (f2, o2) ->
  same_connectivity o1 o2 /\ affine_image M t o1 o2.
Proof.
  intros d1 d2 D1 D2 f m1 m2 M t n1 n2 f1 o1 f2 o2 Hv1 Hd1 Hr1 Hv2 HS HA E1 E2.
  pose proof (dense3 _ _ HS Hd1) as Hd2. pose proof (ready3_same _ _ HS f Hr1) as Hr2.
  destruct (conn3 _ _ _ _ f m1 m2 n1 n2 f1 o1 f2 o2) as [HC _]; auto. split; [exact HC|].
  intros id j Hid Hj. destruct (out_kind3 f m1 n1 f1 o1 id Hv1 Hd1 Hr1 E1 Hid) as [Ho|[u [Hu Hg]]].
  - assert (Ho2 : oget id (pts m2) <> None).
    { rewrite oget_Some_key. destruct HS as [<- _]. rewrite <- oget_Some_key. exact Ho. }
    unfold crd at 1. rewrite (ptof_old3 f m2 n2 f2 o2 id Hv2 Hd2 Hr2 E2 Ho2). change (nth j (ptof m2 id) 0%R) with (crd m2 j id).
    rewrite (HA id j Ho Hj). f_equal. unfold crd. rewrite (ptof_old3 f m1 n1 f1 o1 id Hv1 Hd1 Hr1 E1 Ho). reflexivity.
  - assert (Hu2 : In u (tris m2)) by (rewrite <- (tris3 _ _ HS); exact Hu).
    assert (Hg2 : cenm m2 f u = Some id) by (rewrite <- (cenm3 _ _ HS); exact Hg).
    rewrite crd_lin, (ptof_new f m2 n2 f2 o2 u id Hv2 Hd2 Hr2 E2 Hu2 Hg2).
    assert (Hr : rsum (fun i => M j i * crd o1 i id)%R (seq 0 d1) = lin (M j) (ptof o1 id)).
    { rewrite lin_rsum, (ptof_out_length f m1 n1 f1 o1 id Hv1 Hd1 Hr1 E1 Hid). reflexivity. }
    rewrite Hr, (ptof_new f m1 n1 f1 o1 u id Hv1 Hd1 Hr1 E1 Hu Hg). destruct u as [[x y] z].
    rewrite !lin_cpt by assumption. rewrite <- !crd_lin.
    assert (Hx : forall v, In v [x; y; z] -> crd m2 j v = (t j + lin (M j) (ptof m1 v))%R).
    { intros v Hvv. rewrite (HA v j (v_verts _ Hv1 _ v Hu Hvv) Hj), lin_rsum, (ptof_length m1 v Hv1). reflexivity. }
    rewrite !Hx by (cbn; auto). lra.
Qed.

Lemma C22_sqrt3_pf : forall (d : nat) (D : Type) f (inp : mesh (RO d) D) fuel f' out c h,
  valid inp -> dense inp -> ready3 f inp -> in_halfspace c h inp ->
  update (CellF CSqrt3) fuel f inp = Ok (f', out) -> in_halfspace c h out.
Proof.
  intros d D f inp fuel f' out c h Hv Hd Hr Hh E id Hid.
  assert (Hl : rsum (fun i => c i * crd out i id)%R (seq 0 d) = lin c (ptof out id)).
  { rewrite lin_rsum, (ptof_out_length f inp fuel f' out id Hv Hd Hr E Hid). reflexivity. }
  rewrite Hl.
  assert (Hin : forall v, oget v (pts inp) <> None -> (lin c (ptof inp v) <= h)%R).
  { intros v Hvv. rewrite lin_rsum, (ptof_length inp v Hv). apply Hh. exact Hvv. }
  destruct (out_kind3 f inp fuel f' out id Hv Hd Hr E Hid) as [Ho|[u [Hu Hg]]].
  - rewrite (ptof_old3 f inp fuel f' out id Hv Hd Hr E Ho). auto.
  - rewrite (ptof_new f inp fuel f' out u id Hv Hd Hr E Hu Hg). destruct u as [[x y] z]. rewrite lin_cpt by assumption.
    pose proof (Hin x (v_verts _ Hv _ x Hu ltac:(cbn; auto))). pose proof (Hin y (v_verts _ Hv _ y Hu ltac:(cbn; auto))).
    pose proof (Hin z (v_verts _ Hv _ z Hu ltac:(cbn; auto))). lra.
Qed.

(** ** Structure *)
Section STRUCT3.
Context {O : Ops} {D : Type}.
Notation mesh := (mesh O D).
Implicit Types inp out : mesh.

Lemma border_nB inp out : (forall a b, border_dir out a b <-> border_dir inp a b) ->
  NoDup (dirs (tris inp)) -> NoDup (dirs (tris out)) -> nB out = nB inp.
Proof.
  intros H N1 N2. rewrite !nB_bordb. f_equal. apply Permutation_length. apply NoDup_Permutation.
  - apply NoDup_filter. exact N2.
  - apply NoDup_filter. exact N1.
  - intros [a b]. rewrite !filter_In, !bordb_true. exact (H a b).
Qed.
Lemma euler3 inp out n : valid inp -> valid out -> no_wire inp -> no_wire out ->
  (nV out = nV inp + n)%Z -> (nF out = nF inp + 2 * n)%Z -> nB out = nB inp -> euler out = euler inp.
Proof.
  intros Hv Hvo Hw Hwo H1 H2 H3. pose proof (edge_count inp Hv Hw). pose proof (edge_count out Hvo Hwo). unfold euler. lia.
Qed.
Lemma dir_face_unique inp t u e : valid inp -> In t (tris inp) -> In u (tris inp) -> In e (tdirs t) -> In e (tdirs u) -> t = u.
Proof.
  intros Hv Ht Hu H1 H2. apply In_nth_error in Ht. apply In_nth_error in Hu.
  destruct Ht as [i Ht], Hu as [j Hu].
  assert (i = j) by (eapply NoDup_dirs_index; eauto; apply (v_dirs _ Hv)). congruence.
Qed.
Lemma corner_stays inp out S cen t x : valid inp -> root3_subdivision inp out S cen -> In t (tris inp) -> In x (tverts t) ->
  exists w, In w (tris out) /\ In x (tverts w).
Proof.
  intros Hv Hs Ht Hx. destruct (cen t) as [g|] eqn:Eg.
  - assert (He : exists a, In (a, x) (tdirs t)).
    { destruct t as [[a b] c]. cbn in Hx |- *. destruct Hx as [<-|[<-|[<-|[]]]]; eauto. }
    destruct He as [a He].
    destruct (in_dec dedge_dec (x, a) (dirs (tris inp))) as [Hd|Hd].
    + apply in_flat_map in Hd. destruct Hd as [u [Hu Hd]]. destruct (cen u) as [h|] eqn:Eh.
      * exists (g, h, x). split; [|cbn; auto]. apply (r3_faces _ _ _ _ Hs). exists t. split; [exact Ht|]. right. right.
        exists g, h, a, x. repeat split; auto. exists u. auto.
      * exists (a, x, g). split; [|cbn; auto]. apply (r3_faces _ _ _ _ Hs). exists t. split; [exact Ht|]. right. left.
        exists g, a, x. repeat split; auto. intros h [u' [Hu' [Hd' Hh]]].
        assert (u' = u); [|congruence]. exact (dir_face_unique inp u' u _ Hv Hu' Hu Hd' Hd).
    + exists (a, x, g). split; [|cbn; auto]. apply (r3_faces _ _ _ _ Hs). exists t. split; [exact Ht|]. right. left.
      exists g, a, x. repeat split; auto. intros h [u' [Hu' [Hd' Hh]]]. apply Hd. apply in_flat_map. eauto.
  - exists t. split; [|exact Hx]. apply (r3_faces _ _ _ _ Hs). exists t. split; [exact Ht|]. left. split; auto.
Qed.
Lemma new_used inp out S cen t g : root3_subdivision inp out S cen -> valid inp -> In t (tris inp) -> cen t = Some g ->
  exists w, In w (tris out) /\ In g (tverts w).
Proof.
  intros Hs Hv Ht Hg. destruct t as [[a b] c]. assert (He : In (a, b) (tdirs (a, b, c))) by (cbn; auto).
  destruct (in_dec dedge_dec (b, a) (dirs (tris inp))) as [Hd|Hd].
  - apply in_flat_map in Hd. destruct Hd as [u [Hu Hd]]. destruct (cen u) as [h|] eqn:Eh.
    + exists (g, h, b). split; [|cbn; auto]. apply (r3_faces _ _ _ _ Hs). exists (a, b, c). split; [exact Ht|]. right. right.
      exists g, h, a, b. repeat split; auto. exists u. auto.
    + exists (a, b, g). split; [|cbn; auto]. apply (r3_faces _ _ _ _ Hs). exists (a, b, c). split; [exact Ht|]. right. left.
      exists g, a, b. repeat split; auto. intros h [u' [Hu' [Hd' Hh]]].
      assert (u' = u); [|congruence]. exact (dir_face_unique inp u' u _ Hv Hu' Hu Hd' Hd).
  - exists (a, b, g). split; [|cbn; auto]. apply (r3_faces _ _ _ _ Hs). exists (a, b, c). split; [exact Ht|]. right. left.
    exists g, a, b. repeat split; auto. intros h [u' [Hu' [Hd' Hh]]]. apply Hd. apply in_flat_map. eauto.
Qed.
Lemma no_isolated3 inp out S cen : valid inp -> valid out -> root3_subdivision inp out S cen -> no_wire inp -> no_isolated inp -> no_isolated out.
Proof.
  intros Hv Hvo Hs Hw Hi id Hid.
  assert (Hf : exists w, In w (tris out) /\ In id (tverts w)).
  { destruct (oget id (pts inp)) as [p|] eqn:Ep.
    - assert (Hr : ring inp id <> []) by (apply Hi; congruence). destruct (ring inp id) as [|y r] eqn:Er; [congruence|].
      assert (Hj : joined inp id y) by (unfold joined; rewrite Er; cbn; auto).
      assert (Ht : exists t, In t (tris inp) /\ In id (tverts t)).
      { destruct (Hw _ _ Hj) as [H|H]; apply in_flat_map in H; destruct H as [t [Ht H]]; exists t; (split; [exact Ht|]);
        apply tdirs_verts in H; tauto. }
      destruct Ht as [t [Ht Hx]]. exact (corner_stays inp out S cen t id Hv Hs Ht Hx).
    - destruct (proj2 (r3_new _ _ _ _ Hs id) (conj Ep Hid)) as [t [Ht Hg]]. exact (new_used inp out S cen t id Hs Hv Ht Hg). }
  destruct Hf as [[[a b] c] [Hw' Hx]]. cbn in Hx.
  assert (Hj : exists y, joined out id y).
  { destruct Hx as [<-|[<-|[<-|[]]]]; eexists; apply (v_face_edges _ Hvo); apply in_flat_map; eexists; (split; [exact Hw'|]); cbn; eauto. }
  destruct Hj as [y Hj]. intros E. unfold joined in Hj. rewrite E in Hj. destruct Hj.
Qed.
End STRUCT3.

Section PROPS3.
Context {O : Ops} {D : Type}.
Notation mesh := (mesh O D).
Implicit Types inp out : mesh.

Lemma completes3 f inp : valid inp -> dense inp -> ready3 f inp ->
  exists f' out, completes (fun fuel => update (CellF CSqrt3) fuel f inp) (Ok (f', out)) /\ root3_result f inp f' out (cenm inp f).
Proof.
  intros Hv Hd Hr. destruct (root3_completes f inp Hv Hd Hr) as [f' [out [E RR]]]. exists f', out. split; [|exact RR].
  split; [discriminate|]. exists (S (length (tris inp))). intros fuel Hf. apply E. lia.
Qed.
Lemma tris_out3 f inp f' out cen : valid inp -> root3_result f inp f' out cen -> tris inp <> [] -> tris out <> [].
Proof.
  intros Hv RR Hne E. destruct (tris inp) as [|t T] eqn:ET; [congruence|].
  assert (Ht : In t (tris inp)) by (rewrite ET; cbn; auto). destruct t as [[a b] c].
  destruct (corner_stays inp out _ cen (a, b, c) a Hv (rr_sub _ _ _ _ _ RR) Ht ltac:(cbn; auto)) as [w [Hw _]].
  rewrite E in Hw. destruct Hw.
Qed.
Lemma dirs_out3 f inp f' out cen : valid inp -> root3_result f inp f' out cen -> NoDup (dirs (tris out)).
Proof.
  intros Hv RR. destruct (tris inp) as [|t T] eqn:ET.
  - assert (tris out = []) as ->; [|constructor]. destruct (tris out) as [|w W] eqn:EW; [reflexivity|].
    destruct (proj1 (r3_faces _ _ _ _ (rr_sub _ _ _ _ _ RR) w)) as [t [Ht _]]; [rewrite EW; cbn; auto|].
    rewrite ET in Ht. destruct Ht.
  - apply v_dirs. apply (rr_valid _ _ _ _ _ RR). rewrite ET. discriminate.
Qed.
Lemma nB3 f inp f' out cen : valid inp -> root3_result f inp f' out cen -> nB out = nB inp.
Proof.
  intros Hv RR. apply border_nB; [apply (rr_border _ _ _ _ _ RR)|apply (v_dirs _ Hv)|eapply dirs_out3; eauto].
Qed.
Lemma closed_border (m1 m2 : mesh) : (forall a b, border_dir m2 a b <-> border_dir m1 a b) -> closed m1 -> closed m2.
Proof.
  intros H Hc a b Hab. destruct (in_dec dedge_dec (b, a) (dirs (tris m2))) as [Hi|Hi]; [exact Hi|exfalso].
  destruct (proj1 (H a b) (conj Hab Hi)) as [H1 H2]. apply H2. apply Hc. exact H1.
Qed.
(** Every oriented face edge of a subdivided face is centred. *)
Lemma centred_all inp out (S : tri -> Prop) cen a b : root3_subdivision inp out S cen -> (forall t, In t (tris inp) -> S t) ->
  In (a, b) (dirs (tris inp)) -> exists g, centred inp cen a b g.
Proof.
  intros Hs Hall Hab. apply in_flat_map in Hab. destruct Hab as [t [Ht Hab]].
  destruct (cen t) as [g|] eqn:Eg; [exists g, t; auto|]. exfalso. apply (r3_dom _ _ _ _ Hs t Ht); [apply Hall; exact Ht|exact Eg].
Qed.

(** *** Valences *)
Lemma centre_corner inp out S cen t g x : valid inp -> valid out -> root3_subdivision inp out S cen ->
  In t (tris inp) -> cen t = Some g -> In x (tverts t) -> joined out x g.
Proof.
  intros Hv Hvo Hs Ht Hg Hx.
  assert (He : exists a, In (a, x) (tdirs t)).
  { destruct t as [[a b] c]. cbn in Hx |- *. destruct Hx as [<-|[<-|[<-|[]]]]; eauto. }
  destruct He as [a He].
  assert (Hw : In (a, x, g) (tris out) \/ exists h, In (g, h, x) (tris out)).
  { destruct (in_dec dedge_dec (x, a) (dirs (tris inp))) as [Hd|Hd].
    - apply in_flat_map in Hd. destruct Hd as [u [Hu Hd]]. destruct (cen u) as [h|] eqn:Eh.
      + right. exists h. apply (r3_faces _ _ _ _ Hs). exists t. split; [exact Ht|]. right. right.
        exists g, h, a, x. repeat split; auto. exists u. auto.
      + left. apply (r3_faces _ _ _ _ Hs). exists t. split; [exact Ht|]. right. left.
        exists g, a, x. repeat split; auto. intros h [u' [Hu' [Hd' Hh]]].
        assert (u' = u); [|congruence]. exact (dir_face_unique inp u' u _ Hv Hu' Hu Hd' Hd).
    - left. apply (r3_faces _ _ _ _ Hs). exists t. split; [exact Ht|]. right. left.
      exists g, a, x. repeat split; auto. intros h [u' [Hu' [Hd' Hh]]]. apply Hd. apply in_flat_map. eauto. }
  apply (v_face_edges _ Hvo). apply in_flat_map. destruct Hw as [Hw|[h Hw]]; eexists; (split; [exact Hw|]); cbn; auto.
Qed.

Lemma valence3 f inp fuel f' out : valid inp -> dense inp -> ready3 f inp -> tris inp <> [] ->
  update (CellF CSqrt3) fuel f inp = Ok (f', out) ->
  let cen := cenm inp f in
  (forall v y, oget v (pts inp) <> None -> joined out v y <->
     (exists t, In t (tris inp) /\ In v (tverts t) /\ cen t = Some y) \/
     ((In (v, y) (dirs (tris inp)) \/ In (y, v) (dirs (tris inp))) /\
      ((forall h, ~ centred inp cen v y h) \/ (forall h, ~ centred inp cen y v h)))) /\
  (forall t g y, In t (tris inp) -> cen t = Some g ->
     joined out g y <-> In y (tverts t) \/ exists a b, In (a, b) (tdirs t) /\ centred inp cen b a y).
Proof.
  intros Hv Hd Hr Hne E cen. pose proof (root3_run f inp fuel f' out Hv Hd Hr E) as RR. fold cen in RR.
  pose proof (update3_inv f inp fuel f' out Hv Hd Hr E) as HR.
  destruct Hr as [_ [Hs _]]. pose proof (cenm_centring inp f Hv Hd Hs) as HC.
  destruct (rr_valid _ _ _ _ _ RR Hne) as [Hvo _].
  assert (HJ : forall a b, joined out a b <-> nbr (root3 (tris inp) cen) a b).
  { intros a b. rewrite (out_joined f inp f' out HR a b). unfold nbr. rewrite !(out_dirs f inp f' out Hv Hd Hs HR). reflexivity. }
  assert (HCe : forall a b h, centred inp cen a b h <-> cenE (tris inp) cen (a, b) = Some h)
    by (intros; apply (centred_cenE f inp Hv Hd Hs)).
  assert (HCn : forall a b, (forall h, ~ centred inp cen a b h) <-> cenE (tris inp) cen (a, b) = None)
    by (intros; apply (centred_None f inp Hv Hd Hs)).
  split.
  - intros v y Hov. apply Hd in Hov. split.
    + intros H. apply HJ in H. apply (root3_nbr_old _ _ _ HC) in H; [|exact Hov].
      destruct H as [[_ [Hn Hc]]|[t [p [n [Ht [Hg Hc]]]]]].
      * right. split; [exact Hn|]. rewrite !HCn. exact Hc.
      * left. exists t. split; [exact Ht|]. split; [|exact Hg]. apply (tcorners_verts3 _ _ _ _ Hc). cbn. auto.
    + intros [[t [Ht [Hx Hg]]]|[Hn Hc]].
      * apply (centre_corner inp out _ cen t y v Hv Hvo (rr_sub _ _ _ _ _ RR) Ht Hg Hx).
      * destruct Hn as [Hn|Hn].
        -- apply (rr_gone _ _ _ _ _ RR v y Hn). exact Hc.
        -- apply (v_ring_sym _ Hvo). apply (rr_gone _ _ _ _ _ RR y v Hn). tauto.
  - intros t g y Ht Hg. split.
    + intros H. apply HJ in H. apply (root3_nbr_new _ _ _ HC t g y Ht Hg) in H.
      destruct H as [H|[a [b [H Hc]]]]; [auto|]. right. exists a, b. split; [exact H|]. apply HCe. exact Hc.
    + intros [H|[a [b [H Hc]]]].
      * apply (v_ring_sym _ Hvo). apply (centre_corner inp out _ cen t g y Hv Hvo (rr_sub _ _ _ _ _ RR) Ht Hg H).
      * apply (rr_join _ _ _ _ _ RR a b); [exists t; auto|exact Hc].
Qed.
End PROPS3.

Lemma C42_uniform_pf : forall (O : Ops) (D : Type) f (inp : mesh O D),
  valid inp -> dense inp -> csel f = [] -> (nV inp + nF inp < 2 ^ 64)%Z ->
  exists f' out cen, completes (fun fuel => update (CellF CSqrt3) fuel f inp) (Ok (f', out)) /\
    root3_subdivision inp out (fun t => In t (tris inp)) cen /\
    nF out = (3 * nF inp)%Z /\ nV out = (nV inp + nF inp)%Z /\
    (tris inp <> [] -> valid out /\ dense out) /\
    (forall a b, In (a, b) (dirs (tris inp)) -> In (b, a) (dirs (tris inp)) ->
       ~ joined out a b /\ exists g h, centred inp cen a b g /\ centred inp cen b a h /\ joined out g h) /\
    (forall a b, border_dir out a b <-> border_dir inp a b).
Proof.
  intros O D f inp Hv Hd Hc Hfit.
  assert (Hr : ready3 f inp) by (split; [rewrite Hc; intros i []|split; [rewrite Hc; constructor|exact Hfit]]).
  destruct (completes3 f inp Hv Hd Hr) as [f' [out [E RR]]]. exists f', out, (cenm inp f). split; [exact E|].
  assert (Hs : root3_subdivision inp out (fun t => In t (tris inp)) (cenm inp f)).
  { destruct (rr_sub _ _ _ _ _ RR) as [S1 S2 S3 S4 S5 S6 S7]. constructor; try assumption.
    intros t Ht. rewrite (S1 t Ht). unfold selected. rewrite Hc. split; [auto|]. intros _. left. auto. }
  split; [exact Hs|]. pose proof (ksel_all inp f Hc Hv) as Hk.
  split; [rewrite (rr_nF _ _ _ _ _ RR); lia|]. split; [rewrite (rr_nV _ _ _ _ _ RR); lia|].
  split; [apply (rr_valid _ _ _ _ _ RR)|]. split; [|apply (rr_border _ _ _ _ _ RR)].
  intros a b Hab Hba.
  destruct (centred_all inp out _ _ a b Hs (fun t H => H) Hab) as [g Hg].
  destruct (centred_all inp out _ _ b a Hs (fun t H => H) Hba) as [h Hh]. split.
  - intros Hj. apply (rr_gone _ _ _ _ _ RR a b Hab) in Hj. destruct Hj as [Hj|Hj]; [apply (Hj g Hg)|apply (Hj h Hh)].
  - exists g, h. split; [exact Hg|]. split; [exact Hh|]. apply (rr_join _ _ _ _ _ RR a b g h Hg Hh).
Qed.

Lemma C53_adaptive_pf : forall (O : Ops) (D : Type) f (inp : mesh O D),
  valid inp -> dense inp -> ready3 f inp -> csel f <> [] ->
  exists f' out cen, completes (fun fuel => update (CellF CSqrt3) fuel f inp) (Ok (f', out)) /\
    root3_subdivision inp out (selected inp (csel f)) cen /\
    nF out = (nF inp + 2 * Z.of_nat (length (csel f)))%Z /\ nV out = (nV inp + Z.of_nat (length (csel f)))%Z /\
    valid out /\ dense out /\
    (forall a b, In (a, b) (dirs (tris inp)) ->
       (joined out a b <-> (forall h, ~ centred inp cen a b h) \/ (forall h, ~ centred inp cen b a h))) /\
    (forall a b g h, centred inp cen a b g -> centred inp cen b a h -> joined out g h) /\
    (forall t, In t (tris inp) -> ~ selected inp (csel f) t -> In t (tris out)).
Proof.
  intros O D f inp Hv Hd Hr Hc. destruct (completes3 f inp Hv Hd Hr) as [f' [out [E RR]]].
  exists f', out, (cenm inp f). split; [exact E|]. pose proof (rr_sub _ _ _ _ _ RR) as Hs. split; [exact Hs|].
  pose proof (ksel_sel inp f Hc Hv (proj1 Hr)) as Hk. split; [rewrite (rr_nF _ _ _ _ _ RR); lia|].
  split; [rewrite (rr_nV _ _ _ _ _ RR); lia|].
  assert (Hne : tris inp <> []).
  { destruct Hr as [He _]. destruct (csel f) as [|i l]; [congruence|]. destruct (He i ltac:(cbn; auto)) as [t Ht].
    apply (in_map snd) in Ht. unfold tris. intros En. rewrite En in Ht. destruct Ht. }
  destruct (rr_valid _ _ _ _ _ RR Hne) as [V1 V2]. split; [exact V1|]. split; [exact V2|].
  split; [apply (rr_gone _ _ _ _ _ RR)|]. split; [apply (rr_join _ _ _ _ _ RR)|].
  intros t Ht Hn. apply (r3_faces _ _ _ _ Hs). exists t. split; [exact Ht|]. left. split; [|reflexivity].
  destruct (cenm inp f t) eqn:Eg; [|reflexivity]. exfalso. apply Hn. apply (r3_dom _ _ _ _ Hs t Ht). congruence.
Qed.

Lemma C54_reported_pf : forall (O : Ops) (D : Type) f (inp : mesh O D) fuel f' out,
  valid inp -> dense inp -> ready3 f inp -> update (CellF CSqrt3) fuel f inp = Ok (f', out) ->
  StronglySorted N.lt (csel f') /\
  forall id, In id (csel f') <-> csel f <> [] /\ exists w, In (id, w) (faces out) /\ has_new inp w.
Proof.
  intros O D f inp fuel f' out Hv Hd Hr E. pose proof (root3_run f inp fuel f' out Hv Hd Hr E) as RR.
  split; [apply (rr_sorted _ _ _ _ _ RR)|apply (rr_csel _ _ _ _ _ RR)].
Qed.

Lemma C55_cell_data_pf : forall (O : Ops) (D : Type) f (inp : mesh O D) fuel f' out,
  valid inp -> dense inp -> ready3 f inp -> update (CellF CSqrt3) fuel f inp = Ok (f', out) ->
  exists cen, root3_subdivision inp out (selected inp (csel f)) cen /\
    (forall id w, In (id, w) (faces out) -> exists pid, source3 inp cen pid w) /\
    (forall id w pid, In (id, w) (faces out) -> source3 inp cen pid w -> cell_datum out id = cell_datum inp pid) /\
    (forall id, cell_datum out id <> None -> exists w, In (id, w) (faces out)).
Proof.
  intros O D f inp fuel f' out Hv Hd Hr E. pose proof (root3_run f inp fuel f' out Hv Hd Hr E) as RR.
  exists (cenm inp f). split; [apply (rr_sub _ _ _ _ _ RR)|]. split; [apply (rr_source _ _ _ _ _ RR)|].
  split; [apply (rr_data _ _ _ _ _ RR)|apply (rr_data_only _ _ _ _ _ RR)].
Qed.

Lemma C56_border_euler_pf : forall (O : Ops) (D : Type) f (inp : mesh O D) fuel f' out,
  valid inp -> dense inp -> ready3 f inp -> update (CellF CSqrt3) fuel f inp = Ok (f', out) ->
  (forall a b, border_dir out a b <-> border_dir inp a b) /\ nB out = nB inp /\ (closed inp <-> closed out) /\
  (tris inp <> [] -> no_wire inp -> euler out = euler inp).
Proof.
  intros O D f inp fuel f' out Hv Hd Hr E. pose proof (root3_run f inp fuel f' out Hv Hd Hr E) as RR.
  pose proof (rr_border _ _ _ _ _ RR) as HB. split; [exact HB|].
  pose proof (nB3 _ _ _ _ _ Hv RR) as Hn. split; [exact Hn|]. split.
  - split; apply closed_border; [exact HB|intros a b; symmetry; apply HB].
  - intros Hne Hw. destruct (rr_valid _ _ _ _ _ RR Hne) as [Hvo _].
    eapply (euler3 inp out); eauto; [apply (r3_nowire _ _ _ _ (rr_sub _ _ _ _ _ RR))|apply (rr_nV _ _ _ _ _ RR)|apply (rr_nF _ _ _ _ _ RR)].
Qed.

Lemma C57_chains_pf : forall (O : Ops) (D : Type) (inp : mesh O D) n out,
  valid inp -> dense inp -> tris inp <> [] -> chained_any inp n out ->
  valid out /\ dense out /\ tris out <> [] /\
  (closed inp -> closed out) /\
  (no_wire inp -> no_wire out /\ euler out = euler inp /\ (no_isolated inp -> no_isolated out)) /\
  forall k f, ready_any k f out -> exists f' out', completes (fun fuel => update k fuel f out) (Ok (f', out')).
Proof.
  intros O D inp n out Hv Hd Hne H.
  assert (Hall : valid out /\ dense out /\ tris out <> [] /\ (closed inp -> closed out) /\
    (no_wire inp -> no_wire out /\ euler out = euler inp /\ (no_isolated inp -> no_isolated out))).
  { induction H as [|n m k f fuel f' out Hch IH Hr E]; [tauto|].
    destruct IH as [IH1 [IH2 [IH3 [IHc IH4]]]].
    assert (Hst : valid out /\ dense out /\ tris out <> [] /\ no_wire out /\ (closed m -> closed out) /\
             (no_wire m -> euler out = euler m /\ (no_isolated m -> no_isolated out))).
    { assert (Hface : ready k f m -> valid out /\ dense out /\ tris out <> [] /\ no_wire out /\ (closed m -> closed out) /\
             (no_wire m -> euler out = euler m /\ (no_isolated m -> no_isolated out))).
      { intros Hr'. destruct (C08_output_valid_pf O D k f m fuel f' out IH1 IH2 Hr' IH3 E) as [H1 [H2 [H3 [H4 H5]]]].
        destruct (C06_borders_pf O D k f m fuel f' out IH1 IH2 Hr' IH3 E) as [_ [_ [_ [_ [[Hc _] _]]]]].
        repeat (split; [assumption|]). intros Hw. split; [|auto]. eapply C07_euler_pf; eauto. }
      destruct k as [[]|s]; try (apply Hface; exact Hr). cbn in Hr.
      pose proof (root3_run f m fuel f' out IH1 IH2 Hr E) as RR. destruct (rr_valid _ _ _ _ _ RR IH3) as [V1 V2].
      pose proof (r3_nowire _ _ _ _ (rr_sub _ _ _ _ _ RR)) as Hwo.
      destruct (C56_border_euler_pf O D f m fuel f' out IH1 IH2 Hr E) as [_ [_ [Hcl He]]].
      split; [exact V1|]. split; [exact V2|]. split; [exact (tris_out3 _ _ _ _ _ IH1 RR IH3)|]. split; [exact Hwo|]. split; [apply Hcl|].
      intros Hw. split; [auto|]. intros Hi. exact (no_isolated3 m out _ _ IH1 V1 (rr_sub _ _ _ _ _ RR) Hw Hi). }
    destruct Hst as [S1 [S2 [S3 [S4 [S5 S6]]]]]. repeat (split; [assumption|]). split; [auto|].
    intros Hw. destruct (IH4 Hw) as [W1 [W2 W3]]. destruct (S6 W1) as [Y1 Y2].
    split; [exact S4|]. split; [congruence|auto]. }
  destruct Hall as [H1 [H2 [H3 [H4 H5]]]]. repeat (split; [assumption|]).
  intros k f Hr. destruct k as [[]|s]; try (apply face_completes; assumption). cbn in Hr.
  destruct (completes3 f out H1 H2 Hr) as [f' [out' [Ec _]]]. eauto.
Qed.

Lemma sorted_nodup3 (l : list N) : StronglySorted N.lt l -> NoDup l.
Proof.
  induction 1 as [|x l Hs IH Hf]; constructor; [|exact IH]. intros Hx. rewrite Forall_forall in Hf. specialize (Hf x Hx). lia.
Qed.

Lemma level_result sel (O : Ops) (D : Type) (inp : mesh O D) : valid inp -> dense inp -> sel <> [] -> NoDup sel -> existing inp sel ->
  (nV inp + nF inp < 2 ^ 64)%Z -> exists fuel f m, update (CellF CSqrt3) fuel (fresh sel) inp = Ok (f, m) /\
    valid m /\ dense m /\ level3 sel inp (csel f) m /\ csel f <> [] /\ existing m (csel f) /\
    (nV m <= nV inp + nF inp)%Z /\ (nF m <= 3 * nF inp)%Z.
Proof.
  intros Hv Hd Hne Hn He Hfit. assert (Hr : ready3 (fresh sel) inp) by (repeat split; assumption).
  destruct (completes3 (fresh sel) inp Hv Hd Hr) as [f [m [[_ [q Hq]] RR]]]. specialize (Hq q (le_n q)). cbv beta in Hq.
  exists q, f, m. split; [exact Hq|].
  assert (Hnt : tris inp <> []).
  { destruct sel as [|i l]; [congruence|]. destruct (He i ltac:(cbn; auto)) as [t Ht].
    apply (in_map snd) in Ht. unfold tris. intros En. rewrite En in Ht. destruct Ht. }
  destruct (rr_valid _ _ _ _ _ RR Hnt) as [V1 V2]. split; [exact V1|]. split; [exact V2|].
  pose proof (rr_sub _ _ _ _ _ RR) as Hs. pose proof (rr_csel _ _ _ _ _ RR) as Hc. cbn [csel fresh set_cells_to_be_subdivided] in Hc, Hs.
  split; [|split; [|split]].
  - exists (cenm inp (fresh sel)). split; [|split].
    + destruct Hs as [S1 S2 S3 S4 S5 S6 S7]. constructor; try assumption.
      intros t Ht. rewrite (S1 t Ht). unfold selected. cbn. split; [|auto]. intros [[E _]|H]; [congruence|exact H].
    + apply (rr_sorted _ _ _ _ _ RR).
    + intros id. rewrite Hc. tauto.
  - assert (Hsel : exists t, In t (tris inp) /\ selected inp sel t).
    { destruct sel as [|i l]; [congruence|]. destruct (He i ltac:(cbn; auto)) as [t Ht]. exists t. split.
      - apply (in_map snd) in Ht. exact Ht.
      - right. exists i. cbn. auto. }
    destruct Hsel as [t [Ht Hst]]. apply (r3_dom _ _ _ _ Hs t Ht) in Hst.
    destruct (cenm inp (fresh sel) t) as [g|] eqn:Eg; [|congruence].
    destruct (new_used inp m _ _ t g Hs Hv Ht Eg) as [w [Hw Hg]].
    unfold tris in Hw. apply in_map_iff in Hw. destruct Hw as [[id w'] [Ew Hw]]. cbn in Ew. subst w'.
    intros Ec. assert (Hin : In id (csel f)); [|rewrite Ec in Hin; destruct Hin].
    apply Hc. split; [exact Hne|]. exists w. split; [exact Hw|]. exists g. split; [exact Hg|].
    apply (r3_new _ _ _ _ Hs g). exists t. auto.
  - intros id Hid. apply Hc in Hid. destruct Hid as [_ [w [Hw _]]]. eauto.
  - assert (Hk : (Z.of_nat (ksel inp (fresh sel)) <= nF inp)%Z).
    { rewrite <- (tris_len inp Hv). apply inj_le. apply visited_le; auto. }
    rewrite (rr_nV _ _ _ _ _ RR), (rr_nF _ _ _ _ _ RR). lia.
Qed.

Lemma C58_iterative_uniform_pf : forall (O : Ops) (D : Type) (levels : nat) (inp : mesh O D),
  valid inp -> dense inp -> tris inp <> [] ->
  (2 * nV inp + (3 ^ Z.of_nat (Nat.max 1 levels) - 1) * nF inp < 2 ^ 65)%Z ->
  exists f out, completes (fun fuel => iterative_update CSqrt3 levels fuel [] inp) (Ok (f, out)) /\
    nF out = (3 ^ Z.of_nat (Nat.max 1 levels) * nF inp)%Z /\
    (2 * nV out = 2 * nV inp + (3 ^ Z.of_nat (Nat.max 1 levels) - 1) * nF inp)%Z /\
    valid out /\ dense out /\ csel f = [] /\ (no_wire inp -> euler out = euler inp).
Proof.
  intros O D k inp Hv Hd Hne Hfit. unfold iterative_update.
  assert (Hk : exists n, Nat.max 1 k = S n) by (exists (Nat.max 1 k - 1)%nat; lia). destruct Hk as [n Hk]. rewrite Hk in *. clear k Hk.
  assert (G : exists f out, pipeline CSqrt3 (S n) [] inp f out /\ nF out = (3 ^ Z.of_nat (S n) * nF inp)%Z /\
    (2 * nV out = 2 * nV inp + (3 ^ Z.of_nat (S n) - 1) * nF inp)%Z /\
    valid out /\ dense out /\ csel f = [] /\ (no_wire inp -> euler out = euler inp)).
  2:{ destruct G as [f [out [G1 G2]]]. exists f, out. split; [apply pipe_completes; exact G1|exact G2]. }
  revert inp Hv Hd Hne Hfit. induction n as [|n IH]; intros inp Hv Hd Hne Hfit.
  - assert (Hr : ready3 (fresh []) inp).
    { split; [intros i []|]. split; [constructor|]. change (3 ^ Z.of_nat 1)%Z with 3%Z in Hfit. lia. }
    destruct (completes3 _ inp Hv Hd Hr) as [f [out [[_ [q Hq]] RR]]]. specialize (Hq q (le_n q)). cbv beta in Hq.
    destruct (rr_valid _ _ _ _ _ RR Hne) as [V1 V2]. pose proof (ksel_all inp (fresh []) eq_refl Hv) as Hka.
    exists f, out. split; [eapply pipe_1; exact Hq|]. change (3 ^ Z.of_nat 1)%Z with 3%Z.
    split; [rewrite (rr_nF _ _ _ _ _ RR); lia|]. split; [rewrite (rr_nV _ _ _ _ _ RR); lia|].
    split; [exact V1|]. split; [exact V2|]. split.
    + destruct (csel f) as [|i l] eqn:Ec; [reflexivity|]. exfalso.
      destruct (proj1 (rr_csel _ _ _ _ _ RR i)) as [Hw _]; [rewrite Ec; cbn; auto|]. apply Hw. reflexivity.
    + intros Hw. apply (C56_border_euler_pf O D _ inp q f out Hv Hd Hr Hq); assumption.
  - assert (Hp : (3 ^ Z.of_nat (S (S n)) = 3 * 3 ^ Z.of_nat (S n))%Z) by (rewrite (Nat2Z.inj_succ (S n)), Z.pow_succ_r by lia; reflexivity).
    assert (Hp1 : (3 <= 3 ^ Z.of_nat (S n))%Z).
    { rewrite Nat2Z.inj_succ, Z.pow_succ_r by lia. pose proof (Z.pow_pos_nonneg 3 (Z.of_nat n)). lia. }
    rewrite Hp in *. set (p := (3 ^ Z.of_nat (S n))%Z) in *. clearbody p.
    assert (HF : (0 <= nF inp)%Z) by (unfold nF; lia).
    assert (Hr : ready3 (fresh []) inp).
    { split; [intros i []|]. split; [constructor|]. nia. }
    destruct (completes3 _ inp Hv Hd Hr) as [f1 [m1 [[_ [q Hq]] RR]]]. specialize (Hq q (le_n q)). cbv beta in Hq.
    destruct (rr_valid _ _ _ _ _ RR Hne) as [V1 V2]. pose proof (ksel_all inp (fresh []) eq_refl Hv) as Hka.
    pose proof (rr_nF _ _ _ _ _ RR) as HnF. pose proof (rr_nV _ _ _ _ _ RR) as HnV. rewrite Hka in HnF, HnV.
    assert (Ec : csel f1 = []).
    { destruct (csel f1) as [|i l] eqn:Ec; [reflexivity|]. exfalso.
      destruct (proj1 (rr_csel _ _ _ _ _ RR i)) as [Hw _]; [rewrite Ec; cbn; auto|]. apply Hw. reflexivity. }
    destruct (IH m1 V1 V2) as [f [out [P1 [P2 [P3 [P4 [P5 [P6 P7]]]]]]]].
    { exact (tris_out3 _ _ _ _ _ Hv RR Hne). }
    { rewrite HnF, HnV. nia. }
    exists f, out. split; [eapply pipe_S; [exact Hq|rewrite Ec; exact P1]|].
    split; [rewrite P2, HnF; ring|]. split; [rewrite P3, HnV, HnF; ring|]. split; [exact P4|]. split; [exact P5|]. split; [exact P6|].
    intros Hw. rewrite P7 by (apply (r3_nowire _ _ _ _ (rr_sub _ _ _ _ _ RR))).
    apply (C56_border_euler_pf O D _ inp q f1 m1 Hv Hd Hr Hq); assumption.
Qed.

Lemma C58_iterative_adaptive_pf : forall (O : Ops) (D : Type) (levels : nat) (sel : list N) (inp : mesh O D),
  valid inp -> dense inp -> sel <> [] -> NoDup sel -> existing inp sel ->
  (2 * nV inp + (3 ^ Z.of_nat (Nat.max 1 levels) - 1) * nF inp < 2 ^ 65)%Z ->
  exists f out, completes (fun fuel => iterative_update CSqrt3 levels fuel sel inp) (Ok (f, out)) /\
    valid out /\ dense out /\ csel f <> [] /\ levels3 (Nat.max 1 levels) sel inp (csel f) out.
Proof.
  intros O D k sel inp Hv Hd Hne Hn He Hfit. unfold iterative_update.
  assert (Hk : exists n, Nat.max 1 k = S n) by (exists (Nat.max 1 k - 1)%nat; lia). destruct Hk as [n Hk]. rewrite Hk in *. clear k Hk.
  assert (G : exists f out, pipeline CSqrt3 (S n) sel inp f out /\ valid out /\ dense out /\ csel f <> [] /\ levels3 (S n) sel inp (csel f) out).
  2:{ destruct G as [f [out [G1 G2]]]. exists f, out. split; [apply pipe_completes; exact G1|exact G2]. }
  revert sel inp Hv Hd Hne Hn He Hfit. induction n as [|n IH]; intros sel inp Hv Hd Hne Hn He Hfit.
  - change (3 ^ Z.of_nat 1)%Z with 3%Z in Hfit.
    destruct (level_result sel O D inp Hv Hd Hne Hn He) as [q [f [m [E [V1 [V2 [V3 [V4 _]]]]]]]]; [lia|].
    exists f, m. split; [eapply pipe_1; exact E|]. split; [exact V1|]. split; [exact V2|]. split; [exact V4|].
    eapply levels3_S; [exact V3|apply levels3_0].
  - assert (Hp : (3 ^ Z.of_nat (S (S n)) = 3 * 3 ^ Z.of_nat (S n))%Z) by (rewrite (Nat2Z.inj_succ (S n)), Z.pow_succ_r by lia; reflexivity).
    assert (Hp1 : (3 <= 3 ^ Z.of_nat (S n))%Z).
    { rewrite Nat2Z.inj_succ, Z.pow_succ_r by lia. pose proof (Z.pow_pos_nonneg 3 (Z.of_nat n)). lia. }
    rewrite Hp in Hfit. set (p := (3 ^ Z.of_nat (S n))%Z) in *.
    assert (HF : (0 <= nF inp)%Z) by (unfold nF; lia).
    destruct (level_result sel O D inp Hv Hd Hne Hn He) as [q [f1 [m1 [E [V1 [V2 [V3 [V4 [V5 [V6 V7]]]]]]]]]]; [clearbody p; nia|].
    assert (HF1 : (0 <= nF m1)%Z) by (unfold nF; lia).
    destruct (IH (csel f1) m1 V1 V2 V4) as [f [out [P1 [P2 [P3 [P4 P5]]]]]].
    { destruct V3 as [cen [_ [Hs _]]]. apply sorted_nodup3. exact Hs. }
    { exact V5. }
    { fold p. clearbody p. nia. }
    exists f, out. split; [eapply pipe_S; [exact E|exact P1]|]. split; [exact P2|]. split; [exact P3|]. split; [exact P4|].
    eapply levels3_S; [exact V3|exact P5].
Qed.

Lemma NoDup_app_intro3 {A} (l1 l2 : list A) : NoDup l1 -> NoDup l2 -> (forall x, In x l1 -> In x l2 -> False) -> NoDup (l1 ++ l2).
Proof.
  induction l1 as [|x l1 IH]; intros H1 H2 H; [exact H2|]. inversion H1; subst. cbn. constructor.
  - rewrite in_app_iff. intros [Hx|Hx]; [auto|]. apply (H x); cbn; auto.
  - apply IH; auto. intros y Hy. apply H. cbn. auto.
Qed.
Lemma filter_le3 {A} (p : A -> bool) l : (length (filter p l) <= length l)%nat.
Proof. induction l as [|x l IH]; cbn; [lia|]. destruct (p x); cbn; lia. Qed.
Section VALENCE3.
Context {O : Ops} {D : Type}.
Notation mesh := (mesh O D).
Implicit Types inp out : mesh.

Definition cdef inp (f : fstate) (e : N * N) : N := match cenE (tris inp) (cenm inp f) e with Some g => g | None => 0 end.

Lemma valence_old f inp fuel f' out v : valid inp -> dense inp -> ready3 f inp -> csel f = [] -> tris inp <> [] ->
  update (CellF CSqrt3) fuel f inp = Ok (f', out) -> oget v (pts inp) <> None ->
  (forall w, joined inp v w -> In (v, w) (dirs (tris inp)) /\ In (w, v) (dirs (tris inp))) ->
  length (ring out v) = length (ring inp v).
Proof.
  intros Hv Hd Hr Hc Hne E Hov Hin. pose proof (root3_run f inp fuel f' out Hv Hd Hr E) as RR.
  destruct (rr_valid _ _ _ _ _ RR Hne) as [Hvo _]. pose proof (rr_sub _ _ _ _ _ RR) as Hs.
  pose proof (cenm_centring inp f Hv Hd (proj1 (proj2 Hr))) as HC.
  destruct (valence3 f inp fuel f' out Hv Hd Hr Hne E) as [HO _].
  assert (Hall : forall t, In t (tris inp) -> selected inp (csel f) t) by (intros t Ht; left; auto).
  assert (Hsome : forall e, In e (dirs (tris inp)) -> cenE (tris inp) (cenm inp f) e = Some (cdef inp f e)).
  { intros [a b] He. unfold cdef. destruct (centred_all inp out _ _ a b Hs Hall He) as [g [u [Hu [Hd' Hg]]]].
    rewrite (cenE_face _ _ _ HC u _ Hu Hd'), Hg. reflexivity. }
  rewrite <- (map_length (fun x => cdef inp f (v, x)) (ring inp v)). apply Permutation_length. apply NoDup_Permutation.
  - apply (v_ring_nodup _ Hvo).
  - apply NoDup_map_in; [|apply (v_ring_nodup _ Hv)]. intros x y Hx Hy Exy.
    destruct (Hin x Hx) as [Dx _]. destruct (Hin y Hy) as [Dy _]. pose proof (Hsome _ Dx) as Sx. pose proof (Hsome _ Dy) as Sy.
    rewrite <- Exy in Sy. destruct (cenE_at _ _ _ _ _ Sx) as [t [Ht [Hg Ha]]]. destruct (cenE_at _ _ _ _ _ Sy) as [u [Hu [Hg' Hb]]].
    assert (u = t) by (eapply (c_inj _ _ _ HC); eauto). subst u.
    apply (tdirs_org t v x y); auto. apply (v_proper _ Hv t Ht).
  - intros y. change (In y (ring out v)) with (joined out v y). rewrite (HO v y Hov), in_map_iff. split.
    + intros [[t [Ht [Hx Hg]]]|[Hn Hcc]].
      * assert (He : exists x, In (v, x) (tdirs t)).
        { destruct t as [[a b] c]. cbn in Hx |- *. destruct Hx as [<-|[<-|[<-|[]]]]; eauto. }
        destruct He as [x He]. assert (Dx : In (v, x) (dirs (tris inp))) by (apply in_flat_map; eauto).
        exists x. split; [|apply (v_face_edges _ Hv); exact Dx]. pose proof (Hsome _ Dx) as Sx.
        rewrite (cenE_face _ _ _ HC t _ Ht He) in Sx. congruence.
      * exfalso. assert (Hj : joined inp v y).
        { destruct Hn as [Hn|Hn]; [|apply (v_ring_sym _ Hv)]; apply (v_face_edges _ Hv); exact Hn. }
        destruct (Hin y Hj) as [D1 D2].
        destruct (centred_all inp out _ _ v y Hs Hall D1) as [g Hg]. destruct (centred_all inp out _ _ y v Hs Hall D2) as [h Hh].
        destruct Hcc as [Hcc|Hcc]; [exact (Hcc g Hg)|exact (Hcc h Hh)].
    + intros [x [<- Hx]]. left. destruct (Hin x Hx) as [Dx _]. pose proof (Hsome _ Dx) as Sx.
      destruct (cenE_at _ _ _ _ _ Sx) as [t [Ht [Hg Ha]]]. exists t. split; [exact Ht|]. split; [|exact Hg].
      apply tdirs_verts in Ha. tauto.
Qed.

Lemma valence_new f inp fuel f' out t g : valid inp -> dense inp -> ready3 f inp ->
  update (CellF CSqrt3) fuel f inp = Ok (f', out) -> In t (tris inp) -> cenm inp f t = Some g ->
  length (ring out g) = (3 + length (filter (fun e => is_some (cenE (tris inp) (cenm inp f) (sym e))) (tdirs t)))%nat.
Proof.
  intros Hv Hd Hr E Ht Hg. pose proof (root3_run f inp fuel f' out Hv Hd Hr E) as RR.
  assert (Hne : tris inp <> []) by (intros En; rewrite En in Ht; destruct Ht).
  destruct (rr_valid _ _ _ _ _ RR Hne) as [Hvo _]. pose proof (rr_sub _ _ _ _ _ RR) as Hs.
  pose proof (cenm_centring inp f Hv Hd (proj1 (proj2 Hr))) as HC.
  destruct (valence3 f inp fuel f' out Hv Hd Hr Hne E) as [_ HN].
  set (F := filter (fun e => is_some (cenE (tris inp) (cenm inp f) (sym e))) (tdirs t)).
  assert (HF : forall e, In e F -> In e (tdirs t) /\ cenE (tris inp) (cenm inp f) (sym e) = Some (cdef inp f (sym e))).
  { intros e He. apply filter_In in He. destruct He as [H1 H2]. split; [exact H1|]. unfold cdef.
    destruct (cenE (tris inp) (cenm inp f) (sym e)); [reflexivity|discriminate]. }
  assert (HP : Permutation (ring out g) (tverts t ++ map (fun e => cdef inp f (sym e)) F)).
  { apply NoDup_Permutation.
    - apply (v_ring_nodup _ Hvo).
    - apply NoDup_app_intro3.
      + pose proof (v_proper _ Hv t Ht) as Hp. destruct t as [[a b] c]. destruct Hp as [H1 [H2 H3]].
        cbn. repeat constructor; cbn; intuition congruence.
      + apply NoDup_map_in.
        * intros [a b] [c d] H1 H2 Eq. destruct (HF _ H1) as [D1 S1]. destruct (HF _ H2) as [D2 S2]. rewrite <- Eq in S2.
          destruct (cenE_at _ _ _ _ _ S1) as [u [Hu [Hgu Ha]]]. destruct (cenE_at _ _ _ _ _ S2) as [u' [Hu' [Hgu' Hb]]].
          assert (u' = u) by (eapply (c_inj _ _ _ HC); eauto). subst u'.
          eapply (one_shared _ _ _ HC t u); eauto.
        * apply NoDup_filter. pose proof (v_proper _ Hv t Ht) as Hp. destruct t as [[a b] c]. destruct Hp as [H1 [H2 H3]].
          cbn. repeat constructor; cbn; intuition congruence.
      + intros x Hx Hy. apply in_map_iff in Hy. destruct Hy as [e [<- He]]. destruct (HF _ He) as [_ S1].
        apply (cenE_fresh _ _ _ HC _ _ S1). apply (c_old _ _ _ HC t _ Ht Hx).
    - intros y. change (In y (ring out g)) with (joined out g y). rewrite (HN t g y Ht Hg), in_app_iff, in_map_iff.
      apply or_iff_compat_l. split.
      + intros [a [b [Hab [u [Hu [Hd' Hgu]]]]]].
        assert (Sx : cenE (tris inp) (cenm inp f) (sym (a, b)) = Some y).
        { change (sym (a, b)) with (b, a). rewrite (cenE_face _ _ _ HC u _ Hu Hd'). exact Hgu. }
        exists (a, b). split; [unfold cdef; rewrite Sx; reflexivity|]. apply filter_In. split; [exact Hab|]. rewrite Sx. reflexivity.
      + intros [[a b] [<- He]]. destruct (HF _ He) as [D1 S1]. exists a, b. split; [exact D1|].
        change (sym (a, b)) with (b, a) in S1. destruct (cenE_at _ _ _ _ _ S1) as [u [Hu [Hgu Ha]]]. exists u. auto. }
  rewrite (Permutation_length HP), app_length, map_length. destruct t as [[a b] c]. reflexivity.
Qed.
End VALENCE3.

Lemma C59_valence_pf : forall (O : Ops) (D : Type) f (inp : mesh O D) fuel f' out,
  valid inp -> dense inp -> csel f = [] -> (nV inp + nF inp < 2 ^ 64)%Z ->
  update (CellF CSqrt3) fuel f inp = Ok (f', out) ->
  (forall v, oget v (pts inp) <> None -> ring inp v <> [] ->
     (forall w, joined inp v w -> In (v, w) (dirs (tris inp)) /\ In (w, v) (dirs (tris inp))) ->
     length (ring out v) = length (ring inp v)) /\
  (forall id, oget id (pts inp) = None -> oget id (pts out) <> None -> (3 <= length (ring out id) <= 6)%nat) /\
  (closed inp -> forall id, oget id (pts inp) = None -> oget id (pts out) <> None -> length (ring out id) = 6%nat).
Proof.
  intros O D f inp fuel f' out Hv Hd Hc Hfit E.
  assert (Hr : ready3 f inp) by (split; [rewrite Hc; intros i []|split; [rewrite Hc; constructor|exact Hfit]]).
  pose proof (root3_run f inp fuel f' out Hv Hd Hr E) as RR. pose proof (rr_sub _ _ _ _ _ RR) as Hs. split; [|split].
  - intros v Hov Hrv Hin. apply (valence_old f inp fuel f' out v); auto.
    destruct (ring inp v) as [|w r] eqn:Er; [congruence|]. destruct (Hin w) as [H _]; [unfold joined; rewrite Er; cbn; auto|].
    intros En. rewrite En in H. destruct H.
  - intros id H1 H2. destruct (proj2 (r3_new _ _ _ _ Hs id) (conj H1 H2)) as [t [Ht Hg]].
    rewrite (valence_new f inp fuel f' out t id Hv Hd Hr E Ht Hg).
    pose proof (filter_le3 (fun e => is_some (cenE (tris inp) (cenm inp f) (sym e))) (tdirs t)) as Hl.
    destruct t as [[a b] c]. cbn [tdirs length] in Hl |- *. lia.
  - intros Hcl id H1 H2. destruct (proj2 (r3_new _ _ _ _ Hs id) (conj H1 H2)) as [t [Ht Hg]].
    rewrite (valence_new f inp fuel f' out t id Hv Hd Hr E Ht Hg).
    assert (Hall : filter (fun e => is_some (cenE (tris inp) (cenm inp f) (sym e))) (tdirs t) = tdirs t).
    { assert (Hf : forall e, In e (tdirs t) -> is_some (cenE (tris inp) (cenm inp f) (sym e)) = true).
      { intros [a b] He. change (sym (a, b)) with (b, a).
        assert (Hba : In (b, a) (dirs (tris inp))) by (apply Hcl; apply in_flat_map; eauto).
        destruct (centred_all inp out _ _ b a Hs) as [g [u [Hu [Hd' Hgu]]]]; [intros x Hx; left; auto|exact Hba|].
        rewrite (cenE_face _ _ _ (cenm_centring inp f Hv Hd (proj1 (proj2 Hr))) u _ Hu Hd'), Hgu. reflexivity. }
      revert Hf. generalize (tdirs t). clear. intros l. induction l as [|e l IH]; intros Hf; [reflexivity|]. cbn [filter].
      rewrite Hf by (cbn; auto). f_equal. apply IH. intros x Hx. apply Hf. cbn. auto. }
    rewrite Hall. destruct t as [[a b] c]. reflexivity.
Qed.

(** Adaptive: the valence of a centre counts the subdivided neighbours. *)
Lemma C59_adaptive_pf : forall (O : Ops) (D : Type) f (inp : mesh O D) fuel f' out,
  valid inp -> dense inp -> ready3 f inp -> tris inp <> [] -> update (CellF CSqrt3) fuel f inp = Ok (f', out) ->
  exists cen, root3_subdivision inp out (selected inp (csel f)) cen /\
   (forall v y, oget v (pts inp) <> None -> joined out v y <->
      (exists t, In t (tris inp) /\ In v (tverts t) /\ cen t = Some y) \/
      ((In (v, y) (dirs (tris inp)) \/ In (y, v) (dirs (tris inp))) /\
       ((forall h, ~ centred inp cen v y h) \/ (forall h, ~ centred inp cen y v h)))) /\
   (forall t g y, In t (tris inp) -> cen t = Some g ->
      joined out g y <-> In y (tverts t) \/ exists a b, In (a, b) (tdirs t) /\ centred inp cen b a y).
Proof.
  intros O D f inp fuel f' out Hv Hd Hr Hne E. exists (cenm inp f). split.
  - apply (rr_sub _ _ _ _ _ (root3_run f inp fuel f' out Hv Hd Hr E)).
  - exact (valence3 f inp fuel f' out Hv Hd Hr Hne E).
Qed.

(** ** Two uniform steps *)
Lemma uniform_ready3 {O D} f (inp : mesh O D) : csel f = [] -> (nV inp + nF inp < 2 ^ 64)%Z -> ready3 f inp.
Proof. intros Hc Hfit. split; [rewrite Hc; intros i []|split; [rewrite Hc; constructor|exact Hfit]]. Qed.
Lemma cen_all {O D} f (inp : mesh O D) f' out cen t : root3_result f inp f' out cen -> csel f = [] -> In t (tris inp) -> exists g, cen t = Some g.
Proof.
  intros RR Hc Ht. destruct (cen t) as [g|] eqn:E; [eauto|]. exfalso.
  apply (r3_dom _ _ _ _ (rr_sub _ _ _ _ _ RR) t Ht); [left; auto|exact E].
Qed.
Lemma two_steps {O D} f1 f2 (inp : mesh O D) n1 n2 f1' m f2' out t u a b :
  valid inp -> dense inp -> csel f1 = [] -> csel f2 = [] -> (nV inp + 4 * nF inp < 2 ^ 64)%Z ->
  update (CellF CSqrt3) n1 f1 inp = Ok (f1', m) -> update (CellF CSqrt3) n2 f2 m = Ok (f2', out) ->
  In t (tris inp) -> In u (tris inp) -> In (a, b) (tdirs t) -> In (b, a) (tdirs u) ->
  exists g h x y, cenm inp f1 t = Some g /\ cenm inp f1 u = Some h /\
    In (h, g, a) (tris m) /\ In (g, h, b) (tris m) /\ cenm m f2 (h, g, a) = Some x /\ cenm m f2 (g, h, b) = Some y /\
    valid m /\ dense m /\ ready3 f2 m /\ root3_result f1 inp f1' m (cenm inp f1) /\ root3_result f2 m f2' out (cenm m f2).
Proof.
  intros Hv Hd Hc1 Hc2 Hfit E1 E2 Ht Hu Ha Hb.
  assert (HF : (0 <= nF inp)%Z) by (unfold nF; lia).
  assert (Hr1 : ready3 f1 inp) by (apply uniform_ready3; [exact Hc1|lia]).
  pose proof (root3_run f1 inp n1 f1' m Hv Hd Hr1 E1) as R1.
  assert (Hne : tris inp <> []) by (intros En; rewrite En in Ht; destruct Ht).
  destruct (rr_valid _ _ _ _ _ R1 Hne) as [Vm Dm]. pose proof (ksel_all inp f1 Hc1 Hv) as Hk.
  assert (Hr2 : ready3 f2 m).
  { apply uniform_ready3; [exact Hc2|]. rewrite (rr_nV _ _ _ _ _ R1), (rr_nF _ _ _ _ _ R1). lia. }
  pose proof (root3_run f2 m n2 f2' out Vm Dm Hr2 E2) as R2.
  destruct (cen_all _ _ _ _ _ t R1 Hc1 Ht) as [g Hg]. destruct (cen_all _ _ _ _ _ u R1 Hc1 Hu) as [h Hh].
  assert (W1 : In (h, g, a) (tris m)).
  { apply (r3_faces _ _ _ _ (rr_sub _ _ _ _ _ R1)). exists u. split; [exact Hu|]. right. right.
    exists h, g, b, a. repeat split; auto. exists t. auto. }
  assert (W2 : In (g, h, b) (tris m)).
  { apply (r3_faces _ _ _ _ (rr_sub _ _ _ _ _ R1)). exists t. split; [exact Ht|]. right. right.
    exists g, h, a, b. repeat split; auto. exists u. auto. }
  destruct (cen_all _ _ _ _ _ _ R2 Hc2 W1) as [x Hx]. destruct (cen_all _ _ _ _ _ _ R2 Hc2 W2) as [y Hy].
  exists g, h, x, y. repeat (split; [assumption|]). assumption.
Qed.

Lemma C60_two_steps_pf : forall (O : Ops) (D : Type) f1 f2 (inp : mesh O D) n1 n2 f1' m f2' out a b,
  valid inp -> dense inp -> csel f1 = [] -> csel f2 = [] -> (nV inp + 4 * nF inp < 2 ^ 64)%Z ->
  update (CellF CSqrt3) n1 f1 inp = Ok (f1', m) -> update (CellF CSqrt3) n2 f2 m = Ok (f2', out) ->
  In (a, b) (dirs (tris inp)) -> In (b, a) (dirs (tris inp)) ->
  ~ joined out a b /\ exists x y, oget x (pts m) = None /\ oget y (pts m) = None /\
    joined out a x /\ joined out x y /\ joined out y b.
Proof.
  intros O D f1 f2 inp n1 n2 f1' m f2' out a b Hv Hd Hc1 Hc2 Hfit E1 E2 Hab Hba.
  apply in_flat_map in Hab. destruct Hab as [t [Ht Ha]]. apply in_flat_map in Hba. destruct Hba as [u [Hu Hb]].
  destruct (two_steps f1 f2 inp n1 n2 f1' m f2' out t u a b Hv Hd Hc1 Hc2 Hfit E1 E2 Ht Hu Ha Hb)
    as [g [h [x [y [Hg [Hh [W1 [W2 [Hx [Hy [Vm [Dm [Hr2 [R1 R2]]]]]]]]]]]]]].
  assert (Hnm : tris m <> []) by (intros En; rewrite En in W1; destruct W1).
  destruct (rr_valid _ _ _ _ _ R2 Hnm) as [Vo _]. split.
  - intros Hj. assert (Hr1 : ready3 f1 inp) by (apply uniform_ready3; [exact Hc1|unfold nF in *; lia]).
    assert (Hm : joined m a b).
    { assert (Hoa : oget a (pts m) <> None).
      { apply (r3_old _ _ _ _ (rr_sub _ _ _ _ _ R1)). apply (v_verts _ Hv t a Ht). apply tdirs_verts in Ha. tauto. }
      assert (Hob : oget b (pts m) <> None).
      { apply (r3_old _ _ _ _ (rr_sub _ _ _ _ _ R1)). apply (v_verts _ Hv t b Ht). apply tdirs_verts in Ha. tauto. }
      destruct (valence3 f2 m n2 f2' out Vm Dm Hr2 Hnm E2) as [HO _]. apply (HO a b Hoa) in Hj.
      destruct Hj as [[w [Hw [_ Hgw]]]|[[Hn|Hn] _]].
      - exfalso. apply Hob. apply (r3_new _ _ _ _ (rr_sub _ _ _ _ _ R2) b). exists w. auto.
      - apply (v_face_edges _ Vm). exact Hn.
      - apply (v_ring_sym _ Vm). apply (v_face_edges _ Vm). exact Hn. }
    assert (Hab : In (a, b) (dirs (tris inp))) by (apply in_flat_map; eauto).
    apply (rr_gone _ _ _ _ _ R1 a b Hab) in Hm. destruct Hm as [Hm|Hm].
    + apply (Hm g). exists t. auto.
    + apply (Hm h). exists u. auto.
  - exists x, y. split; [apply (r3_new _ _ _ _ (rr_sub _ _ _ _ _ R2) x); eauto|].
    split; [apply (r3_new _ _ _ _ (rr_sub _ _ _ _ _ R2) y); eauto|]. split; [|split].
    + apply (centre_corner m out _ _ (h, g, a) x a Vm Vo (rr_sub _ _ _ _ _ R2) W1 Hx). cbn. auto.
    + apply (rr_join _ _ _ _ _ R2 h g x y); [exists (h, g, a)|exists (g, h, b)]; (split; [assumption|]); split; try assumption; cbn; auto.
    + apply (v_ring_sym _ Vo). apply (centre_corner m out _ _ (g, h, b) y b Vm Vo (rr_sub _ _ _ _ _ R2) W2 Hy). cbn. auto.
Qed.

Lemma C60_stencil_pf : forall (d : nat) (D : Type) f1 f2 (inp : mesh (RO d) D) n1 n2 f1' m f2' out a b p q,
  valid inp -> dense inp -> csel f1 = [] -> csel f2 = [] -> (nV inp + 4 * nF inp < 2 ^ 64)%Z ->
  update (CellF CSqrt3) n1 f1 inp = Ok (f1', m) -> update (CellF CSqrt3) n2 f2 m = Ok (f2', out) ->
  is_face inp a b p -> is_face inp b a q ->
  exists x y, joined out a x /\ joined out x y /\ joined out y b /\
    forall i, crd out i x = ((5 * crd inp i a + 2 * crd inp i b + crd inp i p + crd inp i q) / 9)%R /\
              crd out i y = ((2 * crd inp i a + 5 * crd inp i b + crd inp i p + crd inp i q) / 9)%R.
Proof.
  intros d D f1 f2 inp n1 n2 f1' m f2' out a b p q Hv Hd Hc1 Hc2 Hfit E1 E2 Hp Hq.
  assert (HT : forall x y z, is_face inp x y z -> exists t, In t (tris inp) /\ In (x, y) (tdirs t) /\
     forall i, lin (delta i) (cpt inp t) = ((crd inp i x + crd inp i y + crd inp i z) / 3)%R).
  { intros x y z [H|[H|H]]; eexists; (split; [exact H|]); (split; [cbn; auto|]); intros i; rewrite lin_cpt by assumption; rewrite <- !crd_lin; lra. }
  destruct (HT _ _ _ Hp) as [t [Ht [Ha Ct]]]. destruct (HT _ _ _ Hq) as [u [Hu [Hb Cu]]].
  destruct (two_steps f1 f2 inp n1 n2 f1' m f2' out t u a b Hv Hd Hc1 Hc2 Hfit E1 E2 Ht Hu Ha Hb)
    as [g [h [x [y [Hg [Hh [W1 [W2 [Hx [Hy [Vm [Dm [Hr2 [R1 R2]]]]]]]]]]]]]].
  assert (Hr1 : ready3 f1 inp) by (apply uniform_ready3; [exact Hc1|unfold nF in *; lia]).
  assert (Hnm : tris m <> []) by (intros En; rewrite En in W1; destruct W1).
  destruct (rr_valid _ _ _ _ _ R2 Hnm) as [Vo _].
  exists x, y. split; [|split; [|split]].
  - apply (centre_corner m out _ _ (h, g, a) x a Vm Vo (rr_sub _ _ _ _ _ R2) W1 Hx). cbn. auto.
  - apply (rr_join _ _ _ _ _ R2 h g x y); [exists (h, g, a)|exists (g, h, b)]; (split; [assumption|]); split; try assumption; cbn; auto.
  - apply (v_ring_sym _ Vo). apply (centre_corner m out _ _ (g, h, b) y b Vm Vo (rr_sub _ _ _ _ _ R2) W2 Hy). cbn. auto.
  - intros i. rewrite !crd_lin.
    rewrite (ptof_new f2 m n2 f2' out _ x Vm Dm Hr2 E2 W1 Hx), (ptof_new f2 m n2 f2' out _ y Vm Dm Hr2 E2 W2 Hy), !lin_cpt by assumption.
    rewrite (ptof_new f1 inp n1 f1' m t g Hv Hd Hr1 E1 Ht Hg), (ptof_new f1 inp n1 f1' m u h Hv Hd Hr1 E1 Hu Hh), Ct, Cu.
    assert (Hoa : oget a (pts inp) <> None) by (apply (v_verts _ Hv t a Ht); apply tdirs_verts in Ha; tauto).
    assert (Hob : oget b (pts inp) <> None) by (apply (v_verts _ Hv t b Ht); apply tdirs_verts in Ha; tauto).
    rewrite (ptof_old3 f1 inp n1 f1' m a Hv Hd Hr1 E1 Hoa), (ptof_old3 f1 inp n1 f1' m b Hv Hd Hr1 E1 Hob), <- !crd_lin. split; lra.
Qed.

(** ** Ids, for all seven filters and arbitrary cells *)
Lemma ids_any : forall (O : Ops) (D : Type) k f (inp : mesh O D) fuel f' out,
  sorted_keys (pts inp) -> (forall id p, oget id (pts inp) = Some p -> length p = kdim O) -> dense inp ->
  update k fuel f inp = Ok (f', out) ->
  dense out /\ sorted_keys (pts out) /\ (nV inp <= nV out)%Z /\
  (forall id, oget id (pts inp) <> None -> oget id (pts out) <> None) /\
  (k <> CellF CLoop -> forall id p, oget id (pts inp) = Some p -> oget id (pts out) = Some p).
Proof.
  intros O D k f inp fuel f' out Hs Hdm Hd E.
  destruct (update_grows k fuel f inp f' out Hs Hdm Hd E) as [P0 [L [EP [K0 K1]]]].
  assert (Hm0 : densemap (osize (pts inp)) P0).
  { split; [unfold sorted_keys; rewrite K0; exact Hs|]. split.
    - unfold osize. rewrite <- (map_length fst P0), <- (map_length fst (pts inp)). unfold okeys in K0. rewrite K0. reflexivity.
    - intros j. rewrite K0, <- oget_Some_key. apply Hd. }
  pose proof (sorted_app_idx _ _ L Hm0) as Hm. rewrite <- EP in Hm. pose proof Hm as [M1 [M2 M3]].
  assert (Hget : forall id, oget id (pts out) <> None <-> id < osize (pts inp) + N.of_nat (length L)).
  { intros id. apply densemap_get. exact Hm. }
  split; [|split; [exact M1|split; [|split]]].
  - intros id. rewrite Hget, M2. reflexivity.
  - unfold nV. unfold osize in M2. lia.
  - intros id H. apply Hget. apply Hd in H. lia.
  - intros Hk id p H. specialize (K1 Hk). subst P0. rewrite EP.
    rewrite (densemap_app_old _ _ _ _ Hm0); [exact H|]. apply Hd. congruence.
Qed.

Lemma C03_any_filter_pf : forall (O : Ops) (D : Type) k f (inp : mesh O D) fuel f' out,
  sorted_keys (pts inp) -> (forall id p, oget id (pts inp) = Some p -> length p = kdim O) -> dense inp ->
  update k fuel f inp = Ok (f', out) ->
  dense out /\ sorted_keys (pts out) /\ (nV inp <= nV out)%Z /\
  (forall id, oget id (pts inp) <> None -> oget id (pts out) <> None).
Proof.
  intros O D k f inp fuel f' out Hs Hdm Hd E. destruct (ids_any O D k f inp fuel f' out Hs Hdm Hd E) as [H1 [H2 [H3 [H4 _]]]]. auto.
Qed.

Lemma C15_any_filter_pf : forall (O : Ops) (D : Type) k f (inp : mesh O D) fuel f' out id p,
  sorted_keys (pts inp) -> (forall id p, oget id (pts inp) = Some p -> length p = kdim O) -> dense inp ->
  k <> CellF CLoop -> update k fuel f inp = Ok (f', out) -> oget id (pts inp) = Some p -> oget id (pts out) = Some p.
Proof.
  intros O D k f inp fuel f' out id p Hs Hdm Hd Hk E. apply (ids_any O D k f inp fuel f' out Hs Hdm Hd E). exact Hk.
Qed.
