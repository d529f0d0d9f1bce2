(** * More: the edge-length criterion on any mesh (C38), triangles outside the selection of the iterative
    filter (C33), the sqrt(3) filter with repeated ids (C47). *)
From Coq Require Import Sorted Permutation Reals.
From Verif Require Import Base Mesh Filters Drivers Spec SpecSub Lists AddFace SplitTri Split Points Valid Run Update Struct Count Face FaceProps Copy SpecDrive SpecGeo Cond Iter Drive DriveProps.
From Verif Require Import SpecRoot3 Root3 Root3Run Root3Main Root3Props Repeat3 Gaps.
Open Scope N_scope.

(** C38: edge criterion on any mesh whose listed edges have both end points. *)
Lemma C38_edge_any_pf : forall (d : nat) (D : Type) (maxlen : R) (m : mesh (RO d) D) old fuel,
  wf_points m -> ecells m <> None ->
  (forall id a b, In (id, Some (a, b)) (edges_of m) -> oget a (pts m) <> None /\ oget b (pts m) <> None) ->
  edge_length_criterion (O := RO d) maxlen fuel m old =
    Ok (SelEdges (map snd (filter (fun io => match snd io with
                                             | Some (a, b) => if Rlt_dec maxlen (seg_length m a b) then true else false
                                             | None => false end) (edges_of m)))).
Proof.
  intros d D t m old fuel Hw Hn He. destruct (ecells m) as [es|] eqn:Ec; [|congruence].
  assert (Ee : edges_of m = es) by (unfold edges_of; rewrite Ec; reflexivity).
  assert (He' : forall id o, In (id, o) es -> edge_readable m o).
  { intros id o Ho [a b] ->. cbn [fst snd]. apply (He id). rewrite Ee. exact Ho. }
  rewrite (edge_crit_ok (O := RO d) t m es fuel old Ec He'). do 2 f_equal. unfold long_edges. rewrite Ee.
  assert (He2 : forall id a b, In (id, Some (a, b)) es -> oget a (pts m) <> None /\ oget b (pts m) <> None).
  { rewrite <- Ee. exact He. }
  clear - Hw He2. induction es as [|[i o] es IH]; [reflexivity|]. cbn [map snd filter].
  assert (IH' := IH (fun id a b H => He2 id a b (or_intror H))). clear IH.
  assert (Eo : edge_over (O := RO d) t m o = match o with Some (a, b) => if Rlt_dec t (seg_length m a b) then true else false | None => false end).
  { destruct o as [[a b]|]; [|reflexivity]. destruct (He2 i a b (or_introl eq_refl)) as [Ha Hb].
    pose proof (edge_over_R t m a b Hw Ha Hb) as Hr. destruct (Rlt_dec t (seg_length m a b)) as [H|H].
    - apply Hr. exact H.
    - apply not_true_iff_false. intros Ht. apply H, Hr, Ht. }
  rewrite Eo. destruct o as [[a b]|]; [destruct (Rlt_dec t (seg_length m a b)) as [H|H]|]; cbn [map snd]; [f_equal| |]; exact IH'.
Qed.

(** C33: a triangle that shares no edge with the selection is kept at every depth. *)
Section OUTSIDE.
Context {O : Ops} {D : Type}.
Notation mesh := (mesh O D).

Definition apart (sel : list N) (inp : mesh) (t : tri) : Prop :=
  forall i u a b, In i sel -> In (i, u) (faces inp) -> edge_of u a b -> ~ edge_of t a b.

Lemma four_new mid t L u a b : refines mid t L -> nsplit mid t = 3%nat -> In u L -> edge_of u a b ->
  exists p q, In (p, q) (tdirs t) /\ (mid p q = Some a \/ mid p q = Some b).
Proof.
  destruct t as [[x y] z]. intros HR Hn Hu He.
  assert (H3 : exists p q r, mid x y = Some p /\ mid y z = Some q /\ mid z x = Some r).
  { unfold nsplit in Hn. cbn in Hn. destruct (mid x y), (mid y z), (mid z x); cbn in Hn; try discriminate. do 3 eexists. repeat split. }
  destruct H3 as [p [q [r [Hp [Hq Hr]]]]].
  apply (rf_four _ _ _ HR x y z p q r eq_refl Hp Hq Hr) in Hu.
  assert (I1 : In (x, y) (tdirs (x, y, z))) by (cbn; auto).
  assert (I2 : In (y, z) (tdirs (x, y, z))) by (cbn; auto).
  assert (I3 : In (z, x) (tdirs (x, y, z))) by (cbn; auto).
  cbn in Hu. destruct Hu as [<-|[<-|[<-|[<-|[]]]]]; destruct He as [He|He]; cbn in He;
  destruct He as [He|[He|[He|[]]]]; injection He as <- <-; eauto 6.
Qed.

Lemma child_refines (inp out : mesh) S mid Ls pid t u : subdivision inp out S mid Ls -> child_of inp Ls pid t u ->
  In t (tris inp) /\ exists L, refines mid t L /\ In u L.
Proof.
  intros Hs [L [HL Hu]]. split.
  - apply in_combine_l in HL. unfold tris. apply in_map_iff. exists (pid, t). auto.
  - exists L. split; [|exact Hu]. pose proof (sd_refines _ _ _ _ _ Hs) as HF. unfold tris in HF.
    revert HF HL. generalize (faces inp). intros fs. revert Ls Hs. intros Ls _. revert Ls.
    induction fs as [|[i x] fs IH]; intros [|L0 Ls] HF HL; cbn in HL; try destruct HL as [E|HL]; try tauto; inversion HF; subst.
    + injection E as <- <- <-. assumption.
    + eapply IH; eauto.
Qed.

Lemma outside_step sel (inp : mesh) sel' out t : valid inp -> (forall i u w, In (i, u) (faces out) -> In (i, w) (faces out) -> u = w) ->
  level sel inp sel' out -> In t (tris inp) -> apart sel inp t -> In t (tris out) /\ apart sel' out t.
Proof.
  intros Hv Huniq [mid [Ls [Hs [_ Hsel]]]] Ht Ha. destruct t as [[x y] z].
  assert (H0 : forall a b, In (a, b) (tdirs (x, y, z)) -> mid a b = None).
  { intros a b Hab. destruct (mid a b) as [g|] eqn:Eg; [|reflexivity]. exfalso.
    destruct (proj1 (sd_dom _ _ _ _ _ Hs a b)) as [i [u [Hi [Hu He]]]]; [congruence|].
    apply (Ha i u a b Hi Hu He). left. exact Hab. }
  assert (Hn : nsplit mid (x, y, z) = 0%nat).
  { unfold nsplit. cbn. rewrite (H0 x y), (H0 y z), (H0 z x) by (cbn; auto). reflexivity. }
  split.
  - rewrite (sd_tris _ _ _ _ _ Hs). pose proof (sd_refines _ _ _ _ _ Hs) as HF. apply in_split in Ht. destruct Ht as [l1 [l2 El]].
    rewrite El in HF. apply Forall2_app_inv_l in HF. destruct HF as [M1 [M2 [_ [HF ->]]]]. inversion HF as [|? L ? M Hr HF']; subst.
    rewrite concat_app. apply in_or_app. right. cbn. apply in_or_app. left. rewrite (rf_copy _ _ _ Hr Hn). cbn. auto.
  - intros i u a b Hi Hu He He'. apply Hsel in Hi. destruct Hi as [pid [t0 [u0 [Hu0 [Hc Hn3]]]]].
    rewrite <- (Huniq _ _ _ Hu Hu0) in Hc. destruct (child_refines _ _ _ _ _ _ _ _ Hs Hc) as [Ht0 [L [HR HL]]].
    destruct (four_new _ _ _ _ _ _ HR Hn3 HL He) as [p [q [_ Hpq]]].
    assert (Hv2 : oget a (pts inp) <> None /\ oget b (pts inp) <> None).
    { split; apply (v_verts _ Hv _ _ Ht); destruct He' as [H|H]; cbn in H |- *; destruct H as [H|[H|[H|[]]]]; injection H as <- <-; auto. }
    destruct Hpq as [H|H].
    + destruct (proj1 (sd_new _ _ _ _ _ Hs a)) as [H1 _]; [eauto|]. tauto.
    + destruct (proj1 (sd_new _ _ _ _ _ Hs b)) as [H1 _]; [eauto|]. tauto.
Qed.

Lemma outside_pipe s : s <> CSqrt3 -> forall n sel (inp : mesh) f out, pipeline s n sel inp f out ->
  valid inp -> dense inp -> (s = CLoop -> no_isolated inp /\ ((2 <= n)%nat -> no_wire inp)) -> sel <> [] -> existing inp sel ->
  forall t, In t (tris inp) -> apart sel inp t -> In t (tris out).
Proof.
  intros Hs n sel inp f out HP. induction HP as [sel inp fuel f out E|n sel inp fuel f1 m f out E HP IH]; intros Hv Hd Hl Hne He t Ht Ha;
  destruct (adaptive_level O D s Hs sel inp Hv Hd ltac:(intros X; apply Hl; exact X) Hne He)
    as [q [f2 [m2 [E2 [V1 [V2 [V3 [V4 [V5 [V6 V7]]]]]]]]]];
  assert (Eq : update (CellF s) fuel (fresh sel) inp = update (CellF s) q (fresh sel) inp) by (apply update_fuel; congruence);
  rewrite E, E2 in Eq; injection Eq as <- <-;
  (destruct (outside_step sel inp _ _ t Hv ltac:(intros i u w; apply (faces_fun _ i u w); apply V1) V7 Ht Ha) as [W1 W2]).
  - exact W1.
  - apply IH; auto. intros Es. destruct (Hl Es) as [L1 L2]. split; [|auto].
    apply V4; [exact Es|]. apply L2. inversion HP; lia.
Qed.
End OUTSIDE.

Lemma C33_outside_pf : forall (O : Ops) (D : Type) (s : cscheme) (k : nat) (sel : list N) (inp : mesh O D) fuel f out,
  valid inp -> dense inp -> s <> CSqrt3 -> (s = CLoop -> no_isolated inp /\ ((2 <= k)%nat -> no_wire inp)) ->
  sel <> [] -> existing inp sel -> iterative_update s k fuel sel inp = Ok (f, out) ->
  forall t, In t (tris inp) ->
    (forall i u a b, In i sel -> In (i, u) (faces inp) -> edge_of u a b -> ~ edge_of t a b) -> In t (tris out).
Proof.
  intros O D s k sel inp fuel f out Hv Hd Hs Hl Hne He E t Ht Ha. unfold iterative_update in E.
  assert (Hk : exists n, Nat.max 1 k = S n) by (exists (Nat.max 1 k - 1)%nat; lia). destruct Hk as [n Hk].
  rewrite Hk in E. apply iter_pipe in E. rewrite <- Hk in E.
  apply (outside_pipe s Hs _ _ _ _ _ E Hv Hd); auto.
  intros Es. destruct (Hl Es) as [L1 L2]. split; [exact L1|]. intros Hx. apply L2. lia.
Qed.

(** C47, sqrt(3), selections with repetitions. *)
Lemma C47_sqrt3_repeated_pf : forall (O : Ops) (D : Type) f (inp : mesh O D) a b,
  valid inp -> dense inp -> existing inp (csel f) ->
  (nV inp + nF inp + Z.of_nat (length (csel f)) < 2 ^ 64)%Z -> wire_edge inp a b ->
  exists f' out, completes (fun fuel => update (CellF CSqrt3) fuel f inp) (Ok (f', out)) /\ ~ joined out a b.
Proof.
  intros O D f inp a b Hv Hd He Hfit Hw. destruct (csel f) as [|i0 sel0] eqn:Es.
  { destruct (C47_sqrt3_pf O D f inp a b Hv Hd) as [f' [out [cen [E [_ H]]]]]; [|exact Hw|exists f', out; auto].
    split; [rewrite Es; intros ? []|]. rewrite Es. split; [constructor|]. cbn [length] in Hfit. lia. }
  rewrite <- Es in *. assert (Hne : csel f <> []) by congruence. destruct Hw as [Hj [Hab Hba]].
  assert (Hfit' : (nV inp + Z.of_nat (length (csel f)) < 2 ^ 64)%Z) by (unfold nF in Hfit; destruct (cells inp); lia).
  destruct (update3r f inp (S (length (tris inp))) Hv Hd He Hne Hfit' ltac:(lia)) as [f' [out [E HR]]].
  exists f', out. split.
  { split; [discriminate|]. exists (S (length (tris inp))). intros fuel Hfuel.
    destruct (update3r f inp fuel Hv Hd He Hne Hfit' ltac:(lia)) as [f1 [o1 [E1 _]]].
    rewrite <- E. apply update_fuel; congruence. }
  set (V := osize (pts inp)) in *. set (L := sel_tris inp (csel f)) in *.
  assert (Ha : a < V) by (apply Hd; apply (v_ring_pts _ Hv b a); apply (v_ring_sym _ Hv); exact Hj).
  assert (Hb : b < V) by (apply Hd; apply (v_ring_pts _ Hv a b); exact Hj).
  assert (Hno : forall x y, x < V -> y < V -> In (x, y) (dirs (tris out)) -> In (x, y) (dirs (tris inp)) \/ In (y, x) (dirs (tris inp))).
  { intros x y Hx Hy H. apply dirs_tri in H. destruct H as [w [Hw Hxy]].
    apply (rq_tris _ _ _ _ _ _ Hv Hd HR) in Hw. fold V in Hw. apply root3_In in Hw.
    destruct Hw as [[Hw _]|[t [g [p [q [Ht [Hg [Hpq ->]]]]]]]].
    - left. apply dirs_tri. eauto.
    - apply cenr_range in Hg. unfold etri in Hxy. destruct (cenE (tris inp) (cenr V L) (q, p)) as [h|] eqn:Eh.
      + apply cenE_Some in Eh. destruct Eh as [t' [_ [_ Eh]]]. apply cenr_range in Eh.
        cbn in Hxy. destruct Hxy as [H|[H|[H|[]]]]; injection H as <- <-; lia.
      + cbn in Hxy. destruct Hxy as [H|[H|[H|[]]]]; injection H as <- <-; try lia. left. apply dirs_tri. eauto. }
  intros Ho. apply (i_ring _ _ _ _ (rq_built _ _ _ _ _ HR)) in Ho. rewrite <- (built_tris _ _ (rq_built _ _ _ _ _ HR)) in Ho.
  destruct Ho as [Ho|Ho]; [destruct (Hno a b Ha Hb Ho)|destruct (Hno b a Hb Ha Ho)]; auto.
Qed.
