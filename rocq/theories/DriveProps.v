(** * DriveProps: the properties of criteria and drivers. *)
From Coq Require Import Reals Lra Psatz Sorted.
From Verif Require Import Base Mesh Filters Drivers Spec SpecSub Lists AddFace SplitTri Split Points Valid Run Update Struct Count Face Copy PtsAny SpecGeo Geo GeoProps SpecDrive Drive Area Cond.

(** ** C38 *)
Lemma kgtb_R d (x y : R) : kgtb (RO d) x y = true <-> (y < x)%R.
Proof. cbn. destruct (Rlt_dec y x); split; intros H; try discriminate; auto; contradiction. Qed.
Lemma valid_wf {O D} (m : mesh O D) : valid m -> wf_points m.
Proof. intros Hv. split; [apply Hv|]. intros id p. apply (v_pts_dim _ Hv). Qed.

Section REALSEL.
Context {d : nat} {D : Type}.
Notation mesh := (mesh (RO d) D).
Implicit Types m inp out : mesh.

Lemma long_cells_R t m id : valid m -> In id (long_cells (O := RO d) t m) <-> exists u, In (id, u) (faces m) /\ (t < tri_area m u)%R.
Proof.
  intros Hv. rewrite (long_cells_In (O := RO d) t m id Hv). split.
  - intros [a [b [c [pa [pb [pc [Hf [[Ha [Hb Hc]] Hg]]]]]]]]. exists (a, b, c). split; [exact Hf|].
    apply kgtb_R in Hg. rewrite (area_heron m a b c pa pb pc (valid_wf m Hv) Ha Hb Hc) in Hg. exact Hg.
  - intros [[[a b] c] [Hf Hg]].
    assert (Ht : In (a, b, c) (tris m)) by (apply in_map_iff; exists (id, (a, b, c)); auto).
    pose proof (v_verts _ Hv _ a Ht ltac:(cbn; auto)) as Ha. pose proof (v_verts _ Hv _ b Ht ltac:(cbn; auto)) as Hb.
    pose proof (v_verts _ Hv _ c Ht ltac:(cbn; auto)) as Hc.
    destruct (oget a (pts m)) as [pa|] eqn:Ea; [|exfalso; apply Ha; reflexivity].
    destruct (oget b (pts m)) as [pb|] eqn:Eb; [|exfalso; apply Hb; reflexivity].
    destruct (oget c (pts m)) as [pc|] eqn:Ec; [|exfalso; apply Hc; reflexivity].
    exists a, b, c, pa, pb, pc. split; [exact Hf|]. split; [repeat split; assumption|].
    apply kgtb_R. rewrite (area_heron m a b c pa pb pc (valid_wf m Hv) Ea Eb Ec). exact Hg.
Qed.
Lemma edge_over_R t m a b : wf_points m -> oget a (pts m) <> None -> oget b (pts m) <> None ->
  edge_over (O := RO d) t m (Some (a, b)) = true <-> (t < seg_length m a b)%R.
Proof.
  intros Hw Ha Hb. unfold edge_over. cbn [fst snd].
  destruct (oget a (pts m)) as [p|] eqn:Ea; [|exfalso; apply Ha; reflexivity].
  destruct (oget b (pts m)) as [q|] eqn:Eb; [|exfalso; apply Hb; reflexivity].
  rewrite kgtb_R, (dist_seg m a b p q Hw Ea Eb). reflexivity.
Qed.
Lemma long_edges_dir t m a b : valid m -> In (Some (a, b)) (long_edges (O := RO d) t m) <->
  In (Some (a, b)) (map snd (edges_of m)) /\ joined m a b /\ (t < seg_length m a b)%R.
Proof.
  intros Hv. unfold long_edges. rewrite filter_In.
  assert (Hj : In (Some (a, b)) (map snd (edges_of m)) -> joined m a b).
  { intros H. apply in_map_iff in H. destruct H as [[i o] [E H]]. cbn in E. subst o.
    destruct (v_ecells _ Hv) as [es [He [_ [H1 _]]]]. unfold edges_of in H. rewrite He in H.
    destruct (H1 _ _ H) as [x [y [E Hj]]]. inv E. exact Hj. }
  split.
  - intros [H1 H2]. split; [exact H1|]. specialize (Hj H1). split; [exact Hj|].
    apply (edge_over_R t m a b (valid_wf m Hv)) in H2; [exact H2| |apply (v_ring_pts _ Hv a b Hj)].
    apply (v_ring_pts _ Hv b a). apply (v_ring_sym _ Hv). exact Hj.
  - intros [H1 [H2 H3]]. split; [exact H1|]. apply (edge_over_R t m a b (valid_wf m Hv)); [|apply (v_ring_pts _ Hv a b H2)|exact H3].
    apply (v_ring_pts _ Hv b a). apply (v_ring_sym _ Hv). exact H2.
Qed.
Lemma long_edges_R t m a b : valid m ->
  (In (Some (a, b)) (long_edges (O := RO d) t m) \/ In (Some (b, a)) (long_edges (O := RO d) t m)) <->
  joined m a b /\ (t < seg_length m a b)%R.
Proof.
  intros Hv. rewrite !(long_edges_dir t m) by exact Hv. split.
  - intros [[_ H]|[_ [H1 H2]]]; [exact H|]. split; [apply (v_ring_sym _ Hv); exact H1|]. rewrite seg_sym. exact H2.
  - intros [H1 H2]. destruct (v_ecells _ Hv) as [es [He [_ [_ [H3 _]]]]].
    destruct (H3 a b H1) as [id [e [Hin [-> | ->]]]]; cbn [fst snd] in Hin.
    + left. split; [|auto]. apply in_map_iff. exists (id, Some (a, b)). unfold edges_of. rewrite He. auto.
    + right. split; [|split; [apply (v_ring_sym _ Hv); exact H1|rewrite seg_sym; exact H2]].
      apply in_map_iff. exists (id, Some (b, a)). unfold edges_of. rewrite He. auto.
Qed.
End REALSEL.

Lemma all_tri_cells {O D} (m : mesh O D) : all_triangles m -> cells m = Some (map (fun it => (fst it, poly (snd it))) (faces m)).
Proof.
  intros [cs [Hc H]]. unfold faces. rewrite Hc. f_equal. clear Hc.
  induction cs as [|[id c] cs IH]; [reflexivity|]. destruct (H id c) as [x [y [z ->]]]; [cbn; auto|].
  cbn. f_equal. apply IH. intros i e Hi. apply (H i e). cbn. auto.
Qed.

Lemma C38_cell_area_pf : forall (d : nat) (D : Type) (maxarea : R) (m : mesh (RO d) D) old,
  wf_points m -> all_triangles m -> (forall u x, In u (tris m) -> In x (tverts u) -> oget x (pts m) <> None) ->
  exists l, completes (fun fuel => cell_area_criterion (O := RO d) maxarea fuel m old) (Ok (SelCells l)) /\
    l = map fst (filter (fun iu => if Rlt_dec maxarea (tri_area m (snd iu)) then true else false) (faces m)).
Proof.
  intros d D t m old Hw Ht Hx. pose proof (all_tri_cells m Ht) as Hc.
  assert (Hr : forall id c, In (id, c) (map (fun it => (fst it, poly (snd it))) (faces m)) ->
    exists a b e pa pb pc, c = poly (a, b, e) /\ In (a, b, e) (tris m) /\ tri_pts m a b e pa pb pc).
  { intros id c H. apply in_map_iff in H. destruct H as [[i [[a b] e]] [E H]]. inv E.
    assert (Hi : In (a, b, e) (tris m)) by (apply in_map_iff; exists (id, (a, b, e)); auto).
    pose proof (Hx _ a Hi ltac:(cbn; auto)) as Ha. pose proof (Hx _ b Hi ltac:(cbn; auto)) as Hb.
    pose proof (Hx _ e Hi ltac:(cbn; auto)) as He.
    destruct (oget a (pts m)) as [pa|] eqn:Ea; [|exfalso; apply Ha; reflexivity].
    destruct (oget b (pts m)) as [pb|] eqn:Eb; [|exfalso; apply Hb; reflexivity].
    destruct (oget e (pts m)) as [pe|] eqn:Ee; [|exfalso; apply He; reflexivity].
    exists a, b, e, pa, pb, pe. repeat split; assumption. }
  assert (Hrd : forall id c, In (id, c) (map (fun it => (fst it, poly (snd it))) (faces m)) -> cell_readable m c).
  { intros id c H. destruct (Hr id c H) as [a [b [e [pa [pb [pc [-> [_ Hp]]]]]]]]. exists a, b, e, pa, pb, pc. split; [reflexivity|exact Hp]. }
  exists (long_cells (O := RO d) t m). split.
  - split; [discriminate|]. exists (S (length (faces m))). intros fuel Hf. eapply area_crit_ok; [exact Hc|exact Hrd|].
    rewrite map_length. lia.
  - unfold long_cells, cells_list. rewrite Hc. clear Hrd. revert Hr. generalize (faces m) as F.
    induction F as [|[id [[a b] c]] F IH]; intros Hr; [reflexivity|]. cbn [map fst snd filter].
    destruct (Hr id (poly (a, b, c))) as [a' [b' [c' [pa [pb [pc [E [_ [Ha [Hb Hcc]]]]]]]]]]; [cbn; auto|]. inv E.
    unfold cell_over at 1. cbn [snd obind poly as_triangle tverts]. rewrite Ha, Hb, Hcc.
    assert (Eg : kgtb (RO d) (@area (RO d) pa pb pc) t = if Rlt_dec t (tri_area m (a', b', c')) then true else false).
    { rewrite (area_heron m a' b' c' pa pb pc Hw Ha Hb Hcc). reflexivity. }
    rewrite Eg. destruct (Rlt_dec t (tri_area m (a', b', c'))); cbn [okeys map fst]; [f_equal|]; apply IH;
      intros i x Hi; apply (Hr i x); cbn; auto.
Qed.

Lemma C38_cell_area_valid_pf : forall (d : nat) (D : Type) (maxarea : R) (m : mesh (RO d) D) old, valid m ->
  exists l, completes (fun fuel => cell_area_criterion (O := RO d) maxarea fuel m old) (Ok (SelCells l)) /\
    StronglySorted N.lt l /\
    forall id, In id l <-> exists u, In (id, u) (faces m) /\ (maxarea < tri_area m u)%R.
Proof.
  intros d D t m old Hv. exists (long_cells (O := RO d) t m). split; [|split].
  - destruct (area_crit_runs (O := RO d) t m old Hv) as [n Hn]. split; [discriminate|]. exists n. intros fuel Hf.
    replace fuel with (n + (fuel - n))%nat by lia. rewrite area_crit_mono; [exact Hn|]. rewrite Hn. discriminate.
  - apply long_cells_sorted. exact Hv.
  - intros id. apply long_cells_R. exact Hv.
Qed.

Lemma C38_edge_length_pf : forall (d : nat) (D : Type) (maxlen : R) (m : mesh (RO d) D) old fuel, valid m ->
  exists l, edge_length_criterion (O := RO d) maxlen fuel m old = Ok (SelEdges l) /\
    (exists ids, StronglySorted N.lt ids /\ Forall2 (fun id o => In (id, o) (edges_of m)) ids l) /\
    listed_once l /\ ~ In None l /\
    (forall a b, In (Some (a, b)) l \/ In (Some (b, a)) l <-> joined m a b /\ (maxlen < seg_length m a b)%R).
Proof.
  intros d D t m old fuel Hv. exists (long_edges (O := RO d) t m). split; [apply edge_crit_runs; exact Hv|].
  split; [|split; [|split]].
  - unfold long_edges. destruct (v_ecells _ Hv) as [es [He [Hs _]]]. unfold edges_of. rewrite He. clear He.
    assert (G : forall es', sorted_keys es' -> (forall x, In x es' -> In x es) ->
      exists ids, StronglySorted N.lt ids /\ (forall i, In i ids -> In i (okeys es')) /\
        Forall2 (fun id o => In (id, o) es) ids (filter (edge_over (O := RO d) t m) (map snd es'))).
    { induction es' as [|[i o] es' IH]; intros Hs' Hin; [exists []; repeat constructor; intros ? []|].
      unfold sorted_keys in Hs'. cbn in Hs'. inv Hs'.
      destruct IH as [ids [I1 [I2 I3]]]; [assumption|intros x Hx; apply Hin; cbn; auto|].
      cbn [map snd filter]. destruct (edge_over (O := RO d) t m o).
      - exists (i :: ids). split; [constructor; [exact I1|]; rewrite Forall_forall in *; auto|].
        split; [cbn; intros j [->|Hj]; auto|]. constructor; [apply Hin; cbn; auto|exact I3].
      - exists ids. split; [exact I1|]. split; [cbn; auto|exact I3]. }
    destruct (G es Hs ltac:(auto)) as [ids [I1 [_ I3]]]. exists ids. auto.
  - apply long_edges_once. exact Hv.
  - intros H. apply (long_edges_In (O := RO d) t m _ Hv) in H. destruct H as [a [b [E _]]]. discriminate.
  - intros a b. apply long_edges_R. exact Hv.
Qed.

(** ** C34 *)
Lemma C34_criterion_satisfied_pf : forall (O : Ops) (D : Type) k (cr : @criterion O D) old f (inp : mesh O D) fuel f' out,
  conditional_update fuel k (Some cr) old f inp = Ok (f', out) ->
  exists fuel' s s', cr fuel' out s = Ok s' /\ sel_empty s' = true.
Proof. intros O D k cr old f inp fuel f' out H. eapply cond_inv; eauto. Qed.

Lemma long_nil_cells {d D} t (m : mesh (RO d) D) : wf_points m ->
  (forall id c, In (id, c) (cells_list m) -> cell_readable m c) -> long_cells (O := RO d) t m = [] ->
  forall u, In u (tris m) -> (tri_area m u <= t)%R.
Proof.
  intros Hw Hr Hl u Hu. unfold tris in Hu. apply in_map_iff in Hu. destruct Hu as [[id u'] [E Hu]]. cbn in E. subst u'.
  unfold faces in Hu. unfold cells_list in *. unfold long_cells, cells_list in Hl. destruct (cells m) as [cs|]; [|destruct Hu].
  apply in_flat_map in Hu. destruct Hu as [[i c] [Hi Hu]]. apply in_map_iff in Hu. destruct Hu as [u' [E Hu]]. cbn [fst snd] in *.
  injection E as -> ->. rename id into i.
  destruct (Hr i c Hi) as [a [b [e [pa [pb [pc [Et [Ha [Hb Hc]]]]]]]]].
  destruct c as [[l|l]|]; try discriminate.
  destruct l as [|x [|y [|z [|]]]]; try discriminate. cbn in Et. injection Et as -> -> ->. cbn in Hu. destruct Hu as [<-|[]].
  destruct (Rle_dec (tri_area m (a, b, e)) t) as [H|H]; [exact H|]. exfalso.
  assert (Hin : In (i, Some (Poly [a; b; e])) (filter (cell_over (O := RO d) t m) cs)).
  { apply filter_In. split; [exact Hi|]. unfold cell_over. cbn [snd obind as_triangle]. rewrite Ha, Hb, Hc. apply kgtb_R.
    rewrite (area_heron m a b e pa pb pc Hw Ha Hb Hc). lra. }
  apply (in_map fst) in Hin. unfold okeys in Hl. rewrite Hl in Hin. destruct Hin.
Qed.

Lemma C34_area_pf : forall (d : nat) (D : Type) k (maxarea : R) old f (inp : mesh (RO d) D) fuel f' out, wf_points inp ->
  conditional_update fuel k (Some (cell_area_criterion (O := RO d) maxarea)) old f inp = Ok (f', out) ->
  forall u, In u (tris out) -> (tri_area out u <= maxarea)%R.
Proof.
  intros d D k t old f inp fuel f' out Hw H. pose proof (cond_points _ _ _ _ _ _ _ _ Hw H) as Hwo.
  apply cond_inv in H. destruct H as [n [s1 [s2 [E Es]]]]. apply area_crit_inv in E. destruct E as [-> [cs [Hc Hr]]].
  apply long_nil_cells; [exact Hwo|unfold cells_list; rewrite Hc; exact Hr|]. cbn in Es. apply is_nil_true. exact Es.
Qed.

Lemma C34_length_pf : forall (d : nat) (D : Type) k (maxlen : R) old f (inp : mesh (RO d) D) fuel f' out, wf_points inp ->
  conditional_update fuel k (Some (edge_length_criterion (O := RO d) maxlen)) old f inp = Ok (f', out) ->
  forall id a b, In (id, Some (a, b)) (edges_of out) -> (seg_length out a b <= maxlen)%R.
Proof.
  intros d D k t old f inp fuel f' out Hw H id a b Hi. pose proof (cond_points _ _ _ _ _ _ _ _ Hw H) as Hwo.
  apply cond_inv in H. destruct H as [n [s1 [s2 [E Es]]]]. apply edge_crit_inv in E. destruct E as [-> [es [Hc Hr]]].
  unfold edges_of in Hi. rewrite Hc in Hi. destruct (Hr id _ Hi (a, b) eq_refl) as [Ha Hb]. cbn [fst snd] in Ha, Hb.
  destruct (Rle_dec (seg_length out a b) t) as [H|H]; [exact H|]. exfalso.
  cbn in Es. apply is_nil_true in Es. unfold long_edges, edges_of in Es. rewrite Hc in Es.
  assert (Hin : In (Some (a, b)) (filter (edge_over (O := RO d) t out) (map snd es))).
  { apply filter_In. split; [apply in_map_iff; exists (id, Some (a, b)); auto|]. apply edge_over_R; auto. lra. }
  rewrite Es in Hin. destruct Hin.
Qed.

Lemma start_of {O D} k (m : mesh O D) : valid m -> dense m -> tris m <> [] -> splits_faces k ->
  (is_loop k -> no_isolated m /\ no_wire m) -> cond_start k m.
Proof. unfold cond_start. auto. Qed.

Lemma area_chain {O D} s (t : K O) old f (inp : mesh O D) fuel f' out : cond_start (CellF s) inp ->
  conditional_update fuel (CellF s) (Some (cell_area_criterion t)) old f inp = Ok (f', out) ->
  cond_start (CellF s) out /\ exists n, chained (copy_geometry inp) n out.
Proof.
  intros HG H. unfold conditional_update in H.
  destruct (cell_area_criterion t fuel (copy_geometry inp) old) as [s0| | |] eqn:E; cbn [rbind] in H; try discriminate.
  apply area_crit_inv in E. destruct E as [-> _].
  apply (rounds_chain (CellF s) (cell_area_criterion t) (asel t) (cond_start (CellF s))) in H.
  - destruct H as [H1 [_ H2]]. auto.
  - intros n m o x E. apply area_crit_inv in E. apply E.
  - intros m f0 H0 _. apply area_ready. exact H0.
  - intros m f0 n f1 m1 H0 _ E. eapply start_step; [exact H0|apply area_ready; exact H0|exact E].
  - apply copy_start. exact HG.
Qed.
Lemma edge_chain {O D} s (t : K O) old f (inp : mesh O D) fuel f' out : cond_start (EdgeF s) inp ->
  conditional_update fuel (EdgeF s) (Some (edge_length_criterion t)) old f inp = Ok (f', out) ->
  cond_start (EdgeF s) out /\ exists n, chained (copy_geometry inp) n out.
Proof.
  intros HG H. unfold conditional_update in H.
  destruct (edge_length_criterion t fuel (copy_geometry inp) old) as [s0| | |] eqn:E; cbn [rbind] in H; try discriminate.
  apply edge_crit_inv in E. destruct E as [-> _].
  apply (rounds_chain (EdgeF s) (edge_length_criterion t) (esl_ t) (cond_start (EdgeF s))) in H.
  - destruct H as [H1 [_ H2]]. auto.
  - intros n m o x E. apply edge_crit_inv in E. apply E.
  - intros m f0 H0 He. apply edge_ready; assumption.
  - intros m f0 n f1 m1 H0 He E. eapply start_step; [exact H0|apply edge_ready; [exact H0|exact He]|exact E].
  - apply copy_start. exact HG.
Qed.

Lemma C34_area_valid_pf : forall (d : nat) (D : Type) s (maxarea : R) old f (inp : mesh (RO d) D) fuel f' out,
  valid inp -> dense inp -> tris inp <> [] -> s <> CSqrt3 -> (s = CLoop -> no_isolated inp /\ no_wire inp) ->
  conditional_update fuel (CellF s) (Some (cell_area_criterion (O := RO d) maxarea)) old f inp = Ok (f', out) ->
  valid out /\ dense out /\ (forall u, In u (tris out) -> (tri_area out u <= maxarea)%R) /\
  exists m0 n, same_shape inp m0 /\ chained m0 n out.
Proof.
  intros d D s t old f inp fuel f' out Hv Hd Hne Hs Hl H.
  assert (HG : cond_start (CellF s) inp).
  { apply start_of; auto; [unfold splits_faces; congruence|]. intros [E|E]; [apply Hl|]; congruence. }
  destruct (area_chain (O := RO d) s t old f inp fuel f' out HG H) as [HG' [n Hn]].
  split; [apply HG'|]. split; [apply HG'|]. split; [eapply C34_area_pf; [apply valid_wf; exact Hv|exact H]|].
  exists (copy_geometry inp), n. split; [apply copy_shape; exact Hv|exact Hn].
Qed.

Lemma C34_length_valid_pf : forall (d : nat) (D : Type) s (maxlen : R) old f (inp : mesh (RO d) D) fuel f' out,
  valid inp -> dense inp -> tris inp <> [] -> (s = ELoop -> no_isolated inp /\ no_wire inp) ->
  conditional_update fuel (EdgeF s) (Some (edge_length_criterion (O := RO d) maxlen)) old f inp = Ok (f', out) ->
  valid out /\ dense out /\ (forall a b, joined out a b -> (seg_length out a b <= maxlen)%R) /\
  exists m0 n, same_shape inp m0 /\ chained m0 n out.
Proof.
  intros d D s t old f inp fuel f' out Hv Hd Hne Hl H.
  assert (HG : cond_start (EdgeF s) inp).
  { apply start_of; auto; [unfold splits_faces; congruence|]. intros [E|E]; [|apply Hl]; congruence. }
  destruct (edge_chain (O := RO d) s t old f inp fuel f' out HG H) as [HG' [n Hn]].
  split; [apply HG'|]. split; [apply HG'|]. split.
  - intros a b Hj. pose proof (C34_length_pf d D _ t old f inp fuel f' out (valid_wf _ Hv) H) as HL.
    destruct HG' as [Hvo _]. destruct (v_ecells _ Hvo) as [es [He [_ [_ [H2 _]]]]].
    destruct (H2 a b Hj) as [id [e [Hin Hu]]]. unfold edges_of in HL. rewrite He in HL.
    destruct Hu as [-> | ->]; [eapply HL; exact Hin|]. rewrite seg_sym. eapply HL. exact Hin.
  - exists (copy_geometry inp), n. split; [apply copy_shape; exact Hv|exact Hn].
Qed.

(** ** C35 *)
Lemma C35_any_criterion_pf : forall (O : Ops) (D : Type) k (cr : @criterion O D) old f (inp : mesh O D), valid inp ->
  (forall m, same_shape inp m -> exists n s, sel_empty s = true /\ forall fuel, (n <= fuel)%nat -> cr fuel m old = Ok s) ->
  exists out, completes (fun fuel => conditional_update fuel k (Some cr) old f inp) (Ok (f, out)) /\ same_shape inp out.
Proof.
  intros O D k cr old f inp Hv Hc. pose proof (copy_shape inp Hv) as Hs. destruct (Hc _ Hs) as [n [s [He Hn]]].
  exists (copy_geometry inp). split; [|exact Hs]. split; [discriminate|]. exists (S n). intros fuel Hf.
  unfold conditional_update. rewrite Hn by lia. cbn [rbind]. destruct fuel as [|fuel]; [lia|]. cbn [conditional_loop].
  rewrite He. reflexivity.
Qed.

Lemma same_shape_crd {d D} (m m' : mesh (RO d) D) : pts m' = pts m -> forall i x, crd m' i x = crd m i x.
Proof. intros H i x. unfold crd, ptof. rewrite H. reflexivity. Qed.
Lemma same_shape_dot {d D} (m m' : mesh (RO d) D) : pts m' = pts m -> forall o a b, dot m' o a b = dot m o a b.
Proof. intros H o a b. unfold dot. apply rsum_ext. intros i _. rewrite !(same_shape_crd m m' H). reflexivity. Qed.
Lemma same_shape_area {d D} (m m' : mesh (RO d) D) : pts m' = pts m -> forall u, tri_area m' u = tri_area m u.
Proof. intros H [[a b] c]. unfold tri_area. rewrite !(same_shape_dot m m' H). reflexivity. Qed.

Lemma C35_area_pf : forall (d : nat) (D : Type) k (maxarea : R) old f (inp : mesh (RO d) D), valid inp -> tris inp <> [] ->
  (forall u, In u (tris inp) -> (tri_area inp u <= maxarea)%R) ->
  exists out, completes (fun fuel => conditional_update fuel k (Some (cell_area_criterion (O := RO d) maxarea)) old f inp) (Ok (f, out)) /\
    same_shape inp out.
Proof.
  intros d D k t old f inp Hv Hne Ha. pose proof (copy_shape inp Hv) as Hs. pose proof (copy_valid inp Hv Hne) as Hvc.
  exists (copy_geometry inp). split; [|exact Hs].
  destruct (area_crit_runs (O := RO d) t (copy_geometry inp) old Hvc) as [n Hn].
  assert (E : long_cells (O := RO d) t (copy_geometry inp) = []).
  { destruct (long_cells (O := RO d) t (copy_geometry inp)) as [|i l] eqn:El; [reflexivity|]. exfalso.
    assert (Hi : In i (long_cells (O := RO d) t (copy_geometry inp))) by (rewrite El; cbn; auto).
    apply (long_cells_R t _ i Hvc) in Hi. destruct Hi as [u [Hu Hlt]].
    destruct Hs as [Hp [Ht _]]. rewrite (same_shape_area inp (copy_geometry inp) Hp) in Hlt.
    assert (Hin : In u (tris inp)) by (rewrite <- Ht; apply in_map_iff; exists (i, u); auto). specialize (Ha u Hin). lra. }
  apply (cond_completes _ _ _ _ _ (S n)); [apply area_crit_mono| |discriminate].
  unfold conditional_update. replace (S n) with (n + 1)%nat by lia. rewrite area_crit_mono by (rewrite Hn; discriminate).
  rewrite Hn. cbn [rbind]. unfold asel. rewrite E. replace (n + 1)%nat with (S n) by lia. reflexivity.
Qed.

Lemma same_shape_edges {d D} (m m' : mesh (RO d) D) t : valid m -> same_shape m m' -> valid m' ->
  (forall a b, joined m a b -> (seg_length m a b <= t)%R) -> long_edges (O := RO d) t m' = [].
Proof.
  intros Hv [Hp [Ht Hj]] Hv' Ha. destruct (long_edges (O := RO d) t m') as [|o l] eqn:El; [reflexivity|]. exfalso.
  assert (Hi : In o (long_edges (O := RO d) t m')) by (rewrite El; cbn; auto).
  destruct (long_edges_In (O := RO d) t m' o Hv' Hi) as [a [b [-> _]]].
  destruct (proj1 (long_edges_R t m' a b Hv') (or_introl Hi)) as [H1 H2]. apply Hj in H1. apply Ha in H1.
  unfold seg_length in *. rewrite (same_shape_dot m m' Hp) in H2. lra.
Qed.

Lemma C35_length_pf : forall (d : nat) (D : Type) k (maxlen : R) old f (inp : mesh (RO d) D), valid inp -> tris inp <> [] ->
  (forall a b, joined inp a b -> (seg_length inp a b <= maxlen)%R) ->
  exists out, completes (fun fuel => conditional_update fuel k (Some (edge_length_criterion (O := RO d) maxlen)) old f inp) (Ok (f, out)) /\
    same_shape inp out.
Proof.
  intros d D k t old f inp Hv Hne Ha. pose proof (copy_shape inp Hv) as Hs. pose proof (copy_valid inp Hv Hne) as Hvc.
  exists (copy_geometry inp). split; [|exact Hs].
  apply (cond_completes _ _ _ _ _ 1); [apply edge_crit_mono| |discriminate].
  unfold conditional_update. rewrite (edge_crit_runs (O := RO d) t (copy_geometry inp) old 1 Hvc). cbn [rbind]. unfold esl_.
  rewrite (same_shape_edges inp (copy_geometry inp) t Hv Hs Hvc Ha). reflexivity.
Qed.

(** ** Linear: C45, C36, C37 *)
Section LINEAR.
Context {d : nat} {D : Type}.
Notation mesh := (mesh (RO d) D).
Implicit Types m inp out : mesh.
Definition is_linear (k : kind) : Prop := k = CellF CLinear \/ k = EdgeF ELinear.

Lemma linear_facts k f inp fuel f' out : is_linear k -> valid inp -> dense inp -> ready k f inp ->
  update k fuel f inp = Ok (f', out) ->
  exists mid Ls, face_result k f inp f' out mid Ls /\
    (forall i x, oget x (pts inp) <> None -> crd out i x = crd inp i x) /\
    (forall a b e i, mid a b = Some e -> crd out i e = ((crd inp i a + crd inp i b) / 2)%R).
Proof.
  intros Hk Hv Hd Hr E. destruct (face_run k f inp fuel f' out Hv Hd Hr E) as [mid [Ls FR]]. exists mid, Ls.
  split; [exact FR|]. split.
  - intros i x Hx. destruct (oget x (pts inp)) as [p|] eqn:Ex; [|exfalso; apply Hx; reflexivity].
    assert (Eo : oget x (pts out) = Some p) by (eapply fr_old; eauto; destruct Hk; congruence).
    unfold crd. rewrite (ptof_get inp x p Ex), (ptof_get out x p Eo). reflexivity.
  - intros a b e i He. destruct (new_crd k f inp fuel f' out mid Ls a b e i Hv Hr FR E He) as [x [y [Hu [_ [_ ->]]]]].
    destruct Hk as [-> | ->]; cbn [new_mask]; unfold linear_mask, edge_mask, weighted, rsum; cbn [fold_right fst snd];
    destruct Hu as [Eu|Eu]; inv Eu; lra.
Qed.

Lemma out_tri_parent k f inp f' out mid Ls u : valid inp -> face_result k f inp f' out mid Ls -> In u (tris out) ->
  exists a b c, In (a, b, c) (tris inp) /\ In u (split_triangle a b c (mid a b) (mid b c) (mid c a)).
Proof.
  intros Hv FR Hu. rewrite (sd_tris _ _ _ _ _ (fr_sub _ _ _ _ _ _ _ FR)), (fr_Ls _ _ _ _ _ _ _ FR) in Hu.
  apply in_concat in Hu. destruct Hu as [L [HL Hu]]. apply in_map_iff in HL. destruct HL as [[[a b] c] [<- HL]]. eauto 6.
Qed.

Lemma c45_area_preserved_sec k f inp fuel f' out : is_linear k -> valid inp -> dense inp -> ready k f inp ->
  update k fuel f inp = Ok (f', out) ->
  total_area out = total_area inp /\
  exists mid Ls, subdivision inp out (to_split k f inp) mid Ls /\
    forall t L, In (t, L) (combine (tris inp) Ls) -> rsum (tri_area out) L = tri_area inp t /\
      (nsplit mid t = 3%nat -> forall u, In u L -> tri_area out u = (tri_area inp t / 4)%R).
Proof.
  intros Hk Hv Hd Hr E. destruct (linear_facts k f inp fuel f' out Hk Hv Hd Hr E) as [mid [Ls [FR [Hold Hmid]]]].
  pose proof (fr_sub _ _ _ _ _ _ _ FR) as Hsd.
  assert (Hp : forall a b c, In (a, b, c) (tris inp) -> oget a (pts inp) <> None /\ oget b (pts inp) <> None /\ oget c (pts inp) <> None).
  { intros a b c Ht. repeat split; apply (v_verts _ Hv _ _ Ht); cbn; auto. }
  split.
  - unfold total_area. rewrite (sd_tris _ _ _ _ _ Hsd), (fr_Ls _ _ _ _ _ _ _ FR).
    revert Hp. generalize (tris inp) as T. induction T as [|[[a b] c] T IH]; intros Hp; [reflexivity|].
    cbn [map concat]. rewrite rsum_app, IH by (intros x y z H; apply Hp; cbn; auto).
    unfold split_tri at 1. destruct (Hp a b c) as [Ha [Hb Hc]]; [cbn; auto|].
    rewrite (children_total inp out mid Hold Hmid a b c Ha Hb Hc). reflexivity.
  - exists mid, Ls. split; [exact Hsd|]. intros t L HtL. rewrite (fr_Ls _ _ _ _ _ _ _ FR) in HtL. apply combine_map_In in HtL.
    destruct HtL as [Ht ->]. destruct t as [[a b] c]. destruct (Hp a b c Ht) as [Ha [Hb Hc]]. unfold split_tri.
    split; [apply (children_total inp out mid Hold Hmid a b c Ha Hb Hc)|].
    intros Hn u Hu. destruct (child_area inp out mid Hold Hmid a b c Ha Hb Hc u Hu) as [w [-> [_ Hw]]].
    apply all_three_nsplit in Hn. rewrite (Hw Hn). lra.
Qed.

Lemma nat_above (x t : R) : (0 < t)%R -> exists n, (x < INR n * t)%R.
Proof.
  intros Ht. exists (Z.to_nat (up (x / t))). destruct (archimed (x / t)) as [H _].
  assert (Hn : (IZR (up (x / t)) <= INR (Z.to_nat (up (x / t))))%R) by (rewrite INR_IZR_INZ; apply IZR_le; lia).
  assert (Hx : x = (x / t * t)%R) by (field; lra). rewrite Hx at 1. apply Rmult_lt_compat_r; lra.
Qed.
Lemma unbounded_pow (b t : R) (l : list R) : (2 <= b)%R -> (0 < t)%R -> exists n, forall x, In x l -> (x <= t * b ^ n)%R.
Proof.
  intros Hb Ht. assert (Hpow : forall n, (INR n <= b ^ n)%R /\ (1 <= b ^ n)%R).
  { induction n as [|n [IH1 IH2]]; [cbn; lra|]. rewrite S_INR. cbn [pow]. split; nra. }
  assert (Hle : forall n k, (b ^ n <= b ^ (n + k))%R).
  { intros n k. rewrite pow_add. pose proof (Hpow n). pose proof (Hpow k). nra. }
  induction l as [|x l [n IH]]; [exists 0%nat; intros ? []|].
  destruct (nat_above x t Ht) as [q Hq]. exists (n + q)%nat. intros y [<-|Hy].
  - rewrite Nat.add_comm. pose proof (Hle q n). pose proof (Hpow q). nra.
  - specialize (IH y Hy). pose proof (Hle n q). nra.
Qed.

Lemma c36_terminates_sec (maxarea : R) old f inp : valid inp -> dense inp -> tris inp <> [] -> (0 < maxarea)%R ->
  exists f' out, completes (fun fuel => conditional_update fuel (CellF CLinear) (Some (cell_area_criterion (O := RO d) maxarea)) old f inp) (Ok (f', out)).
Proof.
  intros Hv Hd Hne Ht. rename maxarea into t.
  assert (HG : cond_start (CellF CLinear) (copy_geometry inp)).
  { apply copy_start. apply start_of; auto; [unfold splits_faces; congruence|]. intros [E|E]; discriminate. }
  destruct (unbounded_pow 4 t (map (tri_area (copy_geometry inp)) (tris (copy_geometry inp))) ltac:(lra) Ht) as [n Hn].
  destruct (rounds_terminate (O := RO d) (D := D) (CellF CLinear) (cell_area_criterion (O := RO d) t) (asel (O := RO d) t) (cond_start (CellF CLinear)))
    with (Q := fun n m => forall u, In u (tris m) -> (tri_area m u <= t * 4 ^ n)%R) (n := n) (m := copy_geometry inp) (f := f)
    as [fuel [f' [out E]]].
  - apply area_crit_mono.
  - intros m o [Hm _]. apply (area_crit_runs (O := RO d)). exact Hm.
  - intros n0 m o x E. apply area_crit_inv in E. apply E.
  - intros m f0 H0 _. apply area_ready. exact H0.
  - intros m [H1 [H2 _]]. auto.
  - intros m f0 n0 f1 m1 H0 _ E. eapply start_step; [exact H0|apply area_ready; exact H0|exact E].
  - intros m [Hm _] HQ. cbn. apply is_nil_true. destruct (long_cells (O := RO d) t m) as [|i l] eqn:El; [reflexivity|]. exfalso.
    assert (Hi : In i (long_cells (O := RO d) t m)) by (rewrite El; cbn; auto).
    apply (long_cells_R t _ i Hm) in Hi. destruct Hi as [u [Hu Hlt]].
    assert (Hin : In u (tris m)) by (apply in_map_iff; exists (i, u); auto). apply HQ in Hin. cbn in Hin. lra.
  - intros k m f0 n0 f1 m1 H0 HQ Hs E u Hu. pose proof (area_ready (O := RO d) CLinear t m f0 H0) as Hr.
    destruct H0 as [Hm [Hdm _]].
    destruct (linear_facts _ _ m n0 f1 m1 (or_introl eq_refl) Hm Hdm Hr E) as [mid [Ls [FR [Hold Hmid]]]].
    destruct (out_tri_parent _ _ _ _ _ _ _ u Hm FR Hu) as [a [b [c [Hin Hu']]]].
    assert (Hpa : oget a (pts m) <> None) by (apply (v_verts _ Hm _ _ Hin); cbn; auto).
    assert (Hpb : oget b (pts m) <> None) by (apply (v_verts _ Hm _ _ Hin); cbn; auto).
    assert (Hpc : oget c (pts m) <> None) by (apply (v_verts _ Hm _ _ Hin); cbn; auto).
    destruct (child_area m m1 mid Hold Hmid a b c Hpa Hpb Hpc u Hu') as [w [-> [Hw Hw4]]].
    pose proof (tri_area_nonneg m (a, b, c)) as Hnn. pose proof (HQ _ Hin) as Hle. cbn [pow] in Hle.
    assert (H1n : (1 <= 4 ^ k)%R) by (apply pow_R1_Rle; lra).
    destruct (Rle_dec (tri_area m (a, b, c)) t) as [Hs1|Hs1]; [nra|].
    assert (Hsel : exists i, In i (long_cells (O := RO d) t m) /\ In (i, (a, b, c)) (faces m)).
    { unfold tris in Hin. apply in_map_iff in Hin. destruct Hin as [[i u'] [Eu Hi]]. cbn in Eu. subst u'. exists i.
      split; [|exact Hi]. apply (long_cells_R t m i Hm). exists (a, b, c). split; [exact Hi|]. lra. }
    destruct Hsel as [i [Hi1 Hi2]].
    assert (Hn3 : nsplit mid (a, b, c) = 3%nat).
    { eapply selected_nsplit; [exact (fr_sub _ _ _ _ _ _ _ FR)|intros x y Hxy; exact Hxy|]. right. exists i. split; [exact Hi1|exact Hi2]. }
    apply all_three_nsplit in Hn3. rewrite (Hw4 Hn3). lra.
  - exact HG.
  - intros u Hu. apply Hn. apply in_map. exact Hu.
  - destruct (area_crit_runs (O := RO d) t (copy_geometry inp) old (proj1 HG)) as [n2 Hn2].
    exists f', out. apply (cond_completes _ _ _ _ _ (fuel + n2)); [apply area_crit_mono| |discriminate].
    unfold conditional_update. rewrite Nat.add_comm. rewrite area_crit_mono by (rewrite Hn2; discriminate). rewrite Hn2. cbn [rbind].
    rewrite Nat.add_comm. rewrite cond_loop_mono; [exact E|apply area_crit_mono|rewrite E; discriminate].
Qed.

Lemma seg_le m a b L : (0 <= L)%R -> (seg_length m a b <= L)%R <-> (dot m a b b <= L * L)%R.
Proof.
  intros HL. unfold seg_length. pose proof (dot_nonneg m a b) as Hn. split; intros H.
  - rewrite <- (sqrt_sqrt _ Hn). pose proof (sqrt_pos (dot m a b b)). nra.
  - rewrite <- (sqrt_square L HL). apply sqrt_le_1_alt. exact H.
Qed.

Lemma c37_terminates_sec (maxlen : R) old f inp : valid inp -> dense inp -> tris inp <> [] -> (0 < maxlen)%R ->
  exists f' out, completes (fun fuel => conditional_update fuel (EdgeF ELinear) (Some (edge_length_criterion (O := RO d) maxlen)) old f inp) (Ok (f', out)).
Proof.
  intros Hv Hd Hne Ht. rename maxlen into L.
  assert (HG : cond_start (EdgeF ELinear) (copy_geometry inp)).
  { apply copy_start. apply start_of; auto; [unfold splits_faces; congruence|]. intros [E|E]; discriminate. }
  set (q := (L * L / 2)%R). assert (Hq : (0 < q)%R) by (unfold q; nra).
  destruct (unbounded_pow 2 q (map (fun o => match o with Some (a, b) => dot (copy_geometry inp) a b b | None => 0%R end)
             (map snd (edges_of (copy_geometry inp)))) ltac:(lra) Hq) as [n Hn].
  destruct (rounds_terminate (O := RO d) (D := D) (EdgeF ELinear) (edge_length_criterion (O := RO d) L) (esl_ (O := RO d) L) (cond_start (EdgeF ELinear)))
    with (Q := fun n m => forall a b, joined m a b -> (dot m a b b <= q + q * 2 ^ n)%R) (n := n) (m := copy_geometry inp) (f := f)
    as [fuel [f' [out E]]].
  - apply edge_crit_mono.
  - intros m o [Hm _]. exists 0%nat. apply edge_crit_runs. exact Hm.
  - intros n0 m o x E. apply edge_crit_inv in E. apply E.
  - intros m f0 H0 He. apply edge_ready; assumption.
  - intros m [H1 [H2 _]]. auto.
  - intros m f0 n0 f1 m1 H0 He E. eapply start_step; [exact H0|apply edge_ready; [exact H0|exact He]|exact E].
  - intros m [Hm _] HQ. cbn. apply is_nil_true. apply (same_shape_edges m m L Hm); [|exact Hm|].
    { unfold same_shape. repeat split; auto. }
    intros a b Hj. apply seg_le; [lra|]. specialize (HQ a b Hj). cbn in HQ. unfold q in HQ. lra.
  - intros k m f0 n0 f1 m1 H0 HQ Hs E x y Hxy. pose proof (edge_ready (O := RO d) ELinear L m f0 H0 Hs) as Hr.
    pose proof (start_step _ _ _ _ _ _ H0 Hr E) as H1.
    destruct H0 as [Hm [Hdm [Hnem _]]].
    destruct (step_ok _ _ _ _ _ _ Hm Hdm Hnem Hr E) as [Hm1 [_ [_ [Hw1 _]]]].
    destruct (linear_facts _ _ m n0 f1 m1 (or_intror eq_refl) Hm Hdm Hr E) as [mid [Ls [FR [Hold Hmid]]]].
    pose proof (fr_sub _ _ _ _ _ _ _ FR) as Hsd.
    assert (Hgo : forall x y, In (x, y) (dirs (tris m1)) -> (dot m1 x y y <= q + q * 2 ^ k)%R).
    { clear x y Hxy. intros x y Hd1. apply dirs_tri in Hd1. destruct Hd1 as [u [Hu Hd1]].
      destruct (out_tri_parent _ _ _ _ _ _ _ u Hm FR Hu) as [a [b [c [Hin Hu']]]].
      assert (Hpa : oget a (pts m) <> None) by (apply (v_verts _ Hm _ _ Hin); cbn; auto).
      assert (Hpb : oget b (pts m) <> None) by (apply (v_verts _ Hm _ _ Hin); cbn; auto).
      assert (Hpc : oget c (pts m) <> None) by (apply (v_verts _ Hm _ _ Hin); cbn; auto).
      assert (Hjn : forall v w, In (v, w) (tdirs (a, b, c)) -> joined m v w).
      { intros v w H. apply (v_face_edges _ Hm). apply dirs_tri. exists (a, b, c). auto. }
      assert (Hsp : forall v w, In (v, w) (tdirs (a, b, c)) -> (mid v w <> None <-> (L < seg_length m v w)%R)).
      { intros v w H. rewrite (sd_dom _ _ _ _ _ Hsd v w). cbn [to_split apply_selection esl_ esel set_edges_to_be_subdivided].
        rewrite (long_edges_R L m v w Hm). split.
        - intros [[Hnil Hj]|[_ H2]]; [|exact H2]. exfalso. cbn in Hs. rewrite Hnil in Hs. discriminate.
        - intros H2. right. split; [apply Hjn; exact H|exact H2]. }
      assert (H1n : (1 <= 2 ^ k)%R) by (apply pow_R1_Rle; lra).
      destruct (child_edge m m1 mid Hold Hmid a b c Hpa Hpb Hpc (L * L)%R (q + q * 2 ^ S k)%R) with (u := u) (x := x) (y := y) as [H|H].
      - nra.
      - cbn [pow]. unfold q in *. nra.
      - intros v w H. apply HQ. apply Hjn. exact H.
      - intros v w H H2. apply (Hsp v w H) in H2. destruct (Rle_dec (dot m v w w) (L * L)) as [Hle|Hle]; [|lra].
        apply seg_le in Hle; lra.
      - intros v w H H2. apply seg_le; [lra|]. destruct (Rle_dec (seg_length m v w) L) as [Hle|Hle]; [exact Hle|]. exfalso.
        apply (Hsp v w H); [lra|exact H2].
      - exact Hu'.
      - exact Hd1.
      - unfold q in *. nra.
      - cbn [pow] in H. unfold q in *. nra. }
    destruct (Hw1 x y Hxy) as [H|H]; [apply Hgo; exact H|]. rewrite dot_swap. apply Hgo. exact H.
  - exact HG.
  - intros a b Hj. pose proof (proj1 HG) as Hvc. destruct (v_ecells _ Hvc) as [es [He [_ [_ [H2 _]]]]].
    destruct (H2 a b Hj) as [id [e [Hin Hu]]].
    assert (Hi : In (Some e) (map snd (edges_of (copy_geometry inp)))).
    { apply in_map_iff. exists (id, Some e). unfold edges_of. rewrite He. auto. }
    apply (in_map (fun o => match o with Some (a, b) => dot (copy_geometry inp) a b b | None => 0%R end)) in Hi. apply Hn in Hi.
    destruct Hu as [-> | ->]; cbn [fst snd] in Hi; [lra|]. rewrite dot_swap. lra.
  - exists f', out. apply (cond_completes _ _ _ _ _ fuel); [apply edge_crit_mono| |discriminate].
    unfold conditional_update. rewrite (edge_crit_runs (O := RO d) L (copy_geometry inp) old fuel (proj1 HG)). cbn [rbind]. exact E.
Qed.
End LINEAR.

Lemma C45_area_preserved_pf : forall (d : nat) (D : Type) k f (inp : mesh (RO d) D) fuel f' out,
  k = CellF CLinear \/ k = EdgeF ELinear -> valid inp -> dense inp -> ready k f inp ->
  update k fuel f inp = Ok (f', out) ->
  total_area out = total_area inp /\
  exists mid Ls, subdivision inp out (to_split k f inp) mid Ls /\
    forall t L, In (t, L) (combine (tris inp) Ls) -> rsum (tri_area out) L = tri_area inp t /\
      (nsplit mid t = 3%nat -> forall u, In u L -> tri_area out u = (tri_area inp t / 4)%R).
Proof. intros d D. exact c45_area_preserved_sec. Qed.

Lemma C36_terminates_pf : forall (d : nat) (D : Type) (maxarea : R) old f (inp : mesh (RO d) D),
  valid inp -> dense inp -> tris inp <> [] -> (0 < maxarea)%R ->
  exists f' out, completes (fun fuel => conditional_update fuel (CellF CLinear)
      (Some (cell_area_criterion (O := RO d) maxarea)) old f inp) (Ok (f', out)) /\
    (forall u, In u (tris out) -> (tri_area out u <= maxarea)%R) /\ valid out /\
    total_area out = total_area inp.
Proof.
  intros d D t old f inp Hv Hd Hne Ht. destruct (c36_terminates_sec t old f inp Hv Hd Hne Ht) as [f' [out H]].
  exists f', out. split; [exact H|]. destruct H as [_ [n Hn]]. specialize (Hn n (le_n n)). cbv beta in Hn.
  destruct (C34_area_valid_pf d D CLinear t old f inp n f' out Hv Hd Hne ltac:(discriminate) ltac:(discriminate) Hn)
    as [H1 [_ [H2 _]]]. split; [exact H2|]. split; [exact H1|]. clear H1 H2.
  assert (HG : cond_start (CellF CLinear) (copy_geometry inp)).
  { apply copy_start. apply start_of; auto; [unfold splits_faces; congruence|]. intros [E|E]; discriminate. }
  destruct (copy_shape inp Hv) as [Hp [Htr _]].
  assert (E0 : total_area (copy_geometry inp) = total_area inp).
  { unfold total_area. rewrite Htr. apply rsum_ext. intros u _. apply same_shape_area. exact Hp. }
  rewrite <- E0. unfold conditional_update in Hn.
  destruct (cell_area_criterion (O := RO d) t n (copy_geometry inp) old) as [s0| | |] eqn:E; cbn [rbind] in Hn; try discriminate.
  apply area_crit_inv in E. destruct E as [-> _]. clear E0 Hp Htr.
  revert Hn HG. generalize (copy_geometry inp) as m. intros m. fold (asel (O := RO d) t m). revert m f.
  generalize n at 1 as q. clear. induction q as [|q IH]; intros m f H HG; [discriminate|]. cbn [conditional_loop] in H.
  destruct (sel_empty (asel (O := RO d) t m)) eqn:Es; [inv H; reflexivity|].
  destruct (update (CellF CLinear) q (apply_selection f (asel (O := RO d) t m)) m) as [[f1 m1]| | |] eqn:E; cbn [rbind] in H; try discriminate.
  destruct (cell_area_criterion (O := RO d) t q m1 (asel (O := RO d) t m)) as [s1| | |] eqn:Ec; cbn [rbind] in H; try discriminate.
  apply area_crit_inv in Ec. destruct Ec as [-> _]. pose proof (area_ready (O := RO d) CLinear t m f HG) as Hr.
  rewrite (IH m1 f1 H); [|eapply start_step; [exact HG|exact Hr|exact E]].
  destruct HG as [Hv [Hd _]].
  exact (proj1 (c45_area_preserved_sec _ _ m q f1 m1 (or_introl eq_refl) Hv Hd Hr E)).
Qed.

Lemma C37_terminates_pf : forall (d : nat) (D : Type) (maxlen : R) old f (inp : mesh (RO d) D),
  valid inp -> dense inp -> tris inp <> [] -> (0 < maxlen)%R ->
  exists f' out, completes (fun fuel => conditional_update fuel (EdgeF ELinear)
      (Some (edge_length_criterion (O := RO d) maxlen)) old f inp) (Ok (f', out)) /\
    (forall a b, joined out a b -> (seg_length out a b <= maxlen)%R) /\ valid out.
Proof.
  intros d D t old f inp Hv Hd Hne Ht. destruct (c37_terminates_sec t old f inp Hv Hd Hne Ht) as [f' [out H]].
  exists f', out. split; [exact H|]. destruct H as [_ [n Hn]]. specialize (Hn n (le_n n)). cbv beta in Hn.
  destruct (C34_length_valid_pf d D ELinear t old f inp n f' out Hv Hd Hne ltac:(discriminate) Hn)
    as [H1 [_ [H2 _]]]. split; [exact H2|exact H1].
Qed.
