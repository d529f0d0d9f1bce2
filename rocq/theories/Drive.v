(** * Drive: the criteria, and the conditional and iterative filter. *)
From Coq Require Import Reals Lra Sorted Permutation.
From Verif Require Import Base Mesh Filters Drivers Spec SpecSub Lists AddFace SplitTri Split Points Valid Run Update Struct Count Face Copy PtsAny SpecGeo Geo SpecDrive.

(** ** Lengths and areas over the reals *)
Section REALGEO.
Context {d : nat} {D : Type}.
Notation mesh := (mesh (RO d) D).
Implicit Types m : mesh.

Lemma sqdist_acc (p q : list R) : length p = length q -> forall acc,
  @sqdist (RO d) acc p q = (acc + rsum (fun i => (nth i p 0 - nth i q 0) ^ 2) (seq 0 (length p)))%R.
Proof.
  revert q. induction p as [|x p IH]; intros [|y q] H acc; try discriminate.
  - cbn. lra.
  - cbn [sqdist length seq]. rewrite IH by (cbn in H; lia).
    replace (rsum (fun i => ((nth i (x :: p) 0 - nth i (y :: q) 0) ^ 2)%R) (0%nat :: seq 1 (length p)))
      with ((x - y) ^ 2 + rsum (fun i => ((nth i p 0 - nth i q 0) ^ 2)%R) (seq 0 (length p)))%R.
    + cbn [kadd kmul ksub RO]. lra.
    + unfold rsum at 2. cbn [fold_right nth]. f_equal.
      rewrite <- seq_shift. symmetry. apply (rsum_map S (fun i => ((nth i (x :: p) 0 - nth i (y :: q) 0) ^ 2)%R)).
Qed.

Lemma dot_sym m o a b : dot m o a b = dot m o b a.
Proof. unfold dot. apply rsum_ext. intros. ring. Qed.
Lemma dot_nonneg m o a : (0 <= dot m o a a)%R.
Proof. unfold dot. apply rsum_nonneg. intros i _. apply Rle_0_sqr. Qed.
Lemma dot_swap m a b : dot m a b b = dot m b a a.
Proof. unfold dot. apply rsum_ext. intros. ring. Qed.
Lemma seg_sym m a b : seg_length m a b = seg_length m b a.
Proof. unfold seg_length. rewrite dot_swap. reflexivity. Qed.

Lemma dist_seg m a b p q : wf_points m -> oget a (pts m) = Some p -> oget b (pts m) = Some q ->
  @dist (RO d) p q = seg_length m a b.
Proof.
  intros [_ Hd] Ha Hb. unfold dist, seg_length. cbn [ksqrt kZ RO]. f_equal.
  pose proof (Hd _ _ Ha) as Lp. pose proof (Hd _ _ Hb) as Lq. change (@length R p = d) in Lp. change (@length R q = d) in Lq.
  rewrite (sqdist_acc p q (eq_trans Lp (eq_sym Lq))). rewrite Rplus_0_l. unfold dot, crd.
  rewrite (ptof_get m a p Ha), (ptof_get m b q Hb), Lp.
  apply rsum_ext. intros i _. ring.
Qed.

(** The law of cosines. *)
Lemma dot_cos m o a b : dot m a b b = (dot m o a a + dot m o b b - 2 * dot m o a b)%R.
Proof.
  unfold dot. replace (2 * rsum (fun i => (crd m i a - crd m i o) * (crd m i b - crd m i o)) (seq 0 d))%R
    with (rsum (fun i => 2 * ((crd m i a - crd m i o) * (crd m i b - crd m i o))) (seq 0 d))%R by apply rsum_scal.
  unfold Rminus at 3. replace (- rsum (fun i => 2 * ((crd m i a - crd m i o) * (crd m i b - crd m i o))) (seq 0 d))%R
    with (rsum (fun i => -1 * (2 * ((crd m i a - crd m i o) * (crd m i b - crd m i o)))) (seq 0 d))%R by (rewrite rsum_scal; lra).
  rewrite <- !rsum_plus. apply rsum_ext. intros i _. ring.
Qed.

(** Heron's formula is the Gram determinant. *)
Lemma area_heron m a b c pa pb pc : wf_points m ->
  oget a (pts m) = Some pa -> oget b (pts m) = Some pb -> oget c (pts m) = Some pc ->
  @area (RO d) pa pb pc = tri_area m (a, b, c).
Proof.
  intros Hw Ha Hb Hc. unfold area, tri_area.
  rewrite (dist_seg m b c pb pc Hw Hb Hc), (dist_seg m a c pa pc Hw Ha Hc), (dist_seg m b a pb pa Hw Hb Ha).
  unfold kfrac. cbn [ksqrt kmul kadd ksub kdiv kZ RO].
  assert (E1 : (seg_length m b c * seg_length m b c = dot m b c c)%R) by (apply sqrt_sqrt; apply dot_nonneg).
  assert (E2 : (seg_length m a c * seg_length m a c = dot m a c c)%R) by (apply sqrt_sqrt; apply dot_nonneg).
  assert (E3 : (seg_length m b a * seg_length m b a = dot m a b b)%R).
  { rewrite <- (dot_swap m b a). apply sqrt_sqrt. apply dot_nonneg. }
  rewrite (dot_cos m a b c) in E1.
  set (x := seg_length m b c) in *. set (y := seg_length m a c) in *. set (z := seg_length m b a) in *.
  rewrite <- E2, <- E3 in *.
  assert (Ed : dot m a b c = ((z * z + y * y - x * x) / 2)%R) by lra. rewrite Ed.
  match goal with |- sqrt ?u = _ => replace u with (1 / 4 * (z * z * (y * y) - ((z * z + y * y - x * x) / 2) ^ 2))%R by field end.
  rewrite sqrt_mult_alt by lra. f_equal.
  replace (1 / 4)%R with (1 / 2 * (1 / 2))%R by field. apply sqrt_square. lra.
Qed.
Lemma tri_area_nonneg m t : (0 <= tri_area m t)%R.
Proof. destruct t as [[a b] c]. cbn. pose proof (sqrt_pos (dot m a b b * dot m a c c - dot m a b c * (dot m a b c * 1))). lra. Qed.
End REALGEO.

(** ** The criteria, for any arithmetic *)
Section CRIT.
Context {O : Ops} {D : Type}.
Notation mesh := (mesh O D).
Notation state := (@state O D).
Notation point := (list (K O)).
Implicit Types m inp out : mesh.

Definition tri_pts m (a b c : N) (pa pb pc : point) : Prop :=
  oget a (pts m) = Some pa /\ oget b (pts m) = Some pb /\ oget c (pts m) = Some pc.
Definition cell_over (t : K O) m (ic : N * option cell) : bool :=
  match obind (snd ic) as_triangle with
  | Some (a, b, c) =>
      match oget a (pts m), oget b (pts m), oget c (pts m) with
      | Some pa, Some pb, Some pc => kgtb O (area pa pb pc) t
      | _, _, _ => false
      end
  | None => false
  end.
Definition cell_readable m (c : option cell) : Prop :=
  exists a b e pa pb pc, obind c as_triangle = Some (a, b, e) /\ tri_pts m a b e pa pb pc.

Lemma area_loop_ok t m cs : (forall id c, In (id, c) cs -> cell_readable m c) -> forall fuel acc,
  (length cs < fuel)%nat -> cell_area_loop fuel t m cs acc = Ok (acc ++ okeys (filter (cell_over t m) cs)).
Proof.
  induction cs as [|[id c] cs IH]; intros Hr fuel acc Hf; (destruct fuel as [|fuel]; [cbn in Hf; lia|]); cbn [cell_area_loop].
  - cbn. rewrite app_nil_r. reflexivity.
  - destruct (Hr id c) as [a [b [e [pa [pb [pc [Et [Ha [Hb Hc]]]]]]]]]; [cbn; auto|].
    assert (IH' := fun acc => IH (fun i x H => Hr i x (or_intror H)) fuel acc ltac:(cbn in Hf; lia)).
    cbn [filter]. unfold cell_over at 1. cbn [snd]. rewrite Et. unfold get_pt. rewrite Ha, Hb, Hc. cbn [rbind].
    destruct (kgtb O (area pa pb pc) t); rewrite IH'; [|reflexivity]. cbn. rewrite <- app_assoc. reflexivity.
Qed.
Lemma area_loop_inv t m : forall fuel cs acc l, cell_area_loop fuel t m cs acc = Ok l ->
  l = acc ++ okeys (filter (cell_over t m) cs) /\ forall id c, In (id, c) cs -> cell_readable m c.
Proof.
  induction fuel as [|fuel IH]; intros cs acc l H; [discriminate|]. destruct cs as [|[id c] cs]; cbn [cell_area_loop] in H.
  - inv H. cbn. rewrite app_nil_r. split; [reflexivity|]. intros ? ? [].
  - destruct (obind c as_triangle) as [[[a b] e]|] eqn:Et.
    2:{ exfalso. clear IH. revert H. revert fuel. induction fuel as [|fuel IHf]; [discriminate|]. cbn [cell_area_loop].
        rewrite Et. exact IHf. }
    unfold get_pt in H. destruct (oget a (pts m)) as [pa|] eqn:Ha; cbn [rbind] in H; [|discriminate].
    destruct (oget b (pts m)) as [pb|] eqn:Hb; cbn [rbind] in H; [|discriminate].
    destruct (oget e (pts m)) as [pc|] eqn:Hc; cbn [rbind] in H; [|discriminate].
    assert (Hd : cell_readable m c) by (exists a, b, e, pa, pb, pc; repeat split; assumption).
    cbn [filter]. unfold cell_over at 1. cbn [snd]. rewrite Et, Ha, Hb, Hc.
    destruct (kgtb O (area pa pb pc) t); apply IH in H; destruct H as [-> H2].
    + split; [cbn; rewrite <- app_assoc; reflexivity|]. intros i x [E|E]; [inv E; exact Hd|eauto].
    + split; [reflexivity|]. intros i x [E|E]; [inv E; exact Hd|eauto].
Qed.

Definition edge_over (t : K O) m (o : option dedge) : bool :=
  match o with
  | Some e => match oget (fst e) (pts m), oget (snd e) (pts m) with
              | Some p, Some q => kgtb O (dist p q) t
              | _, _ => false
              end
  | None => false
  end.
Definition edge_readable m (o : option dedge) : Prop :=
  forall e, o = Some e -> oget (fst e) (pts m) <> None /\ oget (snd e) (pts m) <> None.
Lemma edge_loop_ok t m es : (forall o, In o es -> edge_readable m o) -> forall acc,
  edge_length_loop t m es acc = Ok (acc ++ filter (edge_over t m) es).
Proof.
  induction es as [|o es IH]; intros Hr acc; cbn [edge_length_loop].
  - cbn. rewrite app_nil_r. reflexivity.
  - assert (IH' := IH (fun x H => Hr x (or_intror H))). cbn [filter]. destruct o as [e|]; [|apply IH'].
    destruct (Hr (Some e) (or_introl eq_refl) e eq_refl) as [H1 H2]. unfold edge_over at 1, get_pt.
    destruct (oget (fst e) (pts m)) as [p|]; [|congruence]. destruct (oget (snd e) (pts m)) as [q|]; [|congruence]. cbn [rbind].
    destruct (kgtb O (dist p q) t); rewrite IH'; [|reflexivity]. rewrite <- app_assoc. reflexivity.
Qed.
Lemma edge_loop_inv t m : forall es acc l, edge_length_loop t m es acc = Ok l ->
  l = acc ++ filter (edge_over t m) es /\ forall o, In o es -> edge_readable m o.
Proof.
  induction es as [|o es IH]; intros acc l H; cbn [edge_length_loop] in H.
  - inv H. cbn. rewrite app_nil_r. split; [reflexivity|]. intros ? [].
  - cbn [filter]. destruct o as [e|].
    + unfold get_pt in H. destruct (oget (fst e) (pts m)) as [p|] eqn:Hp; cbn [rbind] in H; [|discriminate].
      destruct (oget (snd e) (pts m)) as [q|] eqn:Hq; cbn [rbind] in H; [|discriminate].
      assert (Hd : edge_readable m (Some e)) by (intros e' E; inv E; rewrite Hp, Hq; split; discriminate).
      unfold edge_over at 1. rewrite Hp, Hq.
      destruct (kgtb O (dist p q) t); apply IH in H; destruct H as [-> H2].
      * split; [rewrite <- app_assoc; reflexivity|]. intros o [<-|Ho]; auto.
      * split; [reflexivity|]. intros o [<-|Ho]; auto.
    + apply IH in H. destruct H as [-> H2]. split; [reflexivity|]. intros o [<-|Ho]; auto. intros e E. discriminate.
Qed.

(** Compute() as a function of the mesh. *)
Definition long_cells (t : K O) m : list N := okeys (filter (cell_over t m) (cells_list m)).
Definition long_edges (t : K O) m : list (option dedge) := filter (edge_over t m) (map snd (edges_of m)).

Lemma area_crit_ok t m cs fuel old : cells m = Some cs -> (forall id c, In (id, c) cs -> cell_readable m c) ->
  (length cs < fuel)%nat -> cell_area_criterion t fuel m old = Ok (SelCells (long_cells t m)).
Proof.
  intros Hc Hr Hf. unfold cell_area_criterion, long_cells, cells_list. rewrite Hc.
  destruct old; cbn [sel_clear]; rewrite (area_loop_ok t m cs Hr fuel _ Hf); reflexivity.
Qed.
Lemma area_crit_inv t m fuel old s : cell_area_criterion t fuel m old = Ok s ->
  s = SelCells (long_cells t m) /\ exists cs, cells m = Some cs /\ forall id c, In (id, c) cs -> cell_readable m c.
Proof.
  unfold cell_area_criterion, long_cells, cells_list. intros H.
  destruct (cells m) as [cs|]; [|destruct old; discriminate].
  destruct old as [l0|l0]; cbn [sel_clear] in H;
    (destruct (cell_area_loop fuel t m cs []) as [l| | |] eqn:E; cbn [rbind] in H; [|discriminate..]);
    inv H; apply area_loop_inv in E; destruct E as [-> E]; split; eauto.
Qed.
Lemma edge_crit_ok t m es fuel old : ecells m = Some es -> (forall id o, In (id, o) es -> edge_readable m o) ->
  edge_length_criterion t fuel m old = Ok (SelEdges (long_edges t m)).
Proof.
  intros Hc Hr. unfold edge_length_criterion, long_edges, edges_of. rewrite Hc.
  assert (Hr' : forall o, In o (map snd es) -> edge_readable m o).
  { intros o Ho. apply in_map_iff in Ho. destruct Ho as [[id o'] [<- Ho]]. eapply Hr; eauto. }
  destruct old; cbn [sel_clear]; rewrite (edge_loop_ok t m _ Hr'); reflexivity.
Qed.
Lemma edge_crit_inv t m fuel old s : edge_length_criterion t fuel m old = Ok s ->
  s = SelEdges (long_edges t m) /\ exists es, ecells m = Some es /\ forall id o, In (id, o) es -> edge_readable m o.
Proof.
  unfold edge_length_criterion, long_edges, edges_of. intros H.
  destruct (ecells m) as [es|]; [|destruct old; discriminate].
  destruct old as [l0|l0]; cbn [sel_clear] in H;
    (destruct (edge_length_loop t m (map snd es) []) as [l| | |] eqn:E; cbn [rbind] in H; [|discriminate..]);
    inv H; apply edge_loop_inv in E; destruct E as [-> E]; (split; [reflexivity|]); exists es; (split; [reflexivity|]);
    intros id o Ho; apply E; apply in_map_iff; exists (id, o); auto.
Qed.

Lemma valid_readable m id c : valid m -> In (id, c) (cells_list m) -> cell_readable m c.
Proof.
  intros Hv H. rewrite (valid_cells_list m Hv) in H. apply in_map_iff in H. destruct H as [[i [[a b] e]] [E H]]. inv E.
  assert (Ht : In (a, b, e) (tris m)) by (apply in_map_iff; exists (id, (a, b, e)); auto).
  pose proof (v_verts _ Hv _ a Ht) as Ha. pose proof (v_verts _ Hv _ b Ht) as Hb. pose proof (v_verts _ Hv _ e Ht) as He.
  cbn in Ha, Hb, He.
  destruct (oget a (pts m)) as [pa|] eqn:Ea; [|exfalso; apply Ha; auto].
  destruct (oget b (pts m)) as [pb|] eqn:Eb; [|exfalso; apply Hb; auto].
  destruct (oget e (pts m)) as [pe|] eqn:Ee; [|exfalso; apply He; auto].
  exists a, b, e, pa, pb, pe. repeat split; assumption.
Qed.
Lemma valid_edge_readable m es id o : valid m -> ecells m = Some es -> In (id, o) es -> edge_readable m o.
Proof.
  intros Hv He Ho. destruct (v_ecells _ Hv) as [es' [He' [_ [H1 _]]]]. rewrite He in He'. inv He'.
  destruct (H1 _ _ Ho) as [a [b [-> Hj]]]. intros e E. inv E. cbn [fst snd].
  split; [apply (v_ring_pts _ Hv b a); apply (v_ring_sym _ Hv); exact Hj|apply (v_ring_pts _ Hv a b); exact Hj].
Qed.

Lemma long_cells_sorted t m : valid m -> StronglySorted N.lt (long_cells t m).
Proof.
  intros Hv. unfold long_cells. destruct (v_tris _ Hv) as [cs [Hc _]]. pose proof (v_cells_sorted _ Hv cs Hc) as Hs.
  unfold cells_list. rewrite Hc. clear -Hs. unfold sorted_keys in Hs.
  induction cs as [|[id c] cs IH]; [constructor|]. cbn in Hs. inv Hs. cbn [filter].
  destruct (cell_over t m (id, c)); [|auto]. cbn. constructor; [auto|].
  rewrite Forall_forall in *. intros x Hx. apply H2. apply in_map_iff in Hx. destruct Hx as [y [<- Hy]].
  apply filter_In in Hy. apply in_map. tauto.
Qed.
Lemma long_cells_In t m id : valid m -> In id (long_cells t m) <->
  exists a b c pa pb pc, In (id, (a, b, c)) (faces m) /\ tri_pts m a b c pa pb pc /\ kgtb O (area pa pb pc) t = true.
Proof.
  intros Hv. unfold long_cells, okeys. rewrite in_map_iff. split.
  - intros [[i c] [<- H]]. apply filter_In in H. destruct H as [H Ho]. pose proof (valid_readable m i c Hv H) as Hr.
    destruct Hr as [a [b [e [pa [pb [pc [Et Hp]]]]]]]. unfold cell_over in Ho. cbn [snd] in Ho. rewrite Et in Ho.
    pose proof Hp as [Ea [Eb Ec]]. rewrite Ea, Eb, Ec in Ho. exists a, b, e, pa, pb, pc. split; [|auto]. cbn [fst].
    rewrite (valid_cells_list m Hv) in H. apply in_map_iff in H. destruct H as [[j [[x y] z]] [E H]]. inv E. cbn in Et. inv Et. exact H.
  - intros [a [b [c [pa [pb [pc [Hf [[Ea [Eb Ec]] Hg]]]]]]]]. exists (id, poly (a, b, c)). split; [reflexivity|].
    apply filter_In. split.
    + rewrite (valid_cells_list m Hv). apply in_map_iff. exists (id, (a, b, c)). auto.
    + unfold cell_over. cbn. rewrite Ea, Eb, Ec. exact Hg.
Qed.

(** ** The conditional filter *)
Lemma cond_loop_inv k cr : forall fuel s f out f' out', conditional_loop fuel k cr s f out = Ok (f', out') ->
  (sel_empty s = true /\ out' = out /\ f' = f) \/
  (exists n s1 s2 , cr n out' s1 = Ok s2 /\ sel_empty s2 = true).
Proof.
  induction fuel as [|fuel IH]; intros s f out f' out' H; [discriminate|]. cbn [conditional_loop] in H.
  destruct (sel_empty s) eqn:Es; [inv H; auto|]. right.
  destruct (update k fuel (apply_selection f s) out) as [[f1 m1]| | |] eqn:E; cbn [rbind] in H; try discriminate.
  destruct (cr fuel m1 s) as [s1| | |] eqn:Ec; cbn [rbind] in H; try discriminate.
  apply IH in H. destruct H as [[H1 [-> ->]]|H]; [exists fuel, s, s1; auto|exact H].
Qed.
Lemma cond_inv k cr fuel old f inp f' out : conditional_update fuel k (Some cr) old f inp = Ok (f', out) ->
  exists n s1 s2, cr n out s1 = Ok s2 /\ sel_empty s2 = true.
Proof.
  unfold conditional_update. intros H. destruct (cr fuel (copy_geometry inp) old) as [s| | |] eqn:E; cbn [rbind] in H; try discriminate.
  apply cond_loop_inv in H. destruct H as [[H1 [-> ->]]|H]; [exists fuel, old, s; auto|exact H].
Qed.

(** Any property of meshes kept by Update() holds of the output. *)
Lemma cond_loop_keeps (P : mesh -> Prop) k cr :
  (forall fuel f m f' m', P m -> update k fuel f m = Ok (f', m') -> P m') ->
  forall fuel s f out f' out', P out -> conditional_loop fuel k cr s f out = Ok (f', out') -> P out'.
Proof.
  intros HP. induction fuel as [|fuel IH]; intros s f out f' out' H0 H; [discriminate|]. cbn [conditional_loop] in H.
  destruct (sel_empty s); [inv H; exact H0|].
  destruct (update k fuel (apply_selection f s) out) as [[f1 m1]| | |] eqn:E; cbn [rbind] in H; try discriminate.
  destruct (cr fuel m1 s) as [s1| | |] eqn:Ec; cbn [rbind] in H; try discriminate.
  eapply IH; [|exact H]. eapply HP; eauto.
Qed.

Lemma add_faces_pts (l : omap (option cell)) : forall m, pts (fold_left (fun m kv => match snd kv with
    | Some (Poly l) => fst (add_face m l) | _ => m end) l m) = pts m.
Proof.
  induction l as [|[i [[l'|]|]] l IH]; intros m; cbn; try rewrite IH; auto. apply add_face_pts.
Qed.
Lemma copy_ecells_pts (inp out : mesh) : pts (copy_ecells inp out) = pts out.
Proof.
  unfold copy_ecells. destruct (ecells inp) as [es|]; [|reflexivity]. revert out.
  induction es as [|[i [[a b]|]] es IH]; intros out; cbn [fold_left snd]; try rewrite IH; auto. apply add_missing_pts.
Qed.
Lemma copy_geometry_pts inp : sorted_keys (pts inp) -> pts (copy_geometry inp) = pts inp.
Proof.
  intros Hs. unfold copy_geometry, copy_cells. rewrite add_faces_pts, copy_ecells_pts. unfold copy_points.
  rewrite copy_points_any. apply (fold_oset_sorted _ []). exact Hs.
Qed.
Lemma cond_points k cr fuel old f inp f' out : wf_points inp ->
  conditional_update fuel k (Some cr) old f inp = Ok (f', out) -> wf_points out.
Proof.
  intros [Hs Hd] H. unfold conditional_update in H.
  destruct (cr fuel (copy_geometry inp) old) as [s| | |]; cbn [rbind] in H; try discriminate.
  revert H. apply (cond_loop_keeps wf_points).
  - intros n f0 m f1 m1 [H1 H2] E. apply update_dims in E; [|exact H1|exact H2]. destruct E as [E1 E2]. split; assumption.
  - unfold wf_points. rewrite copy_geometry_pts by exact Hs. split; assumption.
Qed.
End CRIT.
