(** * RenumProps: order of the selection; edge-based against cell-based filters. *)
From Coq Require Import Reals Lra.
From Verif Require Import Base Mesh Filters Spec SpecSub SpecRenum SpecGeo Lists AddFace SplitTri Split Points Valid Run
  Update Struct Count Face FaceProps Conn Geo GeoProps Renum.

Section ANY.
Context {O : Ops} {D : Type}.
Notation mesh := (mesh O D).
Implicit Types inp out : mesh.

Lemma runs_same k1 k2 g1 g2 inp fuel1 fuel2 f1 f2 out1 out2 :
  valid inp -> dense inp -> ready k1 g1 inp -> ready k2 g2 inp ->
  (forall a b, to_split k1 g1 inp a b <-> to_split k2 g2 inp a b) ->
  update k1 fuel1 g1 inp = Ok (f1, out1) -> update k2 fuel2 g2 inp = Ok (f2, out2) ->
  exists r r', renumbered inp r r' out1 out2 /\ (whole k1 g1 = whole k2 g2 -> csel f1 = csel f2) /\
    ((forall e1 e2 p1 p2, In e1 (inserted k1 g1 inp) -> In e2 (inserted k2 g2 inp) -> undirected_eq e1 e2 ->
        new_point k1 inp e1 = Ok p1 -> new_point k2 inp e2 = Ok p2 -> p1 = p2) ->
     same_new_coordinates inp r out1 out2 /\
     ((k1 = CellF CLoop \/ k2 = CellF CLoop -> k1 = k2 /\ forall id, smooths g1 id = smooths g2 id) ->
      same_coordinates r out1 out2)).
Proof.
  intros Hv Hd R1 R2 Hdom E1 E2.
  destruct (face_run k1 g1 inp fuel1 f1 out1 Hv Hd R1 E1) as [mid1 [Ls1 F1]].
  destruct (face_run k2 g2 inp fuel2 f2 out2 Hv Hd R2 E2) as [mid2 [Ls2 F2]].
  exists (ren (osize (pts inp)) (inserted k1 g1 inp) (inserted k2 g2 inp)),
         (ren (osize (pts inp)) (inserted k2 g2 inp) (inserted k1 g1 inp)).
  split; [|split].
  - eapply two_runs; eauto.
  - eapply csel_eq; eauto.
  - intros Hp. split.
    + eapply two_runs_new; eauto.
    + intros Hs. eapply two_runs_points; eauto.
Qed.

Lemma linear_sym k1 k2 inp e1 e2 p1 p2 : (forall x y, kadd O x y = kadd O y x) ->
  scheme_of k1 = CLinear -> scheme_of k2 = CLinear -> undirected_eq e1 e2 ->
  new_point k1 inp e1 = Ok p1 -> new_point k2 inp e2 = Ok p2 -> p1 = p2.
Proof.
  intros Hc S1 S2 Hu N1 N2.
  assert (L1 : linear_point inp e1 = Ok p1) by (destruct k1 as [[]|[]]; cbn in S1; try discriminate; exact N1).
  assert (L2 : linear_point inp e2 = Ok p2) by (destruct k2 as [[]|[]]; cbn in S2; try discriminate; exact N2).
  destruct e2 as [a b]. destruct Hu as [-> | ->]; [congruence|].
  unfold linear_point in L1, L2. cbn [fst snd] in L1, L2.
  destruct (get_pt inp a) as [pa| | |]; try discriminate; destruct (get_pt inp b) as [pb| | |]; try discriminate.
  cbn [rbind] in L1, L2. apply Ok_inj in L1. apply Ok_inj in L2. subst. unfold midpoint.
  apply map2_comm. intros x y. rewrite Hc. reflexivity.
Qed.
End ANY.

(** ** Real coordinates: the masks do not depend on the direction of the edge *)
Section REAL.
Context {d : nat} {D : Type}.
Notation mesh := (mesh (RO d) D).
Implicit Types inp out : mesh.

Lemma mask_sym k inp a b g : valid inp -> joined inp a b ->
  (scheme_of k = CButterfly -> away_from_border inp a b /\ interior_edge inp a b) ->
  weighted (new_mask k inp (a, b)) g = weighted (new_mask k inp (b, a)) g.
Proof.
  intros Hv Hj Hb.
  assert (HL : weighted (linear_mask inp (a, b)) g = weighted (linear_mask inp (b, a)) g).
  { unfold weighted, linear_mask, edge_mask. cbn. lra. }
  assert (HLo : weighted (loop_mask inp (a, b)) g = weighted (loop_mask inp (b, a)) g).
  { unfold loop_mask. assert (Es : is_internal inp (b, a) = is_internal inp (a, b)).
    { unfold is_internal, right_set, sym. cbn [fst snd]. apply andb_comm. }
    rewrite Es. destruct (is_internal inp (a, b)) eqn:E; [|exact HL].
    unfold is_internal, right_set, sym in E. cbn [fst snd] in E. apply andb_prop in E. destruct E as [E1 E2].
    apply (valid_left _ _ Hv) in E1. apply (valid_left _ _ Hv) in E2.
    apply dir_is_face in E1. apply dir_is_face in E2. destruct E1 as [x F1], E2 as [y F2].
    rewrite (face_lnext _ _ _ _ Hv F1), (face_rprev _ _ _ _ Hv F2), (face_lnext _ _ _ _ Hv F2), (face_rprev _ _ _ _ Hv F1).
    unfold weighted, edge_mask. cbn. lra. }
  assert (HB : away_from_border inp a b -> interior_edge inp a b ->
    weighted (butterfly_mask inp (a, b)) g = weighted (butterfly_mask inp (b, a)) g).
  { intros Ha [I1 I2]. apply dir_is_face in I1. apply dir_is_face in I2. destruct I1 as [x F1], I2 as [y F2].
    assert (HE : forall u v w, is_face inp u v w -> exists t, In t (tris inp) /\ edge_of t u v /\ edge_of t v w /\ edge_of t w u).
    { intros u v w [H|[H|H]]; eexists; (split; [exact H|]); unfold edge_of; cbn; auto 10. }
    destruct (HE _ _ _ F1) as [t1 [T1 [A1 [B1 C1]]]]. destruct (HE _ _ _ F2) as [t2 [T2 [A2 [B2 C2]]]].
    assert (A2' : edge_of t2 a b) by (unfold edge_of in *; tauto).
    destruct (Ha t1 b x T1 A1 B1) as [_ G1]. destruct (Ha t1 x a T1 A1 C1) as [_ G2].
    destruct (Ha t2 a y T2 A2' B2) as [_ G3]. destruct (Ha t2 y b T2 A2' C2) as [_ G4].
    apply dir_is_face in G1, G2, G3, G4. destruct G1 as [w1 W1], G2 as [w2 W2], G3 as [w3 W3], G4 as [w4 W4].
    unfold butterfly_mask.
    rewrite (face_lnext _ _ _ _ Hv F1), (face_rprev _ _ _ _ Hv F2), (face_lnext _ _ _ _ Hv F2), (face_rprev _ _ _ _ Hv F1).
    rewrite (face_lprev _ _ _ _ Hv F1), (face_rnext _ _ _ _ Hv F2), (face_lprev _ _ _ _ Hv F2), (face_rnext _ _ _ _ Hv F1).
    cbn [obind].
    rewrite (face_rprev _ _ _ _ Hv W1), (face_lnext _ _ _ _ Hv W4), (face_rprev _ _ _ _ Hv W2), (face_lnext _ _ _ _ Hv W3).
    rewrite (face_rprev _ _ _ _ Hv W3), (face_lnext _ _ _ _ Hv W2), (face_rprev _ _ _ _ Hv W4), (face_lnext _ _ _ _ Hv W1).
    unfold weighted, edge_mask. cbn. lra. }
  destruct k as [[]|[]]; cbn [new_mask]; try exact HL; try exact HLo; try (apply HB; apply Hb; reflexivity).
  reflexivity.
Qed.

Lemma point_ext (p q : list R) : length p = d -> length q = d -> (forall c, lin c p = lin c q) -> p = q.
Proof.
  intros Hp Hq H. apply (nth_ext _ _ 0%R 0%R); [congruence|]. intros i _.
  rewrite <- !lin_delta. apply H.
Qed.

Lemma new_point_sym k1 k2 g1 g2 inp e1 e2 p1 p2 : valid inp -> dense inp ->
  ready k1 g1 inp -> ready k2 g2 inp -> scheme_of k1 = scheme_of k2 ->
  (scheme_of k1 = CButterfly -> e1 = e2 \/ away_from_border inp (fst e1) (snd e1) /\ interior_edge inp (fst e1) (snd e1)) ->
  In e1 (inserted k1 g1 inp) -> In e2 (inserted k2 g2 inp) -> undirected_eq e1 e2 ->
  new_point k1 inp e1 = Ok p1 -> new_point k2 inp e2 = Ok p2 -> p1 = p2.
Proof.
  intros Hv Hd R1 R2 Hs Hb I1 I2 Hu N1 N2.
  pose proof (ins_dirs inp k1 g1 e1 Hv I1 R1) as J1. pose proof (ins_dirs inp k2 g2 e2 Hv I2 R2) as J2.
  assert (L : forall k g e p, ready k g inp -> In e (inserted k g inp) -> new_point k inp e = Ok p -> length p = d).
  { intros k g e p Rk Hin Hn.
    destruct (update_split k g inp (S (length (tris inp))) Hv Hd Rk ltac:(lia)) as [P0 [f' [out [_ [_ [_ [_ [_ H]]]]]]]].
    destruct (H e Hin) as [H1 H2]. rewrite Hn in H1. apply Ok_inj in H1. rewrite H1. exact H2. }
  apply point_ext; [exact (L k1 g1 e1 p1 R1 I1 N1)|exact (L k2 g2 e2 p2 R2 I2 N2)|]. intros c.
  assert (K1 : k1 <> CellF CSqrt3) by apply R1. assert (K2 : k2 <> CellF CSqrt3) by apply R2.
  rewrite (new_mask_ok c k1 inp e1 p1 Hv K1 J1 N1), (new_mask_ok c k2 inp e2 p2 Hv K2 J2 N2).
  assert (Em : forall e, new_mask k2 inp e = new_mask k1 inp e).
  { intros e. destruct k1 as [[]|[]], k2 as [[]|[]]; cbn in Hs; try discriminate; try reflexivity. }
  rewrite Em. destruct e1 as [a b]. cbn [fst snd] in *. destruct Hu as [Hu|Hu]; [congruence|].
  destruct e2 as [x y]. cbn [fst snd] in Hu. inv Hu.
  destruct (N.eq_dec x y) as [->|Hne]; [reflexivity|].
  apply mask_sym; [exact Hv|exact J1|]. intros E. destruct (Hb E) as [He|He]; [congruence|exact He].
Qed.
End REAL.

(** ** C13 *)
Lemma same_sel_split {O : Ops} {D : Type} s f sel1 sel2 (inp : mesh O D) : (forall i, In i sel1 <-> In i sel2) ->
  forall a b, to_split (CellF s) (set_cells_to_be_subdivided f sel1) inp a b <->
              to_split (CellF s) (set_cells_to_be_subdivided f sel2) inp a b.
Proof.
  intros H a b. cbn [to_split set_cells_to_be_subdivided csel].
  assert (Hn : sel1 = [] <-> sel2 = []).
  { split; intros ->; [destruct sel2 as [|x l]|destruct sel1 as [|x l]]; try reflexivity; exfalso; apply (H x); cbn; auto. }
  assert (Hs : forall t, selected inp sel1 t <-> selected inp sel2 t).
  { intros t. unfold selected. split; (intros [[E Ht]|[i [Hi Ht]]]; [left; tauto|right; exists i; split; [apply H; exact Hi|exact Ht]]). }
  split; intros [t [Ht He]]; exists t; (split; [apply Hs; exact Ht|exact He]).
Qed.
Lemma sel_whole {O : Ops} {D : Type} s f sel1 sel2 : (forall i, In i sel1 <-> In i sel2) ->
  whole (CellF s) (set_cells_to_be_subdivided f sel1) = whole (CellF s) (set_cells_to_be_subdivided f sel2).
Proof.
  intros H. cbn. destruct sel1 as [|x l], sel2 as [|y l']; try reflexivity; exfalso; [apply (H y)|apply (H x)]; cbn; auto.
Qed.
Lemma memN_ext i l1 l2 : (forall i, In i l1 <-> In i l2) -> memN i l1 = memN i l2.
Proof.
  intros H. destruct (memN i l1) eqn:E1, (memN i l2) eqn:E2; try reflexivity.
  - apply memN_In in E1. apply H in E1. apply memN_In in E1. congruence.
  - apply memN_In in E2. apply H in E2. apply memN_In in E2. congruence.
Qed.

Lemma sel_ready {O : Ops} {D : Type} s f sel (inp : mesh O D) : s <> CSqrt3 -> (s = CLoop -> no_isolated inp) -> existing inp sel ->
  ready (CellF s) (set_cells_to_be_subdivided f sel) inp.
Proof.
  intros Hs Hl He. split; [intros E; inv E; congruence|]. split; [intros [E|E]; inv E; auto|]. exact He.
Qed.

Lemma C13_selection_order_pf : forall (O : Ops) (D : Type) s f sel1 sel2 (inp : mesh O D) fuel1 fuel2 f1 f2 out1 out2,
  valid inp -> dense inp -> s <> CSqrt3 -> (s = CLoop -> no_isolated inp) ->
  existing inp sel1 -> (forall i, In i sel1 <-> In i sel2) ->
  update (CellF s) fuel1 (set_cells_to_be_subdivided f sel1) inp = Ok (f1, out1) ->
  update (CellF s) fuel2 (set_cells_to_be_subdivided f sel2) inp = Ok (f2, out2) ->
  exists r r', renumbered inp r r' out1 out2 /\ csel f1 = csel f2 /\
    ((forall x y, kadd O x y = kadd O y x) -> s = CLinear -> same_coordinates r out1 out2).
Proof.
  intros O D s f sel1 sel2 inp fuel1 fuel2 f1 f2 out1 out2 Hv Hd Hs Hl He Hsel E1 E2.
  assert (He2 : existing inp sel2) by (intros i Hi; apply He; apply Hsel; exact Hi).
  destruct (runs_same _ _ _ _ inp fuel1 fuel2 f1 f2 out1 out2 Hv Hd
    (sel_ready s f sel1 inp Hs Hl He) (sel_ready s f sel2 inp Hs Hl He2) (same_sel_split s f sel1 sel2 inp Hsel) E1 E2)
    as [r [r' [H1 [H2 H3]]]].
  exists r, r'. split; [exact H1|]. split; [apply H2; apply (sel_whole (O:=O) (D:=D)); exact Hsel|].
  intros Hc ->. apply H3.
  - intros e1 e2 p1 p2 _ _ Hu N1 N2. exact (linear_sym (CellF CLinear) (CellF CLinear) inp e1 e2 p1 p2 Hc eq_refl eq_refl Hu N1 N2).
  - intros [E|E]; discriminate.
Qed.

Lemma C13_selection_order_coordinates_pf : forall (d : nat) (D : Type) s f sel1 sel2 (inp : mesh (RO d) D) fuel1 fuel2 f1 f2 out1 out2,
  valid inp -> dense inp -> s <> CSqrt3 -> (s = CLoop -> no_isolated inp) ->
  (s = CButterfly -> forall a b, interior_edge inp a b -> away_from_border inp a b) ->
  existing inp sel1 -> (forall i, In i sel1 <-> In i sel2) ->
  update (CellF s) fuel1 (set_cells_to_be_subdivided f sel1) inp = Ok (f1, out1) ->
  update (CellF s) fuel2 (set_cells_to_be_subdivided f sel2) inp = Ok (f2, out2) ->
  exists r r', renumbered inp r r' out1 out2 /\ csel f1 = csel f2 /\ same_coordinates r out1 out2.
Proof.
  intros d D s f sel1 sel2 inp fuel1 fuel2 f1 f2 out1 out2 Hv Hd Hs Hl Hb He Hsel E1 E2.
  assert (He2 : existing inp sel2) by (intros i Hi; apply He; apply Hsel; exact Hi).
  pose proof (sel_ready s f sel1 inp Hs Hl He) as R1. pose proof (sel_ready s f sel2 inp Hs Hl He2) as R2.
  destruct (runs_same _ _ _ _ inp fuel1 fuel2 f1 f2 out1 out2 Hv Hd R1 R2 (same_sel_split s f sel1 sel2 inp Hsel) E1 E2)
    as [r [r' [H1 [H2 H3]]]].
  exists r, r'. split; [exact H1|]. split; [apply H2; apply (sel_whole (O:=RO d) (D:=D)); exact Hsel|].
  apply H3.
  - intros e1 e2 p1 p2 I1 I2 Hu N1 N2.
    refine (new_point_sym (CellF s) (CellF s) _ _ inp e1 e2 p1 p2 Hv Hd R1 R2 eq_refl _ I1 I2 Hu N1 N2).
    intros Es. cbn in Es. destruct e1 as [a b], e2 as [x y]. cbn [fst snd] in *.
    destruct Hu as [Hu|Hu]; [left; exact Hu|]. cbn [fst snd] in Hu. inv Hu. right.
    assert (Hin : interior_edge inp y x).
    { cbn [inserted] in I1, I2. apply ins_list_In in I1. apply ins_list_In in I2.
      split; apply dirs_tri.
      - apply dirs_tri in I1. destruct I1 as [t [Ht Hi]]. exists t. split; [eapply visited_incl; eauto|exact Hi].
      - apply dirs_tri in I2. destruct I2 as [t [Ht Hi]]. exists t. split; [eapply visited_incl; eauto|exact Hi]. }
    split; [apply Hb; auto|exact Hin].
  - intros _. split; [reflexivity|]. intros id. unfold smooths. cbn. f_equal. apply memN_ext. exact Hsel.
Qed.

(** ** The order of an edge list *)
Lemma edge_ready' {O : Ops} {D : Type} s f l (inp : mesh O D) : edges_listed inp l -> listed_once l ->
  (s = ELoop -> no_isolated inp /\ face_edges_listed inp l) -> l <> [] ->
  ready (EdgeF s) (set_edges_to_be_subdivided f l) inp.
Proof.
  intros H1 H2 H3 Hn. split; [discriminate|]. split; [intros [E|E]; inv E; apply H3; reflexivity|].
  cbn. split; [intros; congruence|]. intros _. split; [exact H1|]. split; [exact H2|]. intros E. apply H3. exact E.
Qed.

Lemma list_split {O : Ops} {D : Type} s f l (inp : mesh O D) a b : l <> [] ->
  (to_split (EdgeF s) (set_edges_to_be_subdivided f l) inp a b <-> lists_edge l a b).
Proof. intros Hn. cbn. unfold lists_edge. split; [intros [[E _]|H]; [congruence|exact H]|auto]. Qed.

Lemma same_list_ready {O : Ops} {D : Type} s f l1 l2 (inp : mesh O D) : valid inp -> edges_listed inp l1 -> listed_once l2 ->
  (s = ELoop -> no_isolated inp /\ face_edges_listed inp l1) -> l2 <> [] ->
  (forall a b, lists_edge l1 a b <-> lists_edge l2 a b) ->
  ready (EdgeF s) (set_edges_to_be_subdivided f l2) inp.
Proof.
  intros Hv H1 H2 H3 Hn Hl. apply edge_ready'; auto.
  - intros a b H. destruct (proj2 (Hl a b) (or_introl H)) as [G|G]; [apply H1; exact G|].
    apply (v_ring_sym _ Hv). apply H1. exact G.
  - intros E. destruct (H3 E) as [H4 H5]. split; [exact H4|]. intros a b H.
    destruct (proj2 (Hl a b) (or_introl H)) as [G|G]; apply H5 in G; tauto.
Qed.

Lemma uniform_ready {O : Ops} {D : Type} sc se fc fe (inp : mesh O D) :
  scheme_of (CellF sc) = scheme_of (EdgeF se) -> csel fc = [] -> esel fe = [] -> no_wire inp ->
  (sc = CLoop -> no_isolated inp) -> ready (CellF sc) fc inp /\ ready (EdgeF se) fe inp.
Proof.
  intros Hs Hc He Hw Hl. split.
  - split; [intros E; inv E; destruct se; discriminate|]. split; [intros [E|E]; inv E; auto|].
    rewrite Hc. intros i [].
  - split; [discriminate|]. split; [intros [E|E]; inv E; auto|]. split; [auto|]. intros; congruence.
Qed.
Lemma uniform_split {O : Ops} {D : Type} sc se fc fe (inp : mesh O D) : valid inp -> csel fc = [] -> esel fe = [] ->
  no_wire inp -> forall a b, to_split (CellF sc) fc inp a b <-> to_split (EdgeF se) fe inp a b.
Proof.
  intros Hv Hc He Hw a b. cbn. rewrite Hc, He. split.
  - intros [t [[[_ Ht]|[i [[] _]]] Hab]]. left. split; [reflexivity|].
    destruct Hab as [H|H]; [|apply (v_ring_sym _ Hv)]; apply (v_face_edges _ Hv); apply dirs_tri; eauto.
  - intros [[_ Hj]|[[]|[]]]. apply Hw in Hj.
    destruct Hj as [H|H]; apply dirs_tri in H; destruct H as [t [Ht H]]; exists t;
    (split; [left; auto|unfold edge_of; auto]).
Qed.
Lemma closed_away {O : Ops} {D : Type} (inp : mesh O D) a b : closed inp -> interior_edge inp a b ->
  away_from_border inp a b /\ interior_edge inp a b.
Proof.
  intros Hc Hi. split; [|exact Hi]. intros t x y Ht _ Hxy.
  destruct Hxy as [H|H]; (assert (G : In _ (dirs (tris inp))) by (apply dirs_tri; eauto));
    pose proof (Hc _ _ G); split; assumption.
Qed.
Lemma selection_edges {O : Ops} {D : Type} sc se fc fe sel l (inp : mesh O D) :
  scheme_of (CellF sc) = scheme_of (EdgeF se) -> sel <> [] -> valid inp -> existing inp sel ->
  (sc = CLoop -> no_isolated inp) -> listed_once l ->
  (forall a b, lists_edge l a b <-> exists i t, In i sel /\ In (i, t) (faces inp) /\ edge_of t a b) ->
  ready (CellF sc) (set_cells_to_be_subdivided fc sel) inp /\ ready (EdgeF se) (set_edges_to_be_subdivided fe l) inp /\
  (forall a b, to_split (CellF sc) (set_cells_to_be_subdivided fc sel) inp a b <->
               to_split (EdgeF se) (set_edges_to_be_subdivided fe l) inp a b) /\
  whole (CellF sc) (set_cells_to_be_subdivided fc sel) = whole (EdgeF se) (set_edges_to_be_subdivided fe l).
Proof.
  intros Hs Hn Hv He Hl Ho Hsel.
  assert (Hln : l <> []).
  { destruct sel as [|i sel]; [congruence|]. destruct (He i (or_introl eq_refl)) as [[[a b] c] Ht].
    destruct (proj2 (Hsel a b)) as [H|H]; [|intros ->; destruct H..].
    exists i, (a, b, c). split; [cbn; auto|]. split; [exact Ht|]. left. cbn. auto. }
  assert (Hfl : face_edges_listed inp l).
  { intros a b H. destruct (proj1 (Hsel a b) (or_introl H)) as [i [t [_ [Ht Hab]]]].
    assert (Hin : In t (tris inp)) by (unfold tris; apply in_map_iff; exists (i, t); auto).
    destruct Hab as [G|G]; [left|right]; apply dirs_tri; eauto. }
  split; [|split; [|split]].
  - apply sel_ready; auto. intros ->. destruct se; discriminate.
  - apply edge_ready'; auto.
    + intros a b H. destruct (Hfl a b H) as [G|G]; [|apply (v_ring_sym _ Hv)]; apply (v_face_edges _ Hv); exact G.
    + intros ->. split; [|exact Hfl]. apply Hl. exact Hs.
  - intros a b. rewrite list_split by assumption. rewrite Hsel. cbn. split.
    + intros [t [[[E _]|[i [Hi Ht]]] Hab]]; [congruence|]. eauto 10.
    + intros [i [t [Hi [Ht Hab]]]]. exists t. split; [right; eauto|exact Hab].
  - cbn. destruct sel; [congruence|]. destruct l; [congruence|]. reflexivity.
Qed.

Lemma C52_edge_order_pf : forall (O : Ops) (D : Type) s f l1 l2 (inp : mesh O D) fuel1 fuel2 f1 f2 out1 out2,
  valid inp -> dense inp -> l1 <> [] -> l2 <> [] ->
  edges_listed inp l1 -> listed_once l1 -> listed_once l2 ->
  (s = ELoop -> no_isolated inp /\ face_edges_listed inp l1) ->
  (forall a b, lists_edge l1 a b <-> lists_edge l2 a b) ->
  update (EdgeF s) fuel1 (set_edges_to_be_subdivided f l1) inp = Ok (f1, out1) ->
  update (EdgeF s) fuel2 (set_edges_to_be_subdivided f l2) inp = Ok (f2, out2) ->
  exists r r', renumbered inp r r' out1 out2 /\ csel f1 = csel f2 /\
    ((forall x y, kadd O x y = kadd O y x) -> s = ELinear -> same_coordinates r out1 out2).
Proof.
  intros O D s f l1 l2 inp fuel1 fuel2 f1 f2 out1 out2 Hv Hd N1 N2 L1 O1 O2 HL Hl E1 E2.
  assert (R1 : ready (EdgeF s) (set_edges_to_be_subdivided f l1) inp) by (apply edge_ready'; auto).
  assert (R2 : ready (EdgeF s) (set_edges_to_be_subdivided f l2) inp) by (apply (same_list_ready s f l1 l2 inp); auto).
  destruct (runs_same _ _ _ _ inp fuel1 fuel2 f1 f2 out1 out2 Hv Hd R1 R2) as [r [r' [H1 [H2 H3]]]].
  { intros a b. rewrite !list_split by assumption. apply Hl. }
  { exact E1. } { exact E2. }
  exists r, r'. split; [exact H1|]. split.
  { apply H2. cbn. destruct l1; [congruence|]. destruct l2; [congruence|]. reflexivity. }
  intros Hc ->. apply H3.
  - intros e1 e2 p1 p2 _ _ Hu P1 P2. exact (linear_sym (EdgeF ELinear) (EdgeF ELinear) inp e1 e2 p1 p2 Hc eq_refl eq_refl Hu P1 P2).
  - intros [E|E]; discriminate.
Qed.

Lemma C52_edge_order_coordinates_pf : forall (d : nat) (D : Type) s f l1 l2 (inp : mesh (RO d) D) fuel1 fuel2 f1 f2 out1 out2,
  valid inp -> dense inp -> l1 <> [] -> l2 <> [] ->
  edges_listed inp l1 -> listed_once l1 -> listed_once l2 ->
  (s = ELoop -> no_isolated inp /\ face_edges_listed inp l1) ->
  (s = EButterfly -> forall a b, lists_edge l1 a b -> interior_edge inp a b /\ away_from_border inp a b) ->
  (forall a b, lists_edge l1 a b <-> lists_edge l2 a b) ->
  update (EdgeF s) fuel1 (set_edges_to_be_subdivided f l1) inp = Ok (f1, out1) ->
  update (EdgeF s) fuel2 (set_edges_to_be_subdivided f l2) inp = Ok (f2, out2) ->
  exists r r', renumbered inp r r' out1 out2 /\ csel f1 = csel f2 /\ same_coordinates r out1 out2.
Proof.
  intros d D s f l1 l2 inp fuel1 fuel2 f1 f2 out1 out2 Hv Hd N1 N2 L1 O1 O2 HL HB Hl E1 E2.
  assert (R1 : ready (EdgeF s) (set_edges_to_be_subdivided f l1) inp) by (apply edge_ready'; auto).
  assert (R2 : ready (EdgeF s) (set_edges_to_be_subdivided f l2) inp) by (apply (same_list_ready s f l1 l2 inp); auto).
  destruct (runs_same _ _ _ _ inp fuel1 fuel2 f1 f2 out1 out2 Hv Hd R1 R2) as [r [r' [H1 [H2 H3]]]].
  { intros a b. rewrite !list_split by assumption. apply Hl. }
  { exact E1. } { exact E2. }
  exists r, r'. split; [exact H1|]. split.
  { apply H2. cbn. destruct l1; [congruence|]. destruct l2; [congruence|]. reflexivity. }
  apply H3.
  - intros e1 e2 p1 p2 I1 I2 Hu P1 P2.
    refine (new_point_sym (EdgeF s) (EdgeF s) _ _ inp e1 e2 p1 p2 Hv Hd R1 R2 eq_refl _ I1 I2 Hu P1 P2).
    intros Es. right. assert (s = EButterfly) by (destruct s; cbn in Es; congruence). subst s.
    cbn [inserted set_edges_to_be_subdivided esel] in I1. unfold edge_list in I1. destruct l1 as [|o l]; [congruence|].
    cbn [is_nil] in I1. apply somes_In in I1. destruct e1 as [a b].
    destruct (HB eq_refl a b (or_introl I1)). auto.
  - intros [E|E]; discriminate.
Qed.

(** ** C41 and C51: edge-based and cell-based filters *)
Lemma C41_uniform_pf : forall (O : Ops) (D : Type) sc se fc fe (inp : mesh O D) fuel1 fuel2 f1 f2 out1 out2,
  scheme_of (CellF sc) = scheme_of (EdgeF se) -> csel fc = [] -> esel fe = [] ->
  valid inp -> dense inp -> no_wire inp -> (sc = CLoop -> no_isolated inp) ->
  update (CellF sc) fuel1 fc inp = Ok (f1, out1) ->
  update (EdgeF se) fuel2 fe inp = Ok (f2, out2) ->
  exists r r', renumbered inp r r' out1 out2 /\
    ((forall x y, kadd O x y = kadd O y x) -> sc = CLinear -> same_coordinates r out1 out2).
Proof.
  intros O D sc se fc fe inp fuel1 fuel2 f1 f2 out1 out2 Hs Hc He Hv Hd Hw Hl E1 E2.
  destruct (uniform_ready sc se fc fe inp Hs Hc He Hw Hl) as [R1 R2].
  destruct (runs_same _ _ _ _ inp fuel1 fuel2 f1 f2 out1 out2 Hv Hd R1 R2) as [r [r' [H1 [_ H3]]]].
  { apply uniform_split; assumption. } { exact E1. } { exact E2. }
  exists r, r'. split; [exact H1|]. intros Hcm ->. apply H3.
  - intros e1 e2 p1 p2 _ _ Hu P1 P2. exact (linear_sym (CellF CLinear) (EdgeF se) inp e1 e2 p1 p2 Hcm eq_refl (eq_sym Hs) Hu P1 P2).
  - intros [E|E]; discriminate.
Qed.

Lemma C41_uniform_coordinates_pf : forall (d : nat) (D : Type) sc se fc fe (inp : mesh (RO d) D) fuel1 fuel2 f1 f2 out1 out2,
  scheme_of (CellF sc) = scheme_of (EdgeF se) -> csel fc = [] -> esel fe = [] ->
  valid inp -> dense inp -> no_wire inp -> (sc = CLoop -> no_isolated inp) -> (sc = CButterfly -> closed inp) ->
  update (CellF sc) fuel1 fc inp = Ok (f1, out1) ->
  update (EdgeF se) fuel2 fe inp = Ok (f2, out2) ->
  exists r r', renumbered inp r r' out1 out2 /\ same_new_coordinates inp r out1 out2 /\
    (sc <> CLoop -> same_coordinates r out1 out2).
Proof.
  intros d D sc se fc fe inp fuel1 fuel2 f1 f2 out1 out2 Hs Hc He Hv Hd Hw Hl Hcl E1 E2.
  destruct (uniform_ready sc se fc fe inp Hs Hc He Hw Hl) as [R1 R2].
  destruct (runs_same _ _ _ _ inp fuel1 fuel2 f1 f2 out1 out2 Hv Hd R1 R2) as [r [r' [H1 [_ H3]]]].
  { apply uniform_split; assumption. } { exact E1. } { exact E2. }
  exists r, r'. split; [exact H1|].
  destruct H3 as [H3 H4].
  { intros e1 e2 p1 p2 I1 I2 Hu P1 P2.
    refine (new_point_sym (CellF sc) (EdgeF se) _ _ inp e1 e2 p1 p2 Hv Hd R1 R2 Hs _ I1 I2 Hu P1 P2).
    intros Es. right. specialize (Hcl Es). apply closed_away; [exact Hcl|].
    pose proof (ins_dirs inp _ _ e1 Hv I1 R1) as J. apply Hw in J. split; destruct J as [J|J]; auto. }
  split; [exact H3|]. intros Hn. apply H4. intros [E|E]; [congruence|discriminate].
Qed.

Lemma C51_edges_of_selection_pf : forall (O : Ops) (D : Type) sc se fc fe sel l (inp : mesh O D) fuel1 fuel2 f1 f2 out1 out2,
  scheme_of (CellF sc) = scheme_of (EdgeF se) -> sel <> [] ->
  valid inp -> dense inp -> existing inp sel -> (sc = CLoop -> no_isolated inp) ->
  listed_once l -> (forall a b, lists_edge l a b <-> exists i t, In i sel /\ In (i, t) (faces inp) /\ edge_of t a b) ->
  update (CellF sc) fuel1 (set_cells_to_be_subdivided fc sel) inp = Ok (f1, out1) ->
  update (EdgeF se) fuel2 (set_edges_to_be_subdivided fe l) inp = Ok (f2, out2) ->
  exists r r', renumbered inp r r' out1 out2 /\ csel f1 = csel f2 /\
    ((forall x y, kadd O x y = kadd O y x) -> sc = CLinear -> same_coordinates r out1 out2).
Proof.
  intros O D sc se fc fe sel l inp fuel1 fuel2 f1 f2 out1 out2 Hs Hn Hv Hd He Hl Ho Hsel E1 E2.
  destruct (selection_edges sc se fc fe sel l inp Hs Hn Hv He Hl Ho Hsel) as [R1 [R2 [Hdom Hw]]].
  destruct (runs_same _ _ _ _ inp fuel1 fuel2 f1 f2 out1 out2 Hv Hd R1 R2 Hdom E1 E2) as [r [r' [H1 [H2 H3]]]].
  exists r, r'. split; [exact H1|]. split; [apply H2; exact Hw|]. intros Hcm ->. apply H3.
  - intros e1 e2 p1 p2 _ _ Hu P1 P2. exact (linear_sym (CellF CLinear) (EdgeF se) inp e1 e2 p1 p2 Hcm eq_refl (eq_sym Hs) Hu P1 P2).
  - intros [E|E]; discriminate.
Qed.

Lemma C51_edges_of_selection_coordinates_pf : forall (d : nat) (D : Type) sc se fc fe sel l (inp : mesh (RO d) D) fuel1 fuel2 f1 f2 out1 out2,
  scheme_of (CellF sc) = scheme_of (EdgeF se) -> sel <> [] ->
  valid inp -> dense inp -> existing inp sel -> (sc = CLoop -> no_isolated inp) ->
  (sc = CButterfly -> forall a b, lists_edge l a b -> interior_edge inp a b /\ away_from_border inp a b) ->
  listed_once l -> (forall a b, lists_edge l a b <-> exists i t, In i sel /\ In (i, t) (faces inp) /\ edge_of t a b) ->
  update (CellF sc) fuel1 (set_cells_to_be_subdivided fc sel) inp = Ok (f1, out1) ->
  update (EdgeF se) fuel2 (set_edges_to_be_subdivided fe l) inp = Ok (f2, out2) ->
  exists r r', renumbered inp r r' out1 out2 /\ csel f1 = csel f2 /\ same_new_coordinates inp r out1 out2 /\
    (sc <> CLoop -> same_coordinates r out1 out2).
Proof.
  intros d D sc se fc fe sel l inp fuel1 fuel2 f1 f2 out1 out2 Hs Hn Hv Hd He Hl HB Ho Hsel E1 E2.
  destruct (selection_edges sc se fc fe sel l inp Hs Hn Hv He Hl Ho Hsel) as [R1 [R2 [Hdom Hw]]].
  destruct (runs_same _ _ _ _ inp fuel1 fuel2 f1 f2 out1 out2 Hv Hd R1 R2 Hdom E1 E2) as [r [r' [H1 [H2 H3]]]].
  exists r, r'. split; [exact H1|]. split; [apply H2; exact Hw|].
  destruct H3 as [H3 H4].
  { intros e1 e2 p1 p2 I1 I2 Hu P1 P2.
    refine (new_point_sym (CellF sc) (EdgeF se) _ _ inp e1 e2 p1 p2 Hv Hd R1 R2 Hs _ I1 I2 Hu P1 P2).
    intros Es. right. destruct e1 as [a b]. cbn [fst snd].
    assert (Hle : lists_edge l a b).
    { apply Hsel. assert (Hts : to_split (CellF sc) (set_cells_to_be_subdivided fc sel) inp a b).
      { apply inserted_spec; [exact Hv|exact I|]. apply seen_spec. exists (a, b). split; [exact I1|left; reflexivity]. }
      destruct Hts as [t [[[E _]|[i [Hi Ht]]] Hab]]; [cbn in E; congruence|]. exists i, t. auto. }
    destruct (HB Es a b Hle). auto. }
  split; [exact H3|]. intros Hne. apply H4. intros [E|E]; [congruence|discriminate].
Qed.
