(** * FaceProps: proofs of the connectivity properties of the face-split filters.
    The statements are repeated, with examples, in Properties1.v. *)
From Coq Require Import Permutation Sorted.
From Verif Require Import Base Mesh Filters Spec SpecSub Lists AddFace SplitTri Split Points Valid Run Update Struct Count Face.

Lemma is_nil_whole_c {O : Ops} {D : Type} s f : csel f = [] -> whole (CellF s) f = true.
Proof. intros H. cbn. rewrite H. reflexivity. Qed.

Lemma ready_uniform {O : Ops} {D : Type} s f (inp : mesh O D) :
  s <> CSqrt3 -> (s = CLoop -> no_isolated inp) -> csel f = [] -> ready (CellF s) f inp.
Proof.
  intros H1 H2 H3. split; [unfold splits_faces; congruence|]. split.
  - intros [E|E]; [injection E as ->; auto|discriminate].
  - rewrite H3. intros i [].
Qed.

Lemma uniform_count {O : Ops} {D : Type} k f (inp : mesh O D) f' out mid Ls :
  valid inp -> whole k f = true -> face_result k f inp f' out mid Ls ->
  (forall t, In t (tris inp) -> nsplit mid t = 3%nat) /\ nF out = (4 * nF inp)%Z.
Proof.
  intros Hv Hw H.
  assert (H3 : forall t, In t (tris inp) -> nsplit mid t = 3%nat).
  { intros t Ht. eapply nsplit_all; [apply (fr_sub _ _ _ _ _ _ _ H)|].
    intros a b Hab. eapply uniform_split_all; eauto. }
  split; [exact H3|].
  rewrite (fr_nF _ _ _ _ _ _ _ H), (nF_tris _ Hv), (sd_tris _ _ _ _ _ (fr_sub _ _ _ _ _ _ _ H)).
  rewrite (children_length inp mid Ls 3 (sd_refines _ _ _ _ _ (fr_sub _ _ _ _ _ _ _ H)) H3). lia.
Qed.

Lemma C01_uniform_completes_pf : forall (O : Ops) (D : Type) (s : cscheme) (f : fstate) (inp : mesh O D),
  valid inp -> dense inp -> s <> CSqrt3 -> (s = CLoop -> no_isolated inp) -> csel f = [] ->
  exists f' out, completes (fun fuel => update (CellF s) fuel f inp) (Ok (f', out)) /\
                 nF out = (4 * nF inp)%Z.
Proof.
  intros O D s f inp Hv Hd Hs Hl Hc. pose proof (ready_uniform s f inp Hs Hl Hc) as Hr.
  destruct (face_completes _ _ _ Hv Hd Hr) as [f' [out H]]. exists f', out. split; [exact H|].
  destruct H as [_ [n H]]. specialize (H n (le_n n)).
  destruct (face_run _ _ _ _ _ _ Hv Hd Hr H) as [mid [Ls HF]].
  apply (uniform_count _ _ _ _ _ _ _ Hv (is_nil_whole_c (O:=O) (D:=D) s f Hc) HF).
Qed.

Lemma C01_face_split_completes_pf : forall (O : Ops) (D : Type) (k : kind) (f : fstate) (inp : mesh O D),
  valid inp -> dense inp -> ready k f inp ->
  exists f' out, completes (fun fuel => update k fuel f inp) (Ok (f', out)).
Proof. intros O D. exact face_completes. Qed.

Lemma C02_one_point_per_edge_pf : forall (O : Ops) (D : Type) (s : cscheme) (f : fstate) (inp : mesh O D) fuel f' out,
  valid inp -> dense inp -> s <> CSqrt3 -> (s = CLoop -> no_isolated inp) -> csel f = [] ->
  update (CellF s) fuel f inp = Ok (f', out) ->
  exists mid Ls,
    subdivision inp out (fun a b => In (a, b) (dirs (tris inp)) \/ In (b, a) (dirs (tris inp))) mid Ls /\
    (forall t L, In (t, L) (combine (tris inp) Ls) -> exists a b c x y z, t = (a, b, c) /\
       mid a b = Some x /\ mid b c = Some y /\ mid c a = Some z /\
       forall u, In u L <-> In u [(a, x, z); (x, b, y); (y, c, z); (x, y, z)]) /\
    (tris inp <> [] -> 2 * (nV out - nV inp) = 3 * nF inp + nB inp)%Z /\
    (tris inp <> [] -> no_wire inp -> nV out - nV inp = nE inp)%Z.
Proof.
  intros O D s f inp fuel f' out Hv Hd Hs Hl Hc E. pose proof (ready_uniform s f inp Hs Hl Hc) as Hr.
  destruct (face_run _ _ _ _ _ _ Hv Hd Hr E) as [mid [Ls HF]]. exists mid, Ls.
  assert (Hsd : subdivision inp out (fun a b => In (a, b) (dirs (tris inp)) \/ In (b, a) (dirs (tris inp))) mid Ls).
  { destruct (fr_sub _ _ _ _ _ _ _ HF) as [S1 S2 S3 S4 S5 S6 S7 S8]. constructor; auto.
    intros a b. rewrite S2. split; [intros H; eapply cell_split_face; eauto|].
    intros [H|H]; apply dirs_tri in H; destruct H as [t [Ht H]]; exists t; (split; [left; auto|]); [left|right]; exact H. }
  split; [exact Hsd|].
  destruct (uniform_count _ _ _ _ _ _ _ Hv (is_nil_whole_c (O:=O) (D:=D) s f Hc) HF) as [H3 H4].
  assert (Hcnt : (tris inp <> [] -> 2 * (nV out - nV inp) = 3 * nF inp + nB inp)%Z).
  { intros Hne. destruct (fr_valid _ _ _ _ _ _ _ HF Hne) as [Hvo Hdo].
    assert (Hall : forall l, (forall d, In d l -> In d (dirs (tris inp))) -> filter (splitb mid) l = l).
    { intros l Hin. induction l as [|d l IH]; [reflexivity|]. cbn [filter].
      assert (Hsp : splitb mid d = true).
      { destruct d as [a b]. unfold splitb. cbn [fst snd].
        assert (Hm : mid a b <> None) by (apply (sd_dom _ _ _ _ _ Hsd); left; apply Hin; cbn; auto).
        destruct (mid a b); [reflexivity|congruence]. }
      rewrite Hsp, IH; [reflexivity|]. intros x Hx. apply Hin. cbn. auto. }
    rewrite (point_count inp out _ mid Ls Hv Hsd Hd Hdo) by auto.
    rewrite !Hall by (intros d; rewrite ?filter_In; tauto).
    rewrite dirs_length, nB_bordb, (nF_tris _ Hv). lia. }
  split; [|split].
  - intros t L Hin. apply In_nth_error in Hin. destruct Hin as [i Hi].
    assert (Hti : nth_error (tris inp) i = Some t /\ nth_error Ls i = Some L).
    { clear - Hi. revert i Hi. generalize (tris inp) as T. revert Ls. induction Ls as [|M Ls IH]; intros [|t0 T] [|i] Hi; try discriminate.
      - cbn in Hi. inv Hi. auto.
      - cbn in Hi |- *. apply IH. exact Hi. }
    destruct Hti as [Ht HL].
    destruct (Forall2_nth _ _ _ (sd_refines _ _ _ _ _ Hsd) i t Ht) as [L' [HL' HR]].
    rewrite HL in HL'. inv HL'. apply nth_error_In in Ht. pose proof (H3 t Ht) as Hn.
    destruct t as [[a b] c]. apply all_three_nsplit in Hn.
    destruct (mid a b) as [x|] eqn:Ex; [|discriminate].
    destruct (mid b c) as [y|] eqn:Ey; [|discriminate].
    destruct (mid c a) as [z|] eqn:Ez; [|discriminate].
    exists a, b, c, x, y, z. split; [reflexivity|]. split; [exact Ex|]. split; [exact Ey|]. split; [exact Ez|].
    apply (rf_four _ _ _ HR a b c x y z); auto.
  - exact Hcnt.
  - intros Hne Hw. specialize (Hcnt Hne). pose proof (edge_count inp Hv Hw). lia.
Qed.

Lemma C03_ids_survive_pf : forall (O : Ops) (D : Type) (k : kind) (f : fstate) (inp : mesh O D) fuel f' out,
  valid inp -> dense inp -> ready k f inp -> update k fuel f inp = Ok (f', out) ->
  (forall id, oget id (pts inp) <> None -> oget id (pts out) <> None) /\
  (forall id, oget id (pts out) <> None <-> id < osize (pts out)) /\
  exists Es : list (N * N),
    (forall i j e g, nth_error Es i = Some e -> nth_error Es j = Some g -> undirected_eq e g -> i = j) /\
    (forall a b, to_split k f inp a b <-> exists e, In e Es /\ undirected_eq e (a, b)) /\
    osize (pts out) = osize (pts inp) + N.of_nat (length Es).
Proof.
  intros O D k f inp fuel f' out Hv Hd Hr E.
  destruct (face_run _ _ _ _ _ _ Hv Hd Hr E) as [mid [Ls HF]].
  pose proof (fr_sub _ _ _ _ _ _ _ HF) as Hsd.
  split; [apply (sd_old _ _ _ _ _ Hsd)|]. split; [apply (fr_dense _ _ _ _ _ _ _ HF)|].
  destruct (new_points inp out _ mid Ls Hsd Hd (fr_dense _ _ _ _ _ _ _ HF)) as [L [H1 [H2 [H3 [H4 H5]]]]].
  exists L. split; [exact H3|]. split.
  - intros a b. split; [apply H5|]. intros [[x y] [He Hu]]. apply H4 in He.
    destruct Hu as [Hu|Hu]; inv Hu; [exact He|].
    apply (sd_dom _ _ _ _ _ Hsd). rewrite (sd_sym _ _ _ _ _ Hsd). apply (sd_dom _ _ _ _ _ Hsd). exact He.
  - unfold osize, dedge in *. lia.
Qed.

Lemma C04_proper_triangles_pf : forall (O : Ops) (D : Type) (k : kind) (f : fstate) (inp : mesh O D) fuel f' out,
  valid inp -> dense inp -> ready k f inp -> update k fuel f inp = Ok (f', out) ->
  forall cs id c, cells out = Some cs -> In (id, c) cs ->
  exists x y z, c = Some (Poly [x; y; z]) /\ x <> y /\ y <> z /\ z <> x /\
    oget x (pts out) <> None /\ oget y (pts out) <> None /\ oget z (pts out) <> None.
Proof.
  intros O D k f inp fuel f' out Hv Hd Hr E cs id c Hcs Hin.
  destruct (face_run _ _ _ _ _ _ Hv Hd Hr E) as [mid [Ls HF]].
  pose proof (fr_sub _ _ _ _ _ _ _ HF) as Hsd.
  destruct (fr_tris _ _ _ _ _ _ _ HF cs id c Hcs Hin) as [x [y [z [-> Ht]]]].
  exists x, y, z. split; [reflexivity|].
  assert (Hne : tris inp <> []).
  { intros E0. rewrite (sd_tris _ _ _ _ _ Hsd) in Ht. pose proof (sd_refines _ _ _ _ _ Hsd) as H2.
    rewrite E0 in H2. inv H2. destruct Ht. }
  destruct (fr_valid _ _ _ _ _ _ _ HF Hne) as [Hvo _].
  pose proof (v_proper _ Hvo _ Ht) as Hp. cbn in Hp. pose proof (v_verts _ Hvo _ x Ht) as Hx.
  pose proof (v_verts _ Hvo _ y Ht) as Hy. pose proof (v_verts _ Hvo _ z Ht) as Hz. cbn in Hx, Hy, Hz.
  repeat split; try tauto; auto.
Qed.

Lemma C05_manifold_nothing_lost_pf : forall (O : Ops) (D : Type) (k : kind) (f : fstate) (inp : mesh O D) fuel f' out,
  valid inp -> dense inp -> ready k f inp -> update k fuel f inp = Ok (f', out) ->
  NoDup (dirs (tris out)) /\
  exists mid Ls, subdivision inp out (to_split k f inp) mid Ls /\
    nF out = Z.of_nat (length (concat Ls)) /\
    forall id u, In (id, u) (faces out) <-> nth_error (concat Ls) (N.to_nat id) = Some u.
Proof.
  intros O D k f inp fuel f' out Hv Hd Hr E.
  destruct (face_run _ _ _ _ _ _ Hv Hd Hr E) as [mid [Ls HF]].
  pose proof (fr_sub _ _ _ _ _ _ _ HF) as Hsd. split.
  - destruct (tris inp) as [|t T] eqn:ET.
    + rewrite (sd_tris _ _ _ _ _ Hsd). pose proof (sd_refines _ _ _ _ _ Hsd) as H2. rewrite ET in H2. inv H2. constructor.
    + apply (v_dirs _). apply (fr_valid _ _ _ _ _ _ _ HF). rewrite ET. discriminate.
  - exists mid, Ls. split; [exact Hsd|]. rewrite <- (sd_tris _ _ _ _ _ Hsd).
    split; [apply (fr_nF _ _ _ _ _ _ _ HF)|apply (fr_ids _ _ _ _ _ _ _ HF)].
Qed.

Lemma C06_borders_pf : forall (O : Ops) (D : Type) (k : kind) (f : fstate) (inp : mesh O D) fuel f' out,
  valid inp -> dense inp -> ready k f inp -> tris inp <> [] -> update k fuel f inp = Ok (f', out) ->
  exists mid Ls, subdivision inp out (to_split k f inp) mid Ls /\
    (forall x y, border_dir out x y <-> exists a b, border_dir inp a b /\ part_of mid a b x y) /\
    (closed inp <-> closed out) /\
    (csel f = [] -> esel f = [] -> nB out = 2 * nB inp)%Z.
Proof.
  intros O D k f inp fuel f' out Hv Hd Hr Hne E.
  destruct (face_run _ _ _ _ _ _ Hv Hd Hr E) as [mid [Ls HF]].
  pose proof (fr_sub _ _ _ _ _ _ _ HF) as Hsd. exists mid, Ls. split; [exact Hsd|].
  destruct (fr_valid _ _ _ _ _ _ _ HF Hne) as [Hvo Hdo].
  pose proof (border_sub inp out _ mid Ls Hv Hvo Hsd) as HB. split; [exact HB|]. split; [split|].
  - intros Hc x y Hxy. destruct (in_dec dedge_dec (y, x) (dirs (tris out))) as [H|H]; [exact H|].
    exfalso. destruct (proj1 (HB x y) (conj Hxy H)) as [a [b [[H1 H2] _]]]. apply H2. apply Hc. exact H1.
  - intros Hc a b Hab. destruct (in_dec dedge_dec (b, a) (dirs (tris inp))) as [H|H]; [exact H|].
    exfalso. destruct (mid a b) as [m|] eqn:Em.
    + destruct (proj2 (HB a m)) as [H1 H2].
      { exists a, b. split; [split; assumption|]. unfold part_of. rewrite Em. auto. }
      apply H2. apply Hc. exact H1.
    + destruct (proj2 (HB a b)) as [H1 H2].
      { exists a, b. split; [split; assumption|]. unfold part_of. rewrite Em. auto. }
      apply H2. apply Hc. exact H1.
  - intros Hc He. rewrite (border_count inp out _ mid Ls Hv Hvo Hsd).
    assert (Hw : whole k f = true) by (destruct k; cbn; rewrite ?Hc, ?He; reflexivity).
    destruct (uniform_count _ _ _ _ _ _ _ Hv Hw HF) as [H3 _].
    assert (Hall : forall l, (forall d, In d l -> In d (dirs (tris inp))) -> filter (splitb mid) l = l).
    { intros l Hin. induction l as [|d l IH]; [reflexivity|]. cbn [filter].
      assert (Hsp : splitb mid d = true).
      { destruct d as [a b]. unfold splitb. cbn [fst snd].
        assert (Hm : mid a b <> None).
        { apply (sd_dom _ _ _ _ _ Hsd). specialize (Hin (a, b) ltac:(cbn; auto)). apply dirs_tri in Hin.
          destruct Hin as [t [Ht Hin]]. eapply uniform_split_all; eauto. }
        destruct (mid a b); [reflexivity|congruence]. }
      rewrite Hsp, IH; [reflexivity|]. intros x Hx. apply Hin. cbn. auto. }
    rewrite Hall by (intros d; rewrite filter_In; tauto). rewrite nB_bordb. lia.
Qed.

Lemma C07_euler_pf : forall (O : Ops) (D : Type) (k : kind) (f : fstate) (inp : mesh O D) fuel f' out,
  valid inp -> dense inp -> ready k f inp -> tris inp <> [] -> no_wire inp ->
  update k fuel f inp = Ok (f', out) -> euler out = euler inp.
Proof.
  intros O D k f inp fuel f' out Hv Hd Hr Hne Hw E.
  destruct (face_run _ _ _ _ _ _ Hv Hd Hr E) as [mid [Ls HF]].
  destruct (fr_valid _ _ _ _ _ _ _ HF Hne) as [Hvo Hdo].
  apply (euler_sub inp out _ mid Ls Hv Hvo (fr_sub _ _ _ _ _ _ _ HF) Hd Hdo); [|exact Hw].
  intros a b H. eapply to_split_face; eauto.
Qed.

Lemma C08_output_valid_pf : forall (O : Ops) (D : Type) (k : kind) (f : fstate) (inp : mesh O D) fuel f' out,
  valid inp -> dense inp -> ready k f inp -> tris inp <> [] -> update k fuel f inp = Ok (f', out) ->
  valid out /\ dense out /\ tris out <> [] /\ no_wire out /\
  (no_wire inp -> no_isolated inp -> no_isolated out).
Proof.
  intros O D k f inp fuel f' out Hv Hd Hr Hne E.
  destruct (face_run _ _ _ _ _ _ Hv Hd Hr E) as [mid [Ls HF]].
  pose proof (fr_sub _ _ _ _ _ _ _ HF) as Hsd.
  destruct (fr_valid _ _ _ _ _ _ _ HF Hne) as [Hvo Hdo].
  split; [exact Hvo|]. split; [exact Hdo|]. split; [|split].
  - rewrite (sd_tris _ _ _ _ _ Hsd). pose proof (sd_refines _ _ _ _ _ Hsd) as H2.
    destruct (tris inp) as [|t T]; [congruence|]. inv H2. cbn [concat].
    pose proof (rf_count _ _ _ H1) as Hl. destruct y; discriminate.
  - apply (sd_nowire _ _ _ _ _ Hsd).
  - intros Hw Hi. apply (no_isolated_out inp out _ mid Ls Hv Hvo Hsd Hi Hw).
    intros a b H. eapply to_split_joined; eauto.
Qed.

Lemma C08_chains_pf : forall (O : Ops) (D : Type) (inp : mesh O D) n out,
  valid inp -> dense inp -> tris inp <> [] -> chained inp n out ->
  valid out /\ dense out /\ tris out <> [] /\
  (no_wire inp -> no_wire out /\ euler out = euler inp /\ (no_isolated inp -> no_isolated out)) /\
  forall k f, ready k f out -> exists f' out', completes (fun fuel => update k fuel f out) (Ok (f', out')).
Proof.
  intros O D inp n out Hv Hd Hne H.
  assert (Hall : valid out /\ dense out /\ tris out <> [] /\
    (no_wire inp -> no_wire out /\ euler out = euler inp /\ (no_isolated inp -> no_isolated out))).
  { induction H as [|n m k f fuel f' out Hch IH Hr E]; [tauto|].
    destruct IH as [IH1 [IH2 [IH3 IH4]]].
    destruct (C08_output_valid_pf O D k f m fuel f' out IH1 IH2 Hr IH3 E) as [H1 [H2 [H3 [H4 H5]]]].
    split; [exact H1|]. split; [exact H2|]. split; [exact H3|]. intros Hw. destruct (IH4 Hw) as [W1 [W2 W3]].
    split; [exact H4|]. split; [|auto].
    rewrite <- W2. eapply C07_euler_pf; eauto. }
  destruct Hall as [H1 [H2 [H3 H4]]]. split; [exact H1|]. split; [exact H2|]. split; [exact H3|]. split; [exact H4|].
  intros k f Hr. apply face_completes; assumption.
Qed.

Lemma Forall2_len {A B} (R : A -> B -> Prop) l l' : Forall2 R l l' -> length l = length l'.
Proof. intros H. induction H; cbn; congruence. Qed.

Lemma Forall2_combine {A B} (R : A -> B -> Prop) l l' x y : Forall2 R l l' -> In (x, y) (combine l l') -> In x l /\ In y l' /\ R x y.
Proof.
  intros H. induction H as [|a b l l' Hab H IH]; cbn; [tauto|]. intros [E|Hin]; [inv E; auto|].
  destruct (IH Hin) as [H1 [H2 H3]]. auto.
Qed.

Lemma C09_no_T_junction_pf : forall (O : Ops) (D : Type) (k : kind) (f : fstate) (inp : mesh O D) fuel f' out,
  valid inp -> dense inp -> ready k f inp -> tris inp <> [] -> update k fuel f inp = Ok (f', out) ->
  exists mid Ls, subdivision inp out (to_split k f inp) mid Ls /\
    (forall a b, to_split k f inp a b -> ~ joined out a b) /\
    (forall a b m t L, mid a b = Some m -> In (t, L) (combine (tris inp) Ls) -> In (a, b) (tdirs t) ->
       In (a, m) (dirs L) /\ In (m, b) (dirs L)) /\
    (forall a b, ~ to_split k f inp a b -> In (a, b) (dirs (tris inp)) -> joined out a b).
Proof.
  intros O D k f inp fuel f' out Hv Hd Hr Hne E.
  destruct (face_run _ _ _ _ _ _ Hv Hd Hr E) as [mid [Ls HF]].
  pose proof (fr_sub _ _ _ _ _ _ _ HF) as Hsd.
  destruct (fr_valid _ _ _ _ _ _ _ HF Hne) as [Hvo Hdo].
  exists mid, Ls. split; [exact Hsd|]. split; [|split].
  - intros a b Hs. pose proof (to_split_joined _ _ _ _ _ Hv Hr Hs) as Hj.
    apply (out_edge_cut inp out _ mid Ls a b Hv Hvo Hsd Hs).
    + apply (v_ring_pts _ Hv b a). apply (v_ring_sym _ Hv). exact Hj.
    + apply (v_ring_pts _ Hv a b). exact Hj.
    + intros ->. apply (v_ring_irr _ Hv _ Hj).
  - intros a b m t L Hm Hin Hab. destruct (Forall2_combine _ _ _ _ _ (sd_refines _ _ _ _ _ Hsd) Hin) as [_ [_ HR]].
    split.
    + apply (rf_border _ _ _ HR a m). exists a, b. split; [exact Hab|]. unfold part_of. rewrite Hm. auto.
    + apply (rf_border _ _ _ HR m b). exists a, b. split; [exact Hab|]. unfold part_of. rewrite Hm. auto.
  - intros a b Hns Hab. apply (v_face_edges _ Hvo).
    apply (part_in inp out _ mid Ls Hvo Hsd a b a b Hab). unfold part_of.
    destruct (mid a b) eqn:Em; [|auto]. exfalso. apply Hns. apply (sd_dom _ _ _ _ _ Hsd). congruence.
Qed.

Lemma C10_children_pf : forall (O : Ops) (D : Type) (k : kind) (f : fstate) (inp : mesh O D) fuel f' out,
  valid inp -> dense inp -> ready k f inp -> update k fuel f inp = Ok (f', out) ->
  exists mid Ls, subdivision inp out (to_split k f inp) mid Ls /\
    tris out = concat Ls /\ length Ls = length (tris inp) /\
    (forall t L, In (t, L) (combine (tris inp) Ls) ->
       length L = (1 + nsplit mid t)%nat /\
       (forall a b, In (a, b) (tdirs t) -> mid a b <> None <-> to_split k f inp a b)) /\
    (forall t L s, In (t, L) (combine (tris inp) Ls) -> k = CellF s -> selected inp (csel f) t -> length L = 4%nat).
Proof.
  intros O D k f inp fuel f' out Hv Hd Hr E.
  destruct (face_run _ _ _ _ _ _ Hv Hd Hr E) as [mid [Ls HF]].
  pose proof (fr_sub _ _ _ _ _ _ _ HF) as Hsd.
  exists mid, Ls. split; [exact Hsd|]. split; [apply (sd_tris _ _ _ _ _ Hsd)|].
  split; [symmetry; eapply Forall2_len; apply (sd_refines _ _ _ _ _ Hsd)|]. split.
  - intros t L Hin. destruct (Forall2_combine _ _ _ _ _ (sd_refines _ _ _ _ _ Hsd) Hin) as [_ [_ HR]].
    split; [apply (rf_count _ _ _ HR)|]. intros a b _. apply (sd_dom _ _ _ _ _ Hsd).
  - intros t L s Hin -> Hsel. destruct (Forall2_combine _ _ _ _ _ (sd_refines _ _ _ _ _ Hsd) Hin) as [_ [_ HR]].
    rewrite (rf_count _ _ _ HR). f_equal. eapply selected_nsplit; eauto.
Qed.

Lemma C11_untouched_copied_pf : forall (O : Ops) (D : Type) (k : kind) (f : fstate) (inp : mesh O D) fuel f' out t,
  valid inp -> dense inp -> ready k f inp -> update k fuel f inp = Ok (f', out) ->
  In t (tris inp) -> (forall a b, In (a, b) (tdirs t) -> ~ to_split k f inp a b) ->
  exists i, nth_error (tris out) i = Some t /\ forall j, nth_error (tris out) j = Some t -> j = i.
Proof.
  intros O D k f inp fuel f' out t Hv Hd Hr E Ht Hun.
  destruct (face_run _ _ _ _ _ _ Hv Hd Hr E) as [mid [Ls HF]].
  pose proof (fr_sub _ _ _ _ _ _ _ HF) as Hsd.
  assert (Hne : tris inp <> []) by (intros E0; rewrite E0 in Ht; destruct Ht).
  destruct (fr_valid _ _ _ _ _ _ _ HF Hne) as [Hvo _].
  assert (Hin : In t (tris out)).
  { apply In_nth_error in Ht. destruct Ht as [i Hi].
    destruct (Forall2_nth _ _ _ (sd_refines _ _ _ _ _ Hsd) i t Hi) as [L [HL HR]].
    rewrite (sd_tris _ _ _ _ _ Hsd). apply in_concat. exists L. split; [eapply nth_error_In; eauto|].
    rewrite (rf_copy _ _ _ HR); [cbn; auto|]. destruct t as [[a b] c]. rewrite nsplit_olist.
    assert (Hnone : forall x y, In (x, y) (tdirs (a, b, c)) -> mid x y = None).
    { intros x y Hxy. destruct (mid x y) eqn:Em; [|reflexivity]. exfalso. apply (Hun x y Hxy).
      apply (sd_dom _ _ _ _ _ Hsd). congruence. }
    rewrite (Hnone a b), (Hnone b c), (Hnone c a) by (cbn; auto). reflexivity. }
  apply In_nth_error in Hin. destruct Hin as [i Hi]. exists i. split; [exact Hi|]. intros j Hj.
  destruct t as [[a b] c]. apply (NoDup_dirs_index (tris out) j i (a, b, c) (a, b, c) (a, b) (v_dirs _ Hvo)); auto; cbn; auto.
Qed.

Lemma C12_reported_list_pf : forall (O : Ops) (D : Type) (k : kind) (f : fstate) (inp : mesh O D) fuel f' out,
  valid inp -> dense inp -> ready k f inp -> update k fuel f inp = Ok (f', out) ->
  exists mid Ls, subdivision inp out (to_split k f inp) mid Ls /\
    StronglySorted N.lt (csel f') /\
    (forall id, In id (csel f') -> exists u, In (id, u) (faces out)) /\
    (match k with CellF _ => csel f <> [] | EdgeF _ => esel f <> [] end ->
     forall id u pid t, In (id, u) (faces out) -> child_of inp Ls pid t u ->
       (In id (csel f') <-> forall a b, In (a, b) (tdirs t) -> to_split k f inp a b)) /\
    (match k with CellF _ => csel f = [] | EdgeF _ => esel f = [] end -> csel f' = []).
Proof.
  intros O D k f inp fuel f' out Hv Hd Hr E.
  destruct (face_run _ _ _ _ _ _ Hv Hd Hr E) as [mid [Ls HF]].
  pose proof (fr_sub _ _ _ _ _ _ _ HF) as Hsd. exists mid, Ls. split; [exact Hsd|].
  split; [apply (fr_sorted _ _ _ _ _ _ _ HF)|].
  assert (Hcs := fr_csel _ _ _ _ _ _ _ HF).
  assert (Hns : forall t, nsplit mid t = 3%nat <-> forall a b, In (a, b) (tdirs t) -> to_split k f inp a b).
  { intros t. split.
    - intros H3 a b Hab. apply (sd_dom _ _ _ _ _ Hsd). destruct t as [[x y] z]. apply all_three_nsplit in H3.
      destruct (mid x y) eqn:E1, (mid y z) eqn:E2, (mid z x) eqn:E3; try discriminate.
      cbn in Hab. destruct Hab as [Hab|[Hab|[Hab|[]]]]; injection Hab as <- <-; congruence.
    - intros H. eapply nsplit_all; eauto. }
  split; [|split].
  - intros id Hid. apply Hcs in Hid. destruct Hid as [_ [pid [t [u [Hu _]]]]]. eauto.
  - intros Hk id u pid t Hu Hch. rewrite <- Hns. rewrite Hcs. split.
    + intros [Hw [pid' [t' [u' [Hu' [Hch' H3]]]]]].
      apply (fr_ids _ _ _ _ _ _ _ HF) in Hu, Hu'. assert (u = u') by congruence. subst u'.
      assert (t = t'); [|congruence].
      destruct Hch as [L [HL HuL]], Hch' as [L' [HL' HuL']].
      assert (Hc : forall pid t L, In ((pid, t), L) (combine (faces inp) Ls) ->
                    exists i, nth_error (tris inp) i = Some t /\ nth_error Ls i = Some L).
      { clear. unfold tris. generalize (faces inp) as F. induction Ls as [|M Ls IH]; intros [|[q s] F] pid t L; cbn; try tauto.
        intros [H|H]; [inv H; exists 0%nat; auto|]. destruct (IH F pid t L H) as [i [H1 H2]]. exists (Datatypes.S i). auto. }
      destruct (Hc _ _ _ HL) as [i [Hi Hi']]. destruct (Hc _ _ _ HL') as [j [Hj Hj']].
      assert (Hne : tris inp <> []) by (intros E0; rewrite E0 in Hi; destruct i; discriminate).
      destruct (fr_valid _ _ _ _ _ _ _ HF Hne) as [Hvo _].
      assert (Hd1 : NoDup (dirs (concat Ls))) by (rewrite <- (sd_tris _ _ _ _ _ Hsd); apply (v_dirs _ Hvo)).
      assert (i = j); [|congruence].
      destruct u as [[p q] r]. clear - Hd1 Hi' Hj' HuL HuL'. revert i j Hi' Hj' Hd1.
      assert (Hsub : forall Ms n M, nth_error Ms n = Some M -> In (p, q, r) M -> In (p, q) (dirs (concat Ms))).
      { intros Ms n M Hn Hu. apply dirs_tri. exists (p, q, r). split; [|cbn; auto].
        apply in_concat. exists M. split; [eapply nth_error_In; eauto|exact Hu]. }
      assert (Hsub1 : forall M, In (p, q, r) M -> In (p, q) (dirs M)) by (intros M Hu; apply dirs_tri; exists (p, q, r); cbn; auto).
      induction Ls as [|M Ms IH]; intros [|i] [|j] Hi Hj Hd; try discriminate; auto.
      * cbn in Hi. inv Hi. exfalso. cbn [concat] in Hd. unfold dirs in Hd. rewrite flat_map_app in Hd.
        fold (dirs L) in Hd. fold (dirs (concat Ms)) in Hd.
        apply (NoDup_app_disj _ _ (p, q) Hd); [apply Hsub1; exact HuL|]. cbn in Hj. eapply Hsub; eauto.
      * cbn in Hj. inv Hj. exfalso. cbn [concat] in Hd. unfold dirs in Hd. rewrite flat_map_app in Hd.
        fold (dirs L') in Hd. fold (dirs (concat Ms)) in Hd.
        apply (NoDup_app_disj _ _ (p, q) Hd); [apply Hsub1; exact HuL'|]. cbn in Hi. eapply Hsub; eauto.
      * f_equal. apply IH; auto. cbn [concat] in Hd. unfold dirs in Hd. rewrite flat_map_app in Hd.
        apply NoDup_app_r in Hd. exact Hd.
    + intros H3. split; [|eauto 8]. destruct k; cbn; [destruct (csel f)|destruct (esel f)]; cbn; congruence.
  - intros Hk. destruct (csel f') as [|i l] eqn:El; [reflexivity|].
    assert (Hi : In i (i :: l)) by (cbn; auto). apply Hcs in Hi. destruct Hi as [Hw _].
    exfalso. destruct k; cbn in Hw; rewrite Hk in Hw; discriminate.
Qed.

Lemma C14_cell_data_pf : forall (O : Ops) (D : Type) (k : kind) (f : fstate) (inp : mesh O D) fuel f' out,
  valid inp -> dense inp -> ready k f inp -> update k fuel f inp = Ok (f', out) ->
  exists mid Ls, subdivision inp out (to_split k f inp) mid Ls /\
    (forall id u, In (id, u) (faces out) -> exists pid t, child_of inp Ls pid t u) /\
    (forall id u pid t, In (id, u) (faces out) -> child_of inp Ls pid t u -> cell_datum out id = cell_datum inp pid) /\
    (forall id, cell_datum out id <> None -> exists u, In (id, u) (faces out)).
Proof.
  intros O D k f inp fuel f' out Hv Hd Hr E.
  destruct (face_run _ _ _ _ _ _ Hv Hd Hr E) as [mid [Ls HF]].
  pose proof (fr_sub _ _ _ _ _ _ _ HF) as Hsd. exists mid, Ls. split; [exact Hsd|]. split; [|split].
  - intros id u Hu. apply (fr_ids _ _ _ _ _ _ _ HF) in Hu. apply nth_error_In in Hu.
    rewrite (sd_tris _ _ _ _ _ Hsd) in Hu. apply in_concat in Hu. destruct Hu as [L [HL Hu]].
    apply In_nth_error in HL. destruct HL as [i Hi].
    assert (Hlen : length Ls = length (faces inp)).
    { rewrite <- (Forall2_len _ _ _ (sd_refines _ _ _ _ _ Hsd)). unfold tris. apply map_length. }
    destruct (nth_error (faces inp) i) as [[pid t]|] eqn:Ei.
    + exists pid, t, L. split; [|exact Hu]. clear - Hi Ei. revert i Hi Ei. generalize (faces inp) as F.
      induction Ls as [|M Ls IH]; intros [|q F] [|i] Hi Ei; try discriminate; cbn in *.
      * inv Hi. inv Ei. auto.
      * right. eapply IH; eauto.
    + apply nth_error_None in Ei. assert (i < length Ls)%nat by (apply nth_error_Some; congruence). lia.
  - intros id u pid t. apply (fr_data _ _ _ _ _ _ _ HF).
  - apply (fr_data_only _ _ _ _ _ _ _ HF).
Qed.

Lemma C15_interpolating_pf : forall (O : Ops) (D : Type) (k : kind) (f : fstate) (inp : mesh O D) fuel f' out id p,
  valid inp -> dense inp -> ready k f inp -> k <> CellF CLoop -> update k fuel f inp = Ok (f', out) ->
  oget id (pts inp) = Some p -> oget id (pts out) = Some p.
Proof.
  intros O D k f inp fuel f' out id p Hv Hd Hr Hk E Hp.
  destruct (face_run _ _ _ _ _ _ Hv Hd Hr E) as [mid [Ls HF]].
  apply (fr_old _ _ _ _ _ _ _ HF id p Hp Hk).
Qed.

Lemma C39_edge_filters_pf : forall (O : Ops) (D : Type) (s : escheme) (f : fstate) (inp : mesh O D),
  valid inp -> dense inp -> esel f <> [] -> edges_listed inp (esel f) -> listed_once (esel f) ->
  (s = ELoop -> no_isolated inp /\ face_edges_listed inp (esel f)) ->
  exists f' out, completes (fun fuel => update (EdgeF s) fuel f inp) (Ok (f', out)) /\
  (nV out = nV inp + Z.of_nat (length (filter is_some (esel f))))%Z /\
  exists mid Ls,
    subdivision inp out (fun a b => In (Some (a, b)) (esel f) \/ In (Some (b, a)) (esel f)) mid Ls.
Proof.
  intros O D s f inp Hv Hd Hne Hl Ho Hs.
  assert (Hr : ready (EdgeF s) f inp).
  { split; [unfold splits_faces; congruence|]. split.
    - intros [E|E]; [discriminate|]. injection E as ->. apply Hs. reflexivity.
    - split; [congruence|]. intros _. split; [exact Hl|]. split; [exact Ho|]. intros Es. apply Hs. exact Es. }
  destruct (face_completes _ _ _ Hv Hd Hr) as [f' [out H]]. exists f', out. split; [exact H|].
  destruct H as [_ [n H]]. specialize (H n (le_n n)).
  destruct (face_run _ _ _ _ _ _ Hv Hd Hr H) as [mid [Ls HF]]. split.
  - rewrite (fr_count _ _ _ _ _ _ _ HF). f_equal. f_equal. cbn [inserted]. clear - Hne.
    unfold edge_list. destruct (esel f) as [|o l]; [congruence|]. clear. cbn [is_nil].
    generalize (o :: l) as L0. intros L0. induction L0 as [|[e|] L IH]; cbn; [reflexivity|f_equal; exact IH|exact IH].
  - exists mid, Ls. destruct (fr_sub _ _ _ _ _ _ _ HF) as [S1 S2 S3 S4 S5 S6 S7 S8]. constructor; auto.
    intros a b. rewrite S2. cbn [to_split]. tauto.
Qed.
