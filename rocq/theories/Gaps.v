(** * Gaps: cases that the earlier theorems leave out: inputs without triangles (C06, C07, C08, C09,
    C36) and the sqrt(3) filter (C04, C47). *)
From Coq Require Import Reals Sorted.
From Verif Require Import Base Mesh Filters Drivers Spec SpecSub SpecGeo SpecDrive SpecRoot3 Lists Valid AddFace
  Run Update Struct Face FaceProps Root3Main Root3Props Repeat Repeat3 SpecRenum.

Open Scope N_scope.

Section EMPTY.
Context {O : Ops} {D : Type}.
Notation mesh := (mesh O D).
Implicit Types inp out : mesh.

Lemma empty_out inp out S mid Ls : subdivision inp out S mid Ls -> tris inp = [] -> tris out = [].
Proof.
  intros Hsd E. rewrite (sd_tris _ _ _ _ _ Hsd). pose proof (sd_refines _ _ _ _ _ Hsd) as H.
  rewrite E in H. inversion H. reflexivity.
Qed.
Lemma empty_joined (m : mesh) a b : no_wire m -> tris m = [] -> ~ joined m a b.
Proof. intros Hw E Hj. apply Hw in Hj. rewrite E in Hj. destruct Hj as [[]|[]]. Qed.
Lemma empty_ecells inp : valid inp -> (forall a b, ~ joined inp a b) -> nE inp = 0%Z.
Proof.
  intros Hv Hj. destruct (v_ecells _ Hv) as [es [Ee [_ [Hes _]]]]. unfold nE. rewrite Ee.
  destruct es as [|[id o] es]; [reflexivity|]. exfalso.
  destruct (Hes id o ltac:(cbn; auto)) as [a [b [_ H]]]. apply (Hj a b H).
Qed.
Lemma tris_dec inp : tris inp = [] \/ tris inp <> [].
Proof. destruct (tris inp); [left; reflexivity|right; discriminate]. Qed.
End EMPTY.

Lemma C06_all_pf : forall (O : Ops) (D : Type) (k : kind) (f : fstate) (inp : mesh O D) fuel f' out,
  valid inp -> dense inp -> ready k f inp -> update k fuel f inp = Ok (f', out) ->
  exists mid Ls, subdivision inp out (to_split k f inp) mid Ls /\
    (forall x y, border_dir out x y <-> exists a b, border_dir inp a b /\ part_of mid a b x y) /\
    (closed inp <-> closed out) /\
    (csel f = [] -> esel f = [] -> nB out = 2 * nB inp)%Z.
Proof.
  intros O D k f inp fuel f' out Hv Hd Hr E.
  destruct (tris_dec inp) as [Hn|Hn]; [|eapply C06_borders_pf; eauto].
  destruct (face_run _ _ _ _ _ _ Hv Hd Hr E) as [mid [Ls HF]].
  pose proof (fr_sub _ _ _ _ _ _ _ HF) as Hsd. pose proof (empty_out _ _ _ _ _ Hsd Hn) as Ho.
  exists mid, Ls. split; [exact Hsd|]. unfold border_dir, closed, nB. rewrite Hn, Ho. cbn [dirs flat_map].
  split; [|split].
  - intros x y. split; [intros [[] _]|]. intros [a [b [[[] _] _]]].
  - split; intros _ a b [].
  - reflexivity.
Qed.

Lemma C07_all_pf : forall (O : Ops) (D : Type) (k : kind) (f : fstate) (inp : mesh O D) fuel f' out,
  valid inp -> dense inp -> ready k f inp -> no_wire inp ->
  update k fuel f inp = Ok (f', out) -> euler out = euler inp.
Proof.
  intros O D k f inp fuel f' out Hv Hd Hr Hw E.
  destruct (tris_dec inp) as [Hn|Hn]; [|eapply C07_euler_pf; eauto].
  destruct (face_run _ _ _ _ _ _ Hv Hd Hr E) as [mid [Ls HF]].
  pose proof (fr_sub _ _ _ _ _ _ _ HF) as Hsd. pose proof (empty_out _ _ _ _ _ Hsd Hn) as Ho.
  assert (Hi : inserted k f inp = []).
  { destruct (inserted k f inp) as [|e l] eqn:Ei; [reflexivity|]. exfalso.
    apply (empty_joined inp (fst e) (snd e) Hw Hn). apply (ins_dirs inp k f e Hv); [rewrite Ei; cbn; auto|exact Hr]. }
  assert (HEi : nE inp = 0%Z) by (apply empty_ecells; [exact Hv|intros a b; apply empty_joined; assumption]).
  assert (HEo : nE out = 0%Z).
  { destruct (update_split_inv k f inp fuel f' out Hv Hd Hr E) as [P0 [Hrun _]].
    destruct (i_ecells _ _ _ _ (r_built _ _ _ _ _ _ _ _ Hrun)) as [L [HL [_ [Ha _]]]].
    unfold nE. rewrite HL. destruct L as [|e L]; [reflexivity|]. exfalso. specialize (Ha e ltac:(cbn; auto)).
    apply (i_ring _ _ _ _ (r_built _ _ _ _ _ _ _ _ Hrun)) in Ha.
    apply (empty_joined out (fst e) (snd e) (sd_nowire _ _ _ _ _ Hsd) Ho Ha). }
  unfold euler. rewrite HEi, HEo, (fr_count _ _ _ _ _ _ _ HF), Hi, (fr_nF _ _ _ _ _ _ _ HF), Ho, <- (tris_len inp Hv), Hn.
  cbn. lia.
Qed.

Lemma C09_all_pf : forall (O : Ops) (D : Type) (k : kind) (f : fstate) (inp : mesh O D) fuel f' out,
  valid inp -> dense inp -> ready k f inp -> update k fuel f inp = Ok (f', out) ->
  exists mid Ls, subdivision inp out (to_split k f inp) mid Ls /\
    (forall a b, to_split k f inp a b -> ~ joined out a b) /\
    (forall a b m t L, mid a b = Some m -> In (t, L) (combine (tris inp) Ls) -> In (a, b) (tdirs t) ->
       In (a, m) (dirs L) /\ In (m, b) (dirs L)) /\
    (forall a b, ~ to_split k f inp a b -> In (a, b) (dirs (tris inp)) -> joined out a b).
Proof.
  intros O D k f inp fuel f' out Hv Hd Hr E.
  destruct (tris_dec inp) as [Hn|Hn]; [|eapply C09_no_T_junction_pf; eauto].
  destruct (face_run _ _ _ _ _ _ Hv Hd Hr E) as [mid [Ls HF]].
  pose proof (fr_sub _ _ _ _ _ _ _ HF) as Hsd. pose proof (empty_out _ _ _ _ _ Hsd Hn) as Ho.
  exists mid, Ls. split; [exact Hsd|]. split; [|split].
  - intros a b _. apply empty_joined; [apply (sd_nowire _ _ _ _ _ Hsd)|exact Ho].
  - intros a b m t L _ Hin. rewrite Hn in Hin. destruct Hin.
  - intros a b _ Hin. rewrite Hn in Hin. destruct Hin.
Qed.

Lemma C04_sqrt3_pf : forall (O : Ops) (D : Type) (f : fstate) (inp : mesh O D) fuel f' out,
  valid inp -> dense inp -> ready3 f inp -> update (CellF CSqrt3) fuel f inp = Ok (f', out) ->
  forall id u, In (id, u) (faces out) ->
  exists x y z, u = (x, y, z) /\ x <> y /\ y <> z /\ z <> x /\
    oget x (pts out) <> None /\ oget y (pts out) <> None /\ oget z (pts out) <> None /\
    nF out = Z.of_nat (length (tris out)).
Proof.
  intros O D f inp fuel f' out Hv Hd Hr E id u Hu.
  pose proof (root3_run f inp fuel f' out Hv Hd Hr E) as RR. pose proof (rr_sub _ _ _ _ _ RR) as Hs.
  assert (Hin : In u (tris out)) by (apply in_map_iff; exists (id, u); auto).
  assert (Hne : tris inp <> []).
  { intros En. apply (r3_faces _ _ _ _ Hs) in Hin. rewrite En in Hin. destruct Hin as [t [[] _]]. }
  destruct (rr_valid _ _ _ _ _ RR Hne) as [Hvo _]. destruct u as [[x y] z]. exists x, y, z.
  pose proof (v_proper _ Hvo _ Hin) as Hp. unfold proper in Hp.
  assert (Hx : forall w, In w (tverts (x, y, z)) -> oget w (pts out) <> None) by (intros w; apply (v_verts _ Hvo _ _ Hin)).
  split; [reflexivity|]. repeat split; try (apply Hx; cbn; auto; fail); try (intuition congruence; fail).
  symmetry. apply tris_len. exact Hvo.
Qed.

Lemma C47_sqrt3_pf : forall (O : Ops) (D : Type) f (inp : mesh O D) a b,
  valid inp -> dense inp -> ready3 f inp -> wire_edge inp a b ->
  exists f' out cen, completes (fun fuel => update (CellF CSqrt3) fuel f inp) (Ok (f', out)) /\
    root3_subdivision inp out (selected inp (csel f)) cen /\ ~ joined out a b.
Proof.
  intros O D f inp a b Hv Hd Hr [Hj [Hab Hba]]. destruct (completes3 f inp Hv Hd Hr) as [f' [out [E RR]]].
  exists f', out, (cenm inp f). split; [exact E|]. pose proof (rr_sub _ _ _ _ _ RR) as Hs. split; [exact Hs|].
  assert (Ha : oget a (pts inp) <> None) by (apply (v_ring_pts _ Hv b a); apply (v_ring_sym _ Hv); exact Hj).
  assert (Hb : oget b (pts inp) <> None) by (apply (v_ring_pts _ Hv a b); exact Hj).
  assert (Hno : forall x y, oget x (pts inp) <> None -> oget y (pts inp) <> None ->
            In (x, y) (dirs (tris out)) -> In (x, y) (dirs (tris inp)) \/ In (y, x) (dirs (tris inp))).
  { intros x y Hx Hy H. apply dirs_tri in H. destruct H as [w [Hw Hxy]].
    apply (r3_faces _ _ _ _ Hs) in Hw. destruct Hw as [t [Ht Hc]].
    assert (Hnew : forall u g, In u (tris inp) -> cenm inp f u = Some g -> oget g (pts inp) = None).
    { intros u g Hu Hg. apply (r3_new _ _ _ _ Hs). exists u. auto. }
    destruct Hc as [[_ ->]|[[g [p [q [Hg [Hpq [_ ->]]]]]]|[g [h [p [q [Hg [Hpq [[u [Hu [_ Hh]]] ->]]]]]]]]].
    - left. apply dirs_tri. eauto.
    - specialize (Hnew t g Ht Hg). cbn in Hxy. destruct Hxy as [H|[H|[H|[]]]]; injection H as <- <-; try congruence.
      left. apply dirs_tri. eauto.
    - pose proof (Hnew t g Ht Hg). pose proof (Hnew u h Hu Hh). cbn in Hxy.
      destruct Hxy as [Hq|[Hq|[Hq|[]]]]; injection Hq as <- <-; congruence. }
  intros Ho. apply (r3_nowire _ _ _ _ Hs) in Ho. destruct Ho as [Ho|Ho].
  - destruct (Hno a b Ha Hb Ho); auto.
  - destruct (Hno b a Hb Ha Ho); auto.
Qed.

(** An input without triangles: the output has no cell container at all. *)
Lemma C08_no_triangles_pf : forall (O : Ops) (D : Type) (k : kind) (f : fstate) (inp : mesh O D) fuel f' out,
  valid inp -> dense inp -> ready k f inp -> update k fuel f inp = Ok (f', out) ->
  tris out = [] <-> tris inp = [].
Proof.
  intros O D k f inp fuel f' out Hv Hd Hr E. split; intros H.
  - destruct (tris_dec inp) as [Hn|Hn]; [exact Hn|]. exfalso.
    destruct (C08_output_valid_pf O D k f inp fuel f' out Hv Hd Hr Hn E) as [_ [_ [H3 _]]]. contradiction.
  - destruct (face_run _ _ _ _ _ _ Hv Hd Hr E) as [mid [Ls HF]].
    eapply empty_out; [exact (fr_sub _ _ _ _ _ _ _ HF)|exact H].
Qed.

(** ** Selections with repetitions (C04) *)
Lemma valid_triangle {O : Ops} {D : Type} (out : mesh O D) : valid out ->
  forall cs id c, cells out = Some cs -> In (id, c) cs ->
  exists x y z, c = Some (Poly [x; y; z]) /\ x <> y /\ y <> z /\ z <> x /\
    oget x (pts out) <> None /\ oget y (pts out) <> None /\ oget z (pts out) <> None.
Proof.
  intros Hv cs id c Hc Hin. destruct (v_tris _ Hv) as [cs' [Hc' Ht]]. rewrite Hc in Hc'. injection Hc' as <-.
  destruct (Ht id c Hin) as [x [y [z ->]]]. exists x, y, z.
  assert (Hu : In (x, y, z) (tris out)).
  { unfold tris, faces. rewrite Hc. apply in_map_iff. exists (id, (x, y, z)). split; [reflexivity|].
    apply in_flat_map. exists (id, Some (Poly [x; y; z])). split; [exact Hin|cbn; auto]. }
  pose proof (v_proper _ Hv _ Hu) as Hp. unfold proper in Hp.
  pose proof (fun w => v_verts _ Hv (x, y, z) w Hu) as Hx.
  split; [reflexivity|]. repeat split; try (apply Hx; cbn; auto; fail); intuition congruence.
Qed.

Lemma C04_repeated_edges_pf : forall (O : Ops) (D : Type) s f (l : list (option dedge)) (inp : mesh O D) fuel f' out,
  valid inp -> dense inp -> tris inp <> [] -> l <> [] -> edges_listed inp l ->
  (s = ELoop -> no_isolated inp /\ face_edges_listed inp l) ->
  update (EdgeF s) fuel (set_edges_to_be_subdivided f l) inp = Ok (f', out) ->
  forall cs id c, cells out = Some cs -> In (id, c) cs ->
  exists x y z, c = Some (Poly [x; y; z]) /\ x <> y /\ y <> z /\ z <> x /\
    oget x (pts out) <> None /\ oget y (pts out) <> None /\ oget z (pts out) <> None.
Proof.
  intros O D s f l inp fuel f' out Hv Hd Hne Hl He Hs E.
  destruct (C40_repeated_pf O D s f l inp Hv Hd Hl He Hs) as [f1 [out1 [[n Hn] [_ [Hval _]]]]].
  assert (Hsame : Ok (f', out) = Ok (f1, out1)).
  { rewrite <- E, <- (Hn n (le_n n)). apply update_fuel; [congruence|rewrite (Hn n (le_n n)); congruence]. }
  injection Hsame as -> ->. apply valid_triangle. auto.
Qed.

Lemma C04_repeated_cells_pf : forall (O : Ops) (D : Type) f (inp : mesh O D) fuel f' out,
  valid inp -> dense inp -> existing inp (csel f) -> csel f <> [] ->
  (nV inp + Z.of_nat (length (csel f)) < 2 ^ 64)%Z -> update (CellF CSqrt3) fuel f inp = Ok (f', out) ->
  forall cs id c, cells out = Some cs -> In (id, c) cs ->
  exists x y z, c = Some (Poly [x; y; z]) /\ x <> y /\ y <> z /\ z <> x /\
    oget x (pts out) <> None /\ oget y (pts out) <> None /\ oget z (pts out) <> None.
Proof.
  intros O D f inp fuel f' out Hv Hd He Hl Hb E.
  destruct (C44_repeated_pf O D f inp Hv Hd He Hl Hb) as [f1 [out1 [[n Hn] [Hval _]]]].
  assert (Hsame : Ok (f', out) = Ok (f1, out1)).
  { rewrite <- E, <- (Hn n (le_n n)). apply update_fuel; [congruence|rewrite (Hn n (le_n n)); congruence]. }
  injection Hsame as -> ->. apply valid_triangle. exact Hval.
Qed.
