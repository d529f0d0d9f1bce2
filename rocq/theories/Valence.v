(** * Valence: number of neighbours of every point after a uniform face-split run. *)
From Coq Require Import Permutation.
From Verif Require Import Base Mesh Filters Spec SpecSub SpecGeo Lists AddFace SplitTri Split Points Valid Run Update Struct Count Face GeoProps Cond.

Lemma NoDup_map_on {A B} (f : A -> B) l : (forall x y, In x l -> In y l -> f x = f y -> x = y) -> NoDup l -> NoDup (map f l).
Proof.
  induction l as [|x l IH]; intros Hf Hn; [constructor|]. inv Hn. cbn. constructor.
  - rewrite in_map_iff. intros [y [E Hy]]. apply Hf in E; cbn; auto. subst. contradiction.
  - apply IH; [intros; apply Hf; cbn; auto|assumption].
Qed.

Section VALENCE.
Context {O : Ops} {D : Type}.
Notation mesh := (mesh O D).
Variables (inp out : mesh) (S : N -> N -> Prop) (mid : N -> N -> option N) (Ls : list (list tri)).
Hypothesis Hv : valid inp.
Hypothesis Hvo : valid out.
Hypothesis Hsd : subdivision inp out S mid Ls.
Hypothesis Hall : forall a b, In (a, b) (dirs (tris inp)) -> S a b.

Lemma mid_of a b : In (a, b) (dirs (tris inp)) -> exists m, mid a b = Some m.
Proof. intros H. apply Hall in H. apply (sd_dom _ _ _ _ _ Hsd) in H. destruct (mid a b); [eauto|congruence]. Qed.
Lemma mid_new a b m : mid a b = Some m -> oget m (pts inp) = None.
Proof. intros H. apply (sd_new _ _ _ _ _ Hsd m). eauto. Qed.
Lemma face_pts a b c : is_face inp a b c -> oget a (pts inp) <> None /\ oget b (pts inp) <> None /\ oget c (pts inp) <> None.
Proof. intros [H|[H|H]]; repeat split; apply (v_verts _ Hv _ _ H); cbn; auto. Qed.
Lemma face_ne a b c : is_face inp a b c -> a <> b /\ b <> c /\ c <> a.
Proof. intros [H|[H|H]]; apply (v_proper _ Hv) in H; destruct H as [H1 [H2 H3]]; auto. Qed.

(** The oriented edges of the output, read at the corner [a] of the face a b c. *)
Lemma out_dirs p q : In (p, q) (dirs (tris out)) <->
  exists a b c x z, is_face inp a b c /\ mid a b = Some x /\ mid c a = Some z /\ In (p, q) [(a, x); (x, z); (z, a); (z, x)].
Proof.
  rewrite (sd_tris _ _ _ _ _ Hsd). split.
  - intros H. apply dirs_tri in H. destruct H as [u [Hu Hd]]. apply in_concat in Hu. destruct Hu as [L [HL Hu]].
    pose proof (sd_refines _ _ _ _ _ Hsd) as HR.
    assert (G : exists t, In t (tris inp) /\ refines mid t L).
    { clear -HR HL. induction HR as [|t L' T Ls' H1 H2 IH]; [destruct HL|]. destruct HL as [<-|HL]; [exists t; cbn; auto|].
      destruct (IH HL) as [t' [I1 I2]]. exists t'. cbn; auto. }
    destruct G as [[[a b] c] [Ht HRf]].
    assert (F1 : is_face inp a b c) by (left; exact Ht). pose proof (is_face_rot _ _ _ _ F1) as F2. pose proof (is_face_rot _ _ _ _ F2) as F3.
    destruct (mid_of a b) as [x Hx]; [eapply is_face_dir; eauto|]. destruct (mid_of b c) as [y Hy]; [eapply is_face_dir; eauto|].
    destruct (mid_of c a) as [z Hz]; [eapply is_face_dir; eauto|].
    apply (rf_four _ _ _ HRf a b c x y z eq_refl Hx Hy Hz) in Hu. cbn in Hu.
    destruct Hu as [<-|[<-|[<-|[<-|[]]]]]; cbn in Hd; destruct Hd as [E|[E|[E|[]]]]; inv E.
    + exists p, b, c, q, z. cbn. auto 8.
    + exists a, b, c, p, q. cbn. auto 8.
    + exists q, b, c, x, p. cbn. auto 8.
    + exists q, c, a, y, p. cbn. auto 8.
    + exists p, c, a, q, x. cbn. auto 8.
    + exists b, c, a, p, q. cbn. auto 8.
    + exists q, a, b, z, p. cbn. auto 8.
    + exists p, a, b, q, y. cbn. auto 8.
    + exists c, a, b, p, q. cbn. auto 8.
    + exists b, c, a, q, p. cbn. auto 8.
    + exists c, a, b, q, p. cbn. auto 8.
    + exists a, b, c, q, p. cbn. auto 8.
  - intros [a [b [c [x [z [Hf [Hx [Hz Hd]]]]]]]]. pose proof (is_face_rot _ _ _ _ Hf) as F2. pose proof (is_face_rot _ _ _ _ F2) as F3.
    destruct (mid_of b c) as [y Hy]; [eapply is_face_dir; eauto|].
    assert (G : forall t, In t (tris inp) -> exists L, In L Ls /\ refines mid t L).
    { pose proof (sd_refines _ _ _ _ _ Hsd) as HR. clear -HR. induction HR as [|t L' T Ls' H1 H2 IH]; [intros t []|].
      intros t' [<-|Ht]; [exists L'; cbn; auto|]. destruct (IH t' Ht) as [L [I1 I2]]. exists L. cbn; auto. }
    assert (G2 : exists L, In L Ls /\ forall u, In u [(a, x, z); (x, b, y); (y, c, z); (x, y, z)] -> exists w, In w L /\ forall e, In e (tdirs u) -> In e (tdirs w)).
    { destruct Hf as [Hf|[Hf|Hf]]; destruct (G _ Hf) as [L [HL HR]]; exists L; (split; [exact HL|]); intros u Hu;
        [pose proof (rf_four _ _ _ HR a b c x y z eq_refl Hx Hy Hz) as R|pose proof (rf_four _ _ _ HR b c a y z x eq_refl Hy Hz Hx) as R
        |pose proof (rf_four _ _ _ HR c a b z x y eq_refl Hz Hx Hy) as R].
      - exists u. split; [apply R; exact Hu|auto].
      - cbn in Hu. destruct Hu as [<-|[<-|[<-|[<-|[]]]]].
        + exists (z, a, x). split; [apply R; cbn; auto|cbn; tauto].
        + exists (b, y, x). split; [apply R; cbn; auto|cbn; tauto].
        + exists (y, c, z). split; [apply R; cbn; auto|cbn; tauto].
        + exists (y, z, x). split; [apply R; cbn; auto|cbn; tauto].
      - cbn in Hu. destruct Hu as [<-|[<-|[<-|[<-|[]]]]].
        + exists (z, a, x). split; [apply R; cbn; auto|cbn; tauto].
        + exists (x, b, y). split; [apply R; cbn; auto|cbn; tauto].
        + exists (c, z, y). split; [apply R; cbn; auto|cbn; tauto].
        + exists (z, x, y). split; [apply R; cbn; auto|cbn; tauto]. }
    destruct G2 as [L [HL HG]].
    assert (G3 : exists u, In u [(a, x, z); (x, b, y); (y, c, z); (x, y, z)] /\ In (p, q) (tdirs u)).
    { cbn in Hd. destruct Hd as [E|[E|[E|[E|[]]]]]; inv E; [exists (p, q, z)|exists (a, p, q)|exists (q, x, p)|exists (q, y, p)]; cbn; auto 8. }
    destruct G3 as [u [Hu He]]. destruct (HG u Hu) as [w [Hw Hin]]. apply dirs_tri. exists w. split; [|apply Hin; exact He].
    apply in_concat. eauto.
Qed.
Lemma out_joined p q : joined out p q <-> In (p, q) (dirs (tris out)) \/ In (q, p) (dirs (tris out)).
Proof.
  split; [apply (sd_nowire _ _ _ _ _ Hsd)|]. intros [H|H]; [|apply (v_ring_sym _ Hvo)]; apply (v_face_edges _ Hvo); exact H.
Qed.

(** An original point is joined to the midpoints of its edges. *)
Lemma old_joined v y : oget v (pts inp) <> None -> joined out v y <->
  exists w, (In (v, w) (dirs (tris inp)) \/ In (w, v) (dirs (tris inp))) /\ mid v w = Some y.
Proof.
  intros Hov. rewrite out_joined. split.
  - intros H. assert (G : exists a b c x z, is_face inp a b c /\ mid a b = Some x /\ mid c a = Some z /\
                             (In (v, y) [(a, x); (x, z); (z, a); (z, x)] \/ In (y, v) [(a, x); (x, z); (z, a); (z, x)])).
    { destruct H as [H|H]; apply out_dirs in H; destruct H as [a [b [c [x [z [H1 [H2 [H3 H4]]]]]]]]; exists a, b, c, x, z; auto. }
    destruct G as [a [b [c [x [z [Hf [Hx [Hz G]]]]]]]].
    pose proof (mid_new _ _ _ Hx) as Nx. pose proof (mid_new _ _ _ Hz) as Nz. pose proof (is_face_dir _ _ _ _ Hf) as D1.
    pose proof (is_face_dir _ _ _ _ (is_face_rot _ _ _ _ (is_face_rot _ _ _ _ Hf))) as D3.
    cbn in G. destruct G as [[E|[E|[E|[E|[]]]]]|[E|[E|[E|[E|[]]]]]]; inv E; try congruence.
    all: first [exists b; solve [auto] | exists c; rewrite (sd_sym _ _ _ _ _ Hsd); solve [auto]].
  - intros [w [Hw Hm]].
    assert (G : exists a b c, is_face inp a b c /\ ((a = v /\ b = w) \/ (c = w /\ a = v))).
    { destruct Hw as [Hw|Hw]; apply dir_is_face in Hw; destruct Hw as [c Hf]; [exists v, w, c; auto|].
      exists v, c, w. split; [apply is_face_rot; exact Hf|auto]. }
    destruct G as [a [b [c [Hf Hc]]]].
    destruct (mid_of a b) as [x Hx]; [eapply is_face_dir; eauto|]. destruct (mid_of c a) as [z Hz]; [eapply is_face_dir; apply is_face_rot, is_face_rot; exact Hf|].
    destruct Hc as [[-> ->]|[-> ->]].
    + left. apply out_dirs. exists v, w, c, x, z. split; [exact Hf|]. split; [exact Hx|]. split; [exact Hz|]. left. congruence.
    + right. apply out_dirs. exists v, b, w, x, z. split; [exact Hf|]. split; [exact Hx|]. split; [exact Hz|].
      rewrite (sd_sym _ _ _ _ _ Hsd) in Hm. right. right. left. congruence.
Qed.

Lemma mid_eq a b c e m : mid a b = Some m -> mid c e = Some m -> (a = c /\ b = e) \/ (a = e /\ b = c).
Proof. intros H1 H2. pose proof (sd_inj _ _ _ _ _ Hsd _ _ _ _ _ H1 H2) as [E|E]; cbn in E; inv E; auto. Qed.

(** The midpoint of {a, b} is joined to a and b and to the midpoints of the other edges of the faces at {a, b}. *)
Lemma new_joined a b m y : mid a b = Some m -> joined out m y <->
  exists c, (is_face inp a b c \/ is_face inp b a c) /\ (y = a \/ y = b \/ mid c a = Some y \/ mid c b = Some y).
Proof.
  intros Hm. pose proof (mid_new _ _ _ Hm) as Nm. rewrite out_joined. split.
  - intros H. assert (G : exists a b c x z, is_face inp a b c /\ mid a b = Some x /\ mid c a = Some z /\
                             (In (m, y) [(a, x); (x, z); (z, a); (z, x)] \/ In (y, m) [(a, x); (x, z); (z, a); (z, x)])).
    { destruct H as [H|H]; apply out_dirs in H; destruct H as [a' [b' [c [x [z [H1 [H2 [H3 H4]]]]]]]]; exists a', b', c, x, z; auto. }
    destruct G as [a' [b' [c' [x [z [Hf [Hx [Hz G]]]]]]]].
    pose proof (face_pts _ _ _ Hf) as [P1 [P2 P3]]. pose proof (is_face_rot _ _ _ _ Hf) as F2. pose proof (is_face_rot _ _ _ _ F2) as F3.
    assert (K : (m = x /\ (y = a' \/ y = z)) \/ (m = z /\ (y = a' \/ y = x))).
    { cbn in G. destruct G as [[E|[E|[E|[E|[]]]]]|[E|[E|[E|[E|[]]]]]]; inv E; try congruence; auto. }
    destruct K as [[-> K]|[-> K]].
    + destruct (mid_eq _ _ _ _ _ Hm Hx) as [[-> ->]|[-> ->]].
      * exists c'. split; [auto|]. destruct K as [-> | ->]; auto.
      * exists c'. split; [auto|]. destruct K as [-> | ->]; auto.
    + destruct (mid_eq _ _ _ _ _ Hm Hz) as [[-> ->]|[-> ->]].
      * exists b'. split; [auto|]. rewrite (sd_sym _ _ _ _ _ Hsd) in Hx. destruct K as [-> | ->]; auto.
      * exists b'. split; [auto|]. rewrite (sd_sym _ _ _ _ _ Hsd) in Hx. destruct K as [-> | ->]; auto.
  - intros [c [Hf Hy]].
    assert (G : forall a b, is_face inp a b c -> mid a b = Some m -> (y = a \/ y = b \/ mid c a = Some y \/ mid c b = Some y) ->
              In (m, y) (dirs (tris out)) \/ In (y, m) (dirs (tris out))).
    { clear a b Hm Hf Hy. intros a b Hf Hm Hy. pose proof (is_face_rot _ _ _ _ Hf) as F2. pose proof (is_face_rot _ _ _ _ F2) as F3.
      destruct (mid_of b c) as [e Hbc]; [eapply is_face_dir; eauto|]. destruct (mid_of c a) as [z Hca]; [eapply is_face_dir; eauto|].
      destruct Hy as [->|[->|[Hy|Hy]]].
      - right. apply out_dirs. exists a, b, c, m, z. cbn. auto 8.
      - left. apply out_dirs. exists b, c, a, e, m. cbn. auto 8.
      - left. apply out_dirs. exists a, b, c, m, z. assert (y = z) as -> by congruence. cbn. auto 8.
      - left. apply out_dirs. exists b, c, a, e, m. rewrite (sd_sym _ _ _ _ _ Hsd) in Hy. assert (y = e) as -> by congruence. cbn. auto 8. }
    destruct Hf as [Hf|Hf]; [exact (G a b Hf Hm Hy)|]. apply (G b a Hf); [rewrite (sd_sym _ _ _ _ _ Hsd); exact Hm|tauto].
Qed.

Definition mdef (a b : N) : N := match mid a b with Some m => m | None => 0 end.

Lemma valence_old v : oget v (pts inp) <> None ->
  (forall w, joined inp v w -> In (v, w) (dirs (tris inp)) \/ In (w, v) (dirs (tris inp))) ->
  length (ring out v) = length (ring inp v).
Proof.
  intros Hov Hw. rewrite <- (map_length (mdef v) (ring inp v)). apply Permutation_length. apply NoDup_Permutation.
  - apply (v_ring_nodup _ Hvo).
  - apply NoDup_map_on; [|apply (v_ring_nodup _ Hv)]. intros x y Hx Hy E.
    assert (G : forall w, joined inp v w -> mid v w = Some (mdef v w)).
    { intros w Hj. unfold mdef. destruct (Hw w Hj) as [H|H]; apply mid_of in H; destruct H as [q H]; [|rewrite (sd_sym _ _ _ _ _ Hsd) in H]; rewrite H; reflexivity. }
    pose proof (G x Hx) as Gx. pose proof (G y Hy) as Gy. rewrite <- E in Gy. destruct (mid_eq _ _ _ _ _ Gx Gy) as [[_ ->]|[-> ->]]; reflexivity.
  - intros y. change (In y (ring out v)) with (joined out v y). rewrite (old_joined v y Hov), in_map_iff. split.
    + intros [w [H Hm]]. exists w. unfold mdef. rewrite Hm. split; [reflexivity|].
      destruct H as [H|H]; [|apply (v_ring_sym _ Hv)]; apply (v_face_edges _ Hv); exact H.
    + intros [w [<- Hj]]. exists w. pose proof (Hw w Hj) as H. split; [exact H|]. unfold mdef.
      destruct H as [H|H]; apply mid_of in H; destruct H as [q H]; [|rewrite (sd_sym _ _ _ _ _ Hsd) in H]; rewrite H; reflexivity.
Qed.

Lemma same_third a b c c' : is_face inp a b c -> is_face inp a b c' -> c = c'.
Proof.
  intros H1 H2. pose proof (face_lnext _ _ _ _ Hv H1) as E1. pose proof (face_lnext _ _ _ _ Hv H2) as E2. congruence.
Qed.
Lemma no_mirror a b c : is_face inp a b c -> is_face inp b a c -> False.
Proof.
  intros H1 H2.
  assert (G1 : exists t, In t (tris inp) /\ In (a, b) (tdirs t) /\ forall x, In x (tverts t) <-> x = a \/ x = b \/ x = c).
  { destruct H1 as [H|[H|H]]; (eexists; split; [exact H|]; split; [cbn; auto|]; intros x; cbn; intuition congruence). }
  assert (G2 : exists t, In t (tris inp) /\ In (b, a) (tdirs t) /\ forall x, In x (tverts t) <-> x = a \/ x = b \/ x = c).
  { destruct H2 as [H|[H|H]]; (eexists; split; [exact H|]; split; [cbn; auto|]; intros x; cbn; intuition congruence). }
  destruct G1 as [t [T1 [T2 T3]]]. destruct G2 as [u [U1 [U2 U3]]].
  assert (t = u) by (apply (v_notwin _ Hv); auto; intros x; rewrite T3, U3; tauto). subst u.
  pose proof (v_proper _ Hv t T1) as Hp. destruct t as [[x y] z]. cbn in T2, U2, Hp.
  destruct T2 as [E|[E|[E|[]]]]; inv E; destruct U2 as [E|[E|[E|[]]]]; inv E; destruct Hp as [? [? ?]]; congruence.
Qed.

(** The list of neighbours of the midpoint of {a, b}. *)
Lemma valence_list a b m l : mid a b = Some m -> NoDup l -> (forall y, In y l <->
  exists c, (is_face inp a b c \/ is_face inp b a c) /\ (y = a \/ y = b \/ mid c a = Some y \/ mid c b = Some y)) -> length (ring out m) = length l.
Proof.
  intros Hm Hn Hl. apply Permutation_length. apply NoDup_Permutation; [apply (v_ring_nodup _ Hvo)|exact Hn|].
  intros y. change (In y (ring out m)) with (joined out m y). rewrite (new_joined a b m y Hm), Hl. reflexivity.
Qed.
Lemma two_mids a b c : is_face inp a b c -> exists x y, mid c a = Some x /\ mid c b = Some y /\ NoDup [a; b; x; y].
Proof.
  intros Hf. pose proof (face_pts _ _ _ Hf) as [P1 [P2 P3]]. pose proof (face_ne _ _ _ Hf) as [N1 [N2 N3]].
  pose proof (is_face_rot _ _ _ _ Hf) as F2. pose proof (is_face_rot _ _ _ _ F2) as F3.
  destruct (mid_of b c) as [y Hy]; [eapply is_face_dir; eauto|]. destruct (mid_of c a) as [x Hx]; [eapply is_face_dir; eauto|].
  rewrite (sd_sym _ _ _ _ _ Hsd) in Hy. exists x, y. split; [exact Hx|]. split; [exact Hy|].
  pose proof (mid_new _ _ _ Hx) as Nx. pose proof (mid_new _ _ _ Hy) as Ny.
  assert (x <> y) by (intros ->; destruct (mid_eq _ _ _ _ _ Hx Hy) as [[_ E]|[E _]]; congruence).
  repeat constructor; cbn; intuition congruence.
Qed.
Lemma valence_border a b m : mid a b = Some m -> border_dir inp a b -> length (ring out m) = 4%nat.
Proof.
  intros Hm [Hd Hnd]. apply dir_is_face in Hd. destruct Hd as [c Hf]. destruct (two_mids a b c Hf) as [x [y [Hx [Hy Hn]]]].
  rewrite (valence_list a b m [a; b; x; y] Hm Hn); [reflexivity|]. intros z. split.
  - intros Hz. exists c. split; [auto|]. cbn in Hz. destruct Hz as [->|[->|[->|[->|[]]]]]; auto.
  - intros [c' [[Hf'|Hf'] Hz]]; [|exfalso; apply Hnd; eapply is_face_dir; exact Hf'].
    assert (c' = c) as -> by (eapply same_third; eauto). cbn. destruct Hz as [->|[->|[Hz|Hz]]]; auto; [assert (x = z) by congruence|assert (y = z) by congruence]; auto.
Qed.
Lemma valence_interior a b m : mid a b = Some m -> In (a, b) (dirs (tris inp)) -> In (b, a) (dirs (tris inp)) -> length (ring out m) = 6%nat.
Proof.
  intros Hm H1 H2. apply dir_is_face in H1. destruct H1 as [c Hc]. apply dir_is_face in H2. destruct H2 as [e He].
  destruct (two_mids a b c Hc) as [x [y [Hx [Hy Hn]]]]. destruct (two_mids b a e He) as [w [z [Hw [Hz Hn']]]].
  assert (Hce : c <> e) by (intros ->; eapply no_mirror; eauto).
  pose proof (face_ne _ _ _ Hc) as [N1 [N2 N3]]. pose proof (face_ne _ _ _ He) as [_ [N4 N5]].
  assert (D1 : x <> z) by (intros ->; destruct (mid_eq _ _ _ _ _ Hx Hz) as [[E _]|[E E']]; congruence).
  assert (D2 : x <> w) by (intros ->; destruct (mid_eq _ _ _ _ _ Hx Hw) as [[E _]|[E E']]; congruence).
  assert (D3 : y <> z) by (intros ->; destruct (mid_eq _ _ _ _ _ Hy Hz) as [[E _]|[E E']]; congruence).
  assert (D4 : y <> w) by (intros ->; destruct (mid_eq _ _ _ _ _ Hy Hw) as [[E _]|[E E']]; congruence).
  rewrite (valence_list a b m [a; b; x; y; z; w] Hm); [reflexivity| |].
  - inv Hn. inv H2. inv H4. inv Hn'. inv H6. inv H8. cbn in *. repeat constructor; cbn; intuition congruence.
  - intros q. split.
    + cbn. intros [<-|[<-|[<-|[<-|[<-|[<-|[]]]]]]]; [exists c|exists c|exists c|exists c|exists e|exists e]; auto.
    + cbn. intros [c' [[Hf'|Hf'] Hq]]; [assert (c' = c) as -> by (eapply same_third; eauto)|assert (c' = e) as -> by (eapply same_third; eauto)];
        destruct Hq as [->|[->|[Hq|Hq]]]; auto; rewrite Hq in *; repeat match goal with H : Some _ = Some _ |- _ => inv H end; auto 8.
Qed.
Lemma valence_wire a b m : mid a b = Some m -> ~ In (a, b) (dirs (tris inp)) -> ~ In (b, a) (dirs (tris inp)) -> ring out m = [].
Proof.
  intros Hm H1 H2. destruct (ring out m) as [|y r] eqn:E; [reflexivity|]. exfalso.
  assert (Hj : joined out m y) by (unfold joined; rewrite E; cbn; auto). apply (new_joined a b m y Hm) in Hj.
  destruct Hj as [c [[Hf|Hf] _]]; apply is_face_dir in Hf; contradiction.
Qed.
End VALENCE.

Lemma C97_pf : forall (O : Ops) (D : Type) k f (inp : mesh O D) fuel f' out,
  valid inp -> dense inp -> tris inp <> [] -> ready k f inp -> match k with CellF _ => csel f = [] | EdgeF _ => esel f = [] end ->
  update k fuel f inp = Ok (f', out) ->
  (forall v, oget v (pts inp) <> None -> (forall w, joined inp v w -> In (v, w) (dirs (tris inp)) \/ In (w, v) (dirs (tris inp))) ->
     length (ring out v) = length (ring inp v)) /\
  exists mid Ls, subdivision inp out (to_split k f inp) mid Ls /\
    forall a b m, mid a b = Some m ->
      (In (a, b) (dirs (tris inp)) /\ In (b, a) (dirs (tris inp)) -> length (ring out m) = 6%nat) /\
      (border_dir inp a b -> length (ring out m) = 4%nat) /\
      (~ In (a, b) (dirs (tris inp)) -> ~ In (b, a) (dirs (tris inp)) -> ring out m = []).
Proof.
  intros O D k f inp fuel f' out Hv Hd Hne Hr Hw E. destruct (face_run k f inp fuel f' out Hv Hd Hr E) as [mid [Ls FR]].
  pose proof (fr_sub _ _ _ _ _ _ _ FR) as Hsd. destruct (fr_valid _ _ _ _ _ _ _ FR Hne) as [Hvo _].
  assert (Hall : forall a b, In (a, b) (dirs (tris inp)) -> to_split k f inp a b).
  { intros a b Hab. apply dirs_tri in Hab. destruct Hab as [t [Ht Hab]]. apply (uniform_split_all k f inp t a b Hv); auto.
    destruct k; cbn [whole]; rewrite Hw; reflexivity. }
  split.
  - intros v Hov Hf. eapply valence_old; eauto.
  - exists mid, Ls. split; [exact Hsd|]. intros a b m Hm. split; [|split].
    + intros [H1 H2]. eapply valence_interior; [exact Hv|exact Hvo|exact Hsd|exact Hall|exact Hm|exact H1|exact H2].
    + intros H. eapply valence_border; [exact Hv|exact Hvo|exact Hsd|exact Hall|exact Hm|exact H].
    + intros H1 H2. eapply valence_wire; [exact Hv|exact Hvo|exact Hsd|exact Hall|exact Hm|exact H1|exact H2].
Qed.
