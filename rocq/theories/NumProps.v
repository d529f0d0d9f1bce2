(** * NumProps: numbering of new points and new cells (C114). *)
From Coq Require Import Sorted.
From Verif Require Import Base Mesh Filters Drivers Spec SpecSub SpecRoot3 SpecNum Lists AddFace SplitTri Split Points Update Struct Face FaceProps Root3Run Root3Main Renum.

(** ** First occurrences *)
Lemma first_nth W n a b : first_at W n a b -> (n < length W)%nat.
Proof. intros [[e [H _]] _]. apply nth_error_Some. congruence. Qed.
Lemma first_uniq W n n' a b : first_at W n a b -> first_at W n' a b -> n = n'.
Proof.
  intros [[e [H1 H2]] H3] [[e' [H1' H2']] H3']. destruct (Nat.lt_trichotomy n n') as [L|[E|L]]; [exfalso|exact E|exfalso].
  - exact (H3' _ _ L H1 H2).
  - exact (H3 _ _ L H1' H2').
Qed.
Lemma first_app_l W x n a b : first_at (W ++ [x]) n a b -> (n < length W)%nat -> first_at W n a b.
Proof.
  intros [[e [H1 H2]] H3] L. split.
  - exists e. split; [|exact H2]. rewrite nth_error_app1 in H1 by exact L. exact H1.
  - intros j g Hj Hg. apply (H3 j g Hj). rewrite nth_error_app1; [exact Hg|]. lia.
Qed.

Lemma uteq e f a b : undirected_eq e (a, b) -> undirected_eq f (a, b) -> undirected_eq e f.
Proof. destruct e, f. unfold undirected_eq. cbn. intuition congruence. Qed.
Lemma utsym e f : undirected_eq e f -> undirected_eq f e.
Proof. destruct e, f. unfold undirected_eq. cbn. intuition congruence. Qed.
Lemma uttrans e f g : undirected_eq e f -> undirected_eq f g -> undirected_eq e g.
Proof. destruct e, f, g. unfold undirected_eq. cbn. intuition congruence. Qed.

(** An edge that occurs occurs first before any occurrence. *)
Lemma first_le W n a b i e : first_at W n a b -> nth_error W i = Some e -> undirected_eq e (a, b) -> (n <= i)%nat.
Proof. intros [_ H] Hi He. destruct (Nat.le_gt_cases n i) as [L|L]; [exact L|]. exfalso. exact (H _ _ L Hi He). Qed.

Lemma first_exists W : forall a b e, In e W -> undirected_eq (a, b) e -> exists n, first_at W n a b.
Proof.
  induction W as [|y W IH]; intros a b h Hh Hhu; [destruct Hh|].
  destruct (seen [y] (a, b)) eqn:S.
  - exists 0%nat. apply seen_spec in S. destruct S as [q [[<-|[]] Hq]]. split; [exists y; split; [reflexivity|apply utsym; exact Hq]|]. intros j e Hj. lia.
  - assert (Ny : ~ undirected_eq y (a, b)).
    { intros H. assert (seen [y] (a, b) = true); [|congruence]. apply seen_spec. exists y. split; [left; reflexivity|apply utsym; exact H]. }
    destruct Hh as [->|Hh]; [exfalso; apply Ny; apply utsym; exact Hhu|].
    destruct (IH a b h Hh Hhu) as [n [[e [H1 H2]] H3]]. exists (Datatypes.S n). split; [exists e; split; assumption|].
    intros [|j] e' Hj He'; [cbn in He'; injection He' as <-; exact Ny|]. cbn in He'. apply (H3 j); [lia|exact He'].
Qed.

(** The inserted edges come in the order of their first occurrence. *)
Lemma ins_list_order W : forall i j e g n n', nth_error (ins_list W) i = Some e -> nth_error (ins_list W) j = Some g ->
  first_at W n (fst e) (snd e) -> first_at W n' (fst g) (snd g) -> (i < j)%nat -> (n < n')%nat.
Proof.
  induction W as [|x W IH] using rev_ind; intros i j e g n n' Hi Hj Hn Hn' Hij; [destruct i; discriminate|].
  assert (Es : ins_list (W ++ [x]) = ins_step (ins_list W) x) by (unfold ins_list; rewrite fold_left_app; reflexivity).
  rewrite Es in Hi, Hj. unfold ins_step in Hi, Hj.
  assert (Old : forall i e n, nth_error (ins_list W) i = Some e -> first_at (W ++ [x]) n (fst e) (snd e) -> first_at W n (fst e) (snd e)).
  { intros i0 e0 n0 H0 H1. apply first_app_l with x; [exact H1|]. apply nth_error_In in H0. apply ins_list_In in H0.
    apply In_nth_error in H0. destruct H0 as [q Hq]. assert (Lq : (q < length W)%nat) by (apply nth_error_Some; congruence).
    assert (n0 <= q)%nat; [|lia]. eapply first_le; [exact H1| |left; destruct e0; reflexivity]. rewrite nth_error_app1 by exact Lq. exact Hq. }
  destruct (seen (ins_list W) x) eqn:Sx.
  - exact (IH i j e g n n' Hi Hj (Old _ _ _ Hi Hn) (Old _ _ _ Hj Hn') Hij).
  - assert (Li : (i < length (ins_list W))%nat).
    { assert (j < length (ins_list W ++ [x]))%nat by (apply nth_error_Some; congruence). rewrite app_length in H. cbn in H. lia. }
    rewrite nth_error_app1 in Hi by exact Li. pose proof (Old _ _ _ Hi Hn) as Fn.
    destruct (Nat.lt_ge_cases j (length (ins_list W))) as [Lj|Lj].
    + rewrite nth_error_app1 in Hj by exact Lj. exact (IH i j e g n n' Hi Hj Fn (Old _ _ _ Hj Hn') Hij).
    + assert (g = x).
      { rewrite nth_error_app2 in Hj by exact Lj. destruct (j - length (ins_list W))%nat as [|q]; cbn in Hj; [congruence|destruct q; discriminate]. }
      subst g. pose proof (first_nth _ _ _ _ Fn) as Ln.
      destruct (Nat.lt_ge_cases n' (length W)) as [L'|L']; [exfalso|lia].
      apply (first_app_l _ _ _ _ _ Hn') in L'. destruct L' as [[h [Hh1 Hh2]] _].
      assert (seen (ins_list W) x = true); [|congruence]. apply ins_list_seen. exists h.
      split; [eapply nth_error_In; exact Hh1|]. apply utsym. destruct x. exact Hh2.
Qed.

Lemma first_swap W n e a b : undirected_eq e (a, b) -> first_at W n a b -> first_at W n (fst e) (snd e).
Proof.
  intros Hu [[g [H1 H2]] H3]. split.
  - exists g. split; [exact H1|]. destruct e. eapply uttrans; [exact H2|]. apply utsym. exact Hu.
  - intros j h Hj Hh Hx. apply (H3 j h Hj Hh). eapply uttrans; [|exact Hu]. destruct e. exact Hx.
Qed.

Lemma sp_order V W a b c d x y n n' : sp V (ins_list W) a b = Some x -> sp V (ins_list W) c d = Some y ->
  first_at W n a b -> first_at W n' c d -> (x < y <-> (n < n')%nat).
Proof.
  intros Hx Hy Hn Hn'. pose proof (ins_list_udistinct W) as U.
  apply (sp_Some _ _ _ _ _ U) in Hx. apply (sp_Some _ _ _ _ _ U) in Hy.
  destruct Hx as [Vx [e [He Ue]]], Hy as [Vy [g [Hg Ug]]]. apply utsym in Ue, Ug.
  assert (Fe := first_swap _ _ _ _ _ Ue Hn). assert (Fg := first_swap _ _ _ _ _ Ug Hn').
  destruct (Nat.lt_trichotomy (N.to_nat (x - V)) (N.to_nat (y - V))) as [L|[E|L]].
  - assert (n < n')%nat by (eapply ins_list_order; [exact He|exact Hg|exact Fe|exact Fg|exact L]). split; [auto|intros; lia].
  - assert (e = g) by congruence. subst g. assert (n = n') by (eapply first_uniq; eauto). split; intros; lia.
  - assert (n' < n)%nat by (eapply ins_list_order; [exact Hg|exact He|exact Fg|exact Fe|exact L]). split; intros; lia.
Qed.

Section NUM.
Context {O : Ops} {D : Type}.
Implicit Types inp out : mesh O D.

Lemma filter_key {A} (l : list (N * A)) i : sorted_keys l ->
  map snd (filter (fun it => N.eqb (fst it) i) l) = match oget i l with Some t => [t] | None => [] end.
Proof.
  unfold sorted_keys, okeys. induction l as [|[j t] l IH]; intros Hs; [reflexivity|]. cbn [map fst] in Hs.
  apply StronglySorted_inv in Hs. destruct Hs as [Hs Hf]. cbn [filter fst oget]. destruct (N.eqb_spec j i) as [->|N].
  - cbn [map snd]. f_equal. rewrite IH by exact Hs.
    assert (oget i l = None) as ->; [|reflexivity].
    clear - Hf. induction l as [|[k u] l IH]; [reflexivity|]. cbn [map fst] in Hf. apply Forall_cons_iff in Hf. destruct Hf as [H1 H2].
    cbn [oget]. destruct (N.eqb_spec k i); [lia|auto].
  - apply IH. exact Hs.
Qed.

Lemma walk_cells inp sel : sound inp -> dirs (visited inp sel) = cell_walk inp sel.
Proof.
  intros Hv. unfold visited, cell_walk. destruct sel as [|i sel]; [reflexivity|]. cbn [is_nil]. unfold sel_tris.
  generalize (i :: sel) as l. induction l as [|j l IH]; [reflexivity|]. cbn [flat_map]. unfold dirs in *.
  rewrite flat_map_app, IH. f_equal. rewrite filter_key by (apply faces_keys_sorted; exact Hv).
  destruct (oget j (faces inp)); [cbn; apply app_nil_r|reflexivity].
Qed.

Lemma walk_inserted k f inp : valid inp -> ready k f inp -> inserted k f inp = ins_list (walk k f inp).
Proof.
  intros Hv Hr. destruct k as [s|s]; cbn [inserted walk].
  - unfold cells_inserted. rewrite walk_cells by apply Hv. reflexivity.
  - assert (E : somes (edge_list inp (esel f)) = edge_walk inp (esel f)).
    { unfold somes, edge_list, edge_walk. destruct (esel f); reflexivity. }
    rewrite <- E. symmetry. apply ins_list_id. exact (inserted_udistinct (EdgeF s) f inp Hv Hr).
Qed.

Lemma children_split mid t : split_tri mid t = let '(a, b, c) := t in children t (mid a b) (mid b c) (mid c a).
Proof. destruct t as [[a b] c]. unfold split_tri, split_triangle, children. destruct (mid a b), (mid b c), (mid c a); reflexivity. Qed.

End NUM.

Lemma C114_pf : forall (O : Ops) (D : Type) (k : kind) (f : fstate) (inp : mesh O D) fuel f' out,
  valid inp -> dense inp -> ready k f inp -> update k fuel f inp = Ok (f', out) ->
  exists mid Ls, subdivision inp out (to_split k f inp) mid Ls /\
    (forall a b, mid a b <> None <-> exists n, first_at (walk k f inp) n a b) /\
    (forall a b c d x y n n', mid a b = Some x -> mid c d = Some y ->
       first_at (walk k f inp) n a b -> first_at (walk k f inp) n' c d -> (x < y <-> (n < n')%nat)) /\
    (forall x, (exists a b, mid a b = Some x) <-> osize (pts inp) <= x < osize (pts out)) /\
    tris out = concat Ls /\
    Forall2 (fun t L => let '(a, b, c) := t in L = children t (mid a b) (mid b c) (mid c a)) (tris inp) Ls /\
    (forall id u, In (id, u) (faces out) <-> nth_error (tris out) (N.to_nat id) = Some u).
Proof.
  intros O D k f inp fuel f' out Hv Hd Hr E. destruct (face_run _ _ _ _ _ _ Hv Hd Hr E) as [mid [Ls HF]].
  pose proof (fr_sub _ _ _ _ _ _ _ HF) as Hsd. exists mid, Ls. split; [exact Hsd|].
  assert (Em : mid = sp (osize (pts inp)) (ins_list (walk k f inp))) by (rewrite (fr_mid _ _ _ _ _ _ _ HF), walk_inserted by assumption; reflexivity).
  split.
  { intros a b. rewrite Em, sp_not_None, ins_list_seen. split.
    - intros [e [He Hu]]. exact (first_exists _ _ _ _ He Hu).
    - intros [n [[e [H1 H2]] _]]. exists e. split; [eapply nth_error_In; exact H1|apply utsym; exact H2]. }
  split; [intros a b c d x y n n'; rewrite Em; apply sp_order|].
  split.
  { intros x. rewrite (sd_new _ _ _ _ _ Hsd). assert (Ho := fr_dense _ _ _ _ _ _ _ HF). rewrite (Ho x). specialize (Hd x). destruct (oget x (pts inp)) as [p|] eqn:Ex.
    - assert (x < osize (pts inp)) by (apply Hd; congruence). split; [intros [H1 _]; congruence|intros; lia].
    - assert (~ x < osize (pts inp)) by (intros H; apply Hd in H; congruence). split; [intros; lia|intros [_ H2]; split; [reflexivity|exact H2]]. }
  split; [apply (sd_tris _ _ _ _ _ Hsd)|].
  split; [|apply (fr_ids _ _ _ _ _ _ _ HF)].
  rewrite (fr_Ls _ _ _ _ _ _ _ HF). generalize (tris inp) as T. induction T as [|[[a b] c] T IH]; [constructor|]. cbn [map]. constructor; [apply children_split|exact IH].
Qed.

Lemma uniform_ids {A} (Ls : list (list A)) : forall i L j x, Forall (fun L => length L = 4%nat) Ls ->
  nth_error Ls i = Some L -> nth_error L j = Some x -> nth_error (concat Ls) (4 * i + j) = Some x.
Proof.
  induction Ls as [|L0 Ls IH]; intros i L j x Hf Hi Hj; [destruct i; discriminate|].
  apply Forall_cons_iff in Hf. destruct Hf as [H0 Hf]. cbn [concat]. destruct i as [|i].
  - cbn in Hi. injection Hi as ->. cbn [Nat.mul Nat.add]. rewrite nth_error_app1; [exact Hj|]. apply nth_error_Some. congruence.
  - rewrite nth_error_app2 by lia. replace (4 * S i + j - length L0)%nat with (4 * i + j)%nat by lia. eapply IH; eauto.
Qed.

Lemma C114_uniform_pf : forall (O : Ops) (D : Type) (s : cscheme) (f : fstate) (inp : mesh O D) fuel f' out,
  valid inp -> dense inp -> ready (CellF s) f inp -> csel f = [] -> update (CellF s) fuel f inp = Ok (f', out) ->
  exists mid Ls, subdivision inp out (to_split (CellF s) f inp) mid Ls /\
    forall i a b c, nth_error (tris inp) i = Some (a, b, c) -> exists x y z,
      mid a b = Some x /\ mid b c = Some y /\ mid c a = Some z /\
      let n := 4 * N.of_nat i in
      In (n, (a, x, z)) (faces out) /\ In (n + 1, (x, b, y)) (faces out) /\ In (n + 2, (y, c, z)) (faces out) /\ In (n + 3, (x, y, z)) (faces out).
Proof.
  intros O D s f inp fuel f' out Hv Hd Hr Hc E.
  destruct (C114_pf O D _ f inp fuel f' out Hv Hd Hr E) as [mid [Ls [Hsd [Hf [_ [_ [Ht [H2 Hid]]]]]]]].
  exists mid, Ls. split; [exact Hsd|].
  assert (Hall : forall a b c, In (a, b, c) (tris inp) -> exists x y z, mid a b = Some x /\ mid b c = Some y /\ mid c a = Some z).
  { intros a b c Hin. assert (Hm : forall e, In e (tdirs (a, b, c)) -> mid (fst e) (snd e) <> None).
    { intros e He. apply Hf. cbn [walk]. unfold cell_walk. rewrite Hc. apply first_exists with e; [|left; destruct e; reflexivity].
      unfold dirs. apply in_flat_map. exists (a, b, c). split; assumption. }
    assert (M1 := Hm (a, b) ltac:(cbn; auto)). assert (M2 := Hm (b, c) ltac:(cbn; auto)). assert (M3 := Hm (c, a) ltac:(cbn; auto)). cbn [fst snd] in *.
    destruct (mid a b), (mid b c), (mid c a); try congruence. eauto 6. }
  assert (F4 : Forall (fun L => length L = 4%nat) Ls).
  { revert H2 Hall. clear. generalize (tris inp) as T. intros T H2. induction H2 as [|[[a b] c] L T Ls HL H IH]; intros Hall; [constructor|]. constructor.
    - destruct (Hall a b c) as [x [y [z [E1 [E2 E3]]]]]; [left; reflexivity|]. rewrite HL, E1, E2, E3. reflexivity.
    - apply IH. intros a' b' c' Hin. apply Hall. right. exact Hin. }
  intros i a b c Hi. destruct (Hall a b c (nth_error_In _ _ Hi)) as [x [y [z [E1 [E2 E3]]]]]. exists x, y, z.
  split; [exact E1|]. split; [exact E2|]. split; [exact E3|].
  assert (HL : nth_error Ls i = Some [(a, x, z); (x, b, y); (y, c, z); (x, y, z)]).
  { revert i Hi. induction H2 as [|t L T Ls' HL H IH]; intros i Hi; [destruct i; discriminate|]. destruct i as [|i].
    - cbn in Hi |- *. injection Hi as ->. rewrite E1, E2, E3 in HL. rewrite HL. reflexivity.
    - cbn in Hi |- *. apply Forall_cons_iff in F4. destruct F4 as [_ F4]. revert i Hi. clear - E1 E2 E3 H. induction H as [|t L T Ls' HL H IH]; intros i Hi; [destruct i; discriminate|]. destruct i as [|i].
      + cbn in Hi |- *. injection Hi as ->. rewrite E1, E2, E3 in HL. rewrite HL. reflexivity.
      + cbn in Hi |- *. apply IH. exact Hi. }
  assert (K : forall j u, nth_error [(a, x, z); (x, b, y); (y, c, z); (x, y, z)] j = Some u -> In (4 * N.of_nat i + N.of_nat j, u) (faces out)).
  { intros j u Hu. apply Hid. rewrite Ht. replace (N.to_nat (4 * N.of_nat i + N.of_nat j)) with (4 * i + j)%nat by lia. eapply uniform_ids; eauto. }
  cbn zeta. split; [replace (4 * N.of_nat i) with (4 * N.of_nat i + N.of_nat 0) by lia; apply K; reflexivity|].
  split; [apply (K 1%nat); reflexivity|]. split; [apply (K 2%nat); reflexivity|apply (K 3%nat); reflexivity].
Qed.

Lemma sel_tris_nth {O D} (inp : mesh O D) : valid inp -> forall sel n i t, existing inp sel -> nth_error sel n = Some i -> In (i, t) (faces inp) ->
  nth_error (sel_tris inp sel) n = Some t.
Proof.
  intros Hv sel. assert (Hs : sorted_keys (faces inp)) by (apply faces_keys_sorted; apply Hv).
  induction sel as [|j sel IH]; intros n i t Hex Hn Ht; [destruct n; discriminate|]. unfold sel_tris. cbn [flat_map].
  rewrite filter_key by exact Hs.
  assert (Hj : exists u, oget j (faces inp) = Some u).
  { assert (Hx : In j (j :: sel)) by (left; reflexivity). apply Hex in Hx.
    destruct (oget j (faces inp)) eqn:Ej; [eauto|exfalso]. destruct Hx as [u Hx]. apply (sorted_oget _ _ _ Hs) in Hx. congruence. }
  destruct Hj as [u Ej]. rewrite Ej. cbn [app]. destruct n as [|n].
  - cbn in Hn |- *. injection Hn as ->. apply (sorted_oget _ _ _ Hs) in Ht. congruence.
  - cbn in Hn |- *. apply (IH n i t); [intros k Hk; apply Hex; right; exact Hk|exact Hn|exact Ht].
Qed.

Lemma C114_sqrt3_pf : forall (O : Ops) (D : Type) (f : fstate) (inp : mesh O D) fuel f' out,
  valid inp -> dense inp -> ready3 f inp -> update (CellF CSqrt3) fuel f inp = Ok (f', out) ->
  exists cen, root3_subdivision inp out (selected inp (csel f)) cen /\
    (csel f = [] -> forall n t, nth_error (tris inp) n = Some t -> cen t = Some (osize (pts inp) + N.of_nat n)) /\
    (forall n i t, nth_error (csel f) n = Some i -> In (i, t) (faces inp) -> cen t = Some (osize (pts inp) + N.of_nat n)).
Proof.
  intros O D f inp fuel f' out Hv Hd Hr E. pose proof (root3_run f inp fuel f' out Hv Hd Hr E) as RR.
  destruct Hr as [Hex [Hnd Hlt]]. exists (cenm inp f). split; [apply (rr_sub _ _ _ _ _ RR)|]. split.
  - intros Hc n t Hn. apply cenm_Some; [exact Hv|exact Hnd|eapply nth_error_In; eauto|]. exists n. split; [|reflexivity].
    unfold visited. rewrite Hc. exact Hn.
  - intros n i t Hn Ht. apply cenm_Some; [exact Hv|exact Hnd|apply (in_map snd) in Ht; exact Ht|]. exists n. split; [|reflexivity].
    unfold visited. destruct (csel f) as [|j l] eqn:Ec; [destruct n; discriminate|]. cbn [is_nil]. eapply sel_tris_nth; eauto.
Qed.
