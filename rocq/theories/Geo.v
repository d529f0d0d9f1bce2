(** * Geo: the points of the output as weighted sums of the points of the input. *)
From Coq Require Import Reals Lra.
From Verif Require Import Base Mesh Filters Spec SpecSub SpecGeo Lists AddFace SplitTri Split Points Valid Run Update Struct Count Face Conn.

Open Scope N_scope.

(** ** Linear functionals on points *)
Fixpoint lin (c : nat -> R) (p : list R) : R :=
  match p with [] => 0%R | x :: t => (c 0%nat * x + lin (fun i => c (S i)) t)%R end.

Lemma lin_map2 (a b : R) : forall c p q, length p = length q ->
  lin c (map2 (fun x y => (a * x + b * y)%R) p q) = (a * lin c p + b * lin c q)%R.
Proof.
  intros c p. revert c. induction p as [|x p IH]; intros c [|y q] H; cbn in *; try discriminate; [lra|].
  rewrite IH by lia. lra.
Qed.
Lemma map2_ext {A B C} (f g : A -> B -> C) l l' : (forall x y, f x y = g x y) -> map2 f l l' = map2 g l l'.
Proof. intros H. revert l'. induction l as [|x l IH]; intros [|y l']; cbn; congruence. Qed.
Lemma lin_zero c n : lin c (repeat 0%R n) = 0%R.
Proof. revert c. induction n as [|n IH]; intros c; cbn; [reflexivity|]. rewrite IH. lra. Qed.

Definition delta (i j : nat) : R := if Nat.eqb i j then 1%R else 0%R.
Lemma lin_none c p : (forall i, c i = 0%R) -> lin c p = 0%R.
Proof. revert c. induction p as [|x p IH]; intros c H; cbn; [reflexivity|]. rewrite H, IH by auto. lra. Qed.
Lemma lin_ext c e p : (forall i, c i = e i) -> lin c p = lin e p.
Proof. revert c e. induction p as [|x p IH]; intros c e H; cbn; [reflexivity|]. rewrite H, (IH _ (fun i => e (S i))) by auto. reflexivity. Qed.
Lemma lin_delta i p : lin (delta i) p = nth i p 0%R.
Proof.
  revert i. induction p as [|x p IH]; intros [|i]; cbn [lin nth]; try reflexivity.
  - rewrite lin_none; [unfold delta; cbn; lra|]. intros j. reflexivity.
  - rewrite (lin_ext _ (delta i)) by reflexivity. rewrite IH. unfold delta. cbn. lra.
Qed.

Lemma rsum_map {A B} (h : A -> B) (g : B -> R) l : rsum g (map h l) = rsum (fun x => g (h x)) l.
Proof. unfold rsum. induction l as [|x l IH]; cbn; [reflexivity|]. rewrite IH. reflexivity. Qed.
Lemma rsum_ext {A} (g h : A -> R) l : (forall x, In x l -> g x = h x) -> rsum g l = rsum h l.
Proof.
  unfold rsum. induction l as [|x l IH]; intros H; cbn; [reflexivity|]. rewrite (H x), IH; cbn; auto.
  intros y Hy. apply H. cbn. auto.
Qed.
Lemma rsum_plus {A} (g h : A -> R) l : rsum (fun x => g x + h x)%R l = (rsum g l + rsum h l)%R.
Proof. unfold rsum. induction l as [|x l IH]; cbn; [lra|]. rewrite IH. lra. Qed.
Lemma rsum_scal {A} a (g : A -> R) l : rsum (fun x => a * g x)%R l = (a * rsum g l)%R.
Proof. unfold rsum. induction l as [|x l IH]; cbn; [lra|]. rewrite IH. lra. Qed.
Lemma rsum_app {A} (g : A -> R) l l' : rsum g (l ++ l') = (rsum g l + rsum g l')%R.
Proof. unfold rsum. induction l as [|x l IH]; cbn; [lra|]. rewrite IH. lra. Qed.
Lemma rsum_const {A} a (l : list A) : rsum (fun _ => a) l = (IZR (Z.of_nat (length l)) * a)%R.
Proof.
  unfold rsum. induction l as [|x l IH]; [cbn; lra|]. cbn [fold_right length]. rewrite IH, Nat2Z.inj_succ, succ_IZR. lra.
Qed.
Lemma rsum_le {A} (g h : A -> R) l : (forall x, In x l -> (g x <= h x)%R) -> (rsum g l <= rsum h l)%R.
Proof.
  unfold rsum. induction l as [|x l IH]; intros H; cbn; [lra|].
  assert (g x <= h x)%R by (apply H; cbn; auto). assert (fold_right (fun x s => g x + s) 0 l <= fold_right (fun x s => h x + s) 0 l)%R by (apply IH; intros; apply H; cbn; auto). lra.
Qed.
Lemma rsum_nonneg {A} (g : A -> R) l : (forall x, In x l -> (0 <= g x)%R) -> (0 <= rsum g l)%R.
Proof. intros H. apply Rle_trans with (rsum (fun _ => 0%R) l); [rewrite rsum_const; lra|apply rsum_le; exact H]. Qed.

Lemma lin_rsum c p : lin c p = rsum (fun i => c i * nth i p 0)%R (seq 0 (length p)).
Proof.
  revert c. induction p as [|x p IH]; intros c; [reflexivity|]. cbn [lin length seq]. cbn [rsum fold_right nth].
  f_equal. rewrite IH, <- seq_shift. symmetry. apply (rsum_map S (fun i => c i * nth i (x :: p) 0)%R).
Qed.

(** ** Masks *)
Definition mask := list (R * N).
Definition weighted (W : mask) (g : N -> R) : R := rsum (fun wx => fst wx * g (snd wx))%R W.
Definition wtotal (W : mask) : R := rsum fst W.

Lemma weighted_affine W a (g h : N -> R) : (forall w x, In (w, x) W -> h x = (a + g x)%R) ->
  weighted W h = (wtotal W * a + weighted W g)%R.
Proof.
  intros H. unfold weighted, wtotal.
  rewrite (rsum_ext _ (fun wx => a * fst wx + fst wx * g (snd wx))%R).
  - rewrite rsum_plus, rsum_scal. lra.
  - intros [w x] Hx. cbn. rewrite (H w x Hx). lra.
Qed.
Lemma weighted_ext W (g h : N -> R) : (forall w x, In (w, x) W -> g x = h x) -> weighted W g = weighted W h.
Proof. intros H. unfold weighted. apply rsum_ext. intros [w x] Hx. cbn. rewrite (H w x Hx). reflexivity. Qed.
Lemma weighted_le W (g : N -> R) h : (forall w x, In (w, x) W -> (0 <= w)%R /\ (g x <= h)%R) -> wtotal W = 1%R ->
  (weighted W g <= h)%R.
Proof.
  intros H H1. apply Rle_trans with (weighted W (fun _ => h)).
  - unfold weighted. apply rsum_le. intros [w x] Hx. cbn. destruct (H w x Hx). apply Rmult_le_compat_l; assumption.
  - unfold weighted, wtotal in *. rewrite (rsum_ext _ (fun wx => h * fst wx)%R) by (intros; lra).
    rewrite rsum_scal, H1. lra.
Qed.

Lemma weighted_ring a v b l g : weighted ((a, v) :: map (pair b) l) g = (a * g v + b * rsum g l)%R.
Proof. rewrite <- rsum_scal. unfold weighted. rewrite <- (rsum_map (pair b) (fun wx => fst wx * g (snd wx))%R). reflexivity. Qed.
Lemma wtotal_ring a v b (l : list N) : wtotal ((a, v) :: map (pair b) l) = (a + IZR (Z.of_nat (length l)) * b)%R.
Proof. rewrite <- rsum_const. unfold wtotal. rewrite <- (rsum_map (pair b) fst). reflexivity. Qed.

Definition odest (w : R) (o : option dedge) : mask := match o with Some f => [(w, snd f)] | None => [] end.
Definition edge_mask (w : R) (e : dedge) : mask := [(w, fst e); (w, snd e)].

Lemma Ok_inj {A} (x y : A) : Ok x = Ok y -> x = y.
Proof. congruence. Qed.

Section MASKS.
Context {O : Ops} {D : Type}.
Notation mesh := (mesh O D).
Definition linear_mask (m : mesh) (e : dedge) : mask := edge_mask (1 / 2) e.
Definition loop_mask (m : mesh) (e : dedge) : mask :=
  if is_internal m e
  then edge_mask (3 / 8) e ++ odest (1 / 8) (lnext m e) ++ odest (1 / 8) (rprev m e)
  else edge_mask (1 / 2) e.
Definition butterfly_mask (m : mesh) (e : dedge) : mask :=
  edge_mask (1 / 2) e ++ odest (1 / 8) (lnext m e) ++ odest (1 / 8) (rprev m e) ++
  odest (-1 / 16) (obind (lnext m e) (rprev m)) ++ odest (-1 / 16) (obind (rprev m e) (lnext m)) ++
  odest (-1 / 16) (obind (lprev m e) (rprev m)) ++ odest (-1 / 16) (obind (rnext m e) (lnext m)).
Definition new_mask (k : kind) (m : mesh) (e : dedge) : mask :=
  match k with
  | CellF CLinear | EdgeF ELinear => linear_mask m e
  | CellF CLoop | EdgeF ELoop => loop_mask m e
  | CellF CButterfly | EdgeF EButterfly => butterfly_mask m e
  | CellF CSqrt3 => []
  end.
Definition vertex_mask (m : mesh) (v : N) : mask :=
  let r := ring m v in
  let B := filter (fun w => is_at_border m (v, w)) r in
  let n := N.of_nat (length r) in
  if is_nil B
  then (1 - IZR (Z.of_N n) * loop_weight n, v)%R :: map (pair (loop_weight n)) r
  else (3 / 4, v)%R :: map (pair (1 / 8)%R) B.
Definition out_mask (k : kind) (f : fstate) (m : mesh) (id : N) : mask :=
  let V := osize (pts m) in
  if N.ltb id V
  then match k with
       | CellF CLoop => if smooths f id then vertex_mask m id else [(1%R, id)]
       | _ => [(1%R, id)]
       end
  else match nth_error (inserted k f m) (N.to_nat (id - V)) with
       | Some e => new_mask k m e
       | None => []
       end.
End MASKS.

Section GEO.
Context {d : nat} {D : Type}.
Notation mesh := (mesh (RO d) D).
Notation point := (list R).
Implicit Types inp out : mesh.

Lemma ptof_get inp id p : oget id (pts inp) = Some p -> ptof inp id = p.
Proof. unfold ptof. intros ->. reflexivity. Qed.
Lemma ptof_length inp id : valid inp -> length (ptof inp id) = d.
Proof.
  intros Hv. unfold ptof. destruct (oget id (pts inp)) eqn:E; [exact (v_pts_dim _ Hv _ _ E)|apply repeat_length].
Qed.
Lemma crd_lin inp i id : crd inp i id = lin (delta i) (ptof inp id).
Proof. unfold crd. symmetry. apply lin_delta. Qed.

Lemma get_pt_inv inp id p : get_pt inp id = Ok p -> p = ptof inp id.
Proof. unfold get_pt, ptof. destruct (oget id (pts inp)); [|discriminate]. intros H. inv H. reflexivity. Qed.
Lemma elem_pt_inv inp id p : elem_pt inp id = Ok p -> p = ptof inp id.
Proof. unfold elem_pt, ptof. destruct (oget id (pts inp)); [|discriminate]. intros H. inv H. reflexivity. Qed.

Lemma lin_comb c : forall (ws : list R) (ps : list point) (acc : point),
  length acc = d -> (forall p, In p ps -> length p = d) -> length ws = length ps ->
  lin c (@comb (RO d) acc ws ps) = (lin c acc + rsum (fun wp => fst wp * lin c (snd wp)) (combine ws ps))%R.
Proof.
  induction ws as [|w ws IH]; intros [|p ps] acc Ha Hp Hl; cbn in *; try discriminate; [lra|].
  assert (Lp : length p = d) by auto.
  rewrite IH; auto; [|apply map2_length; assumption].
  rewrite (map2_ext _ (fun a x => 1 * a + w * x)%R) by (intros; lra).
  rewrite lin_map2 by congruence. unfold rsum. lra.
Qed.

Lemma lin_midpoint c (p q : point) : length p = length q -> lin c (@midpoint (RO d) p q) = (1 / 2 * lin c p + 1 / 2 * lin c q)%R.
Proof.
  intros H. unfold midpoint. cbn. rewrite (map2_ext _ (fun x y => 1 / 2 * x + 1 / 2 * y)%R) by (intros; lra).
  apply lin_map2. exact H.
Qed.

Lemma linear_mask_ok c inp e p : valid inp -> linear_point inp e = Ok p ->
  lin c p = weighted (linear_mask inp e) (fun x => lin c (ptof inp x)).
Proof.
  intros Hv. unfold linear_point. destruct (get_pt inp (fst e)) as [a| | |] eqn:Ea; try discriminate.
  destruct (get_pt inp (snd e)) as [b| | |] eqn:Eb; try discriminate. cbn [rbind]. intros H. inv H.
  apply get_pt_inv in Ea, Eb. subst. rewrite lin_midpoint by (rewrite !ptof_length; auto).
  unfold weighted, linear_mask, edge_mask. cbn. lra.
Qed.

Lemma onext_some inp a b : joined inp a b -> exists x, onext inp (a, b) = Some (a, x) /\ joined inp a x.
Proof.
  intros H. destruct (succ_in_In _ _ H) as [x Hx]. exists x. unfold onext. cbn [fst snd]. rewrite Hx.
  split; [reflexivity|eapply succ_joined; eauto].
Qed.
Lemma oprev_some inp a b : joined inp a b -> exists x, oprev inp (a, b) = Some (a, x) /\ joined inp a x.
Proof.
  intros H. destruct (pred_in_In _ _ H) as [x Hx]. exists x. unfold oprev. cbn [fst snd]. rewrite Hx.
  split; [reflexivity|eapply pred_joined; eauto].
Qed.
Lemma lnext_some inp a b : valid inp -> joined inp a b -> exists x, lnext inp (a, b) = Some (b, x) /\ joined inp b x.
Proof. intros Hv H. apply oprev_some. apply (v_ring_sym _ Hv). exact H. Qed.
Lemma rprev_some inp a b : valid inp -> joined inp a b -> exists x, rprev inp (a, b) = Some (b, x) /\ joined inp b x.
Proof. intros Hv H. apply onext_some. apply (v_ring_sym _ Hv). exact H. Qed.
Lemma lprev_some inp a b : valid inp -> joined inp a b -> exists x, lprev inp (a, b) = Some (x, a) /\ joined inp x a.
Proof.
  intros Hv H. destruct (onext_some inp a b H) as [x [E Hx]]. exists x. unfold lprev. rewrite E.
  split; [reflexivity|apply (v_ring_sym _ Hv); exact Hx].
Qed.
Lemma rnext_some inp a b : valid inp -> joined inp a b -> exists x, rnext inp (a, b) = Some (x, a) /\ joined inp x a.
Proof.
  intros Hv H. destruct (oprev_some inp a b H) as [x [E Hx]]. exists x. unfold rnext. rewrite E.
  split; [reflexivity|apply (v_ring_sym _ Hv); exact Hx].
Qed.

Lemma dest_pt inp a b : valid inp -> joined inp a b -> dest_or_zero inp (Some (a, b)) = Ok (ptof inp b).
Proof.
  intros Hv H. cbn. unfold get_pt, ptof. pose proof (v_ring_pts _ Hv _ _ H) as Hb. cbn [snd].
  destruct (oget b (pts inp)); [reflexivity|]. exfalso. apply Hb. reflexivity.
Qed.
Lemma joined_get inp a b : valid inp -> joined inp a b -> get_pt inp a = Ok (ptof inp a) /\ get_pt inp b = Ok (ptof inp b).
Proof.
  intros Hv H. destruct (joined_pts _ _ _ Hv H) as [p [q [Ha [Hb _]]]]. unfold get_pt, ptof. rewrite Ha, Hb. auto.
Qed.

Lemma loop_mask_ok c inp e p : valid inp -> joined inp (fst e) (snd e) -> loop_point inp e = Ok p ->
  lin c p = weighted (loop_mask inp e) (fun x => lin c (ptof inp x)).
Proof.
  intros Hv Hj. destruct e as [a b]. cbn [fst snd] in Hj. unfold loop_point, loop_mask.
  destruct (joined_get inp a b Hv Hj) as [Ea Eb]. cbn [fst snd]. rewrite Ea, Eb. cbn [rbind].
  destruct (is_internal inp (a, b)).
  - destruct (lnext_some inp a b Hv Hj) as [x [-> Hx]]. destruct (rprev_some inp a b Hv Hj) as [y [-> Hy]].
    rewrite !dest_pt by assumption. cbn [rbind]. intros H. apply Ok_inj in H. subst p.
    rewrite lin_comb.
    + unfold pzero, weighted, edge_mask, odest. cbn. rewrite lin_zero. lra.
    + unfold pzero. cbn. apply repeat_length.
    + cbn. intros q Hq. decompose [or] Hq; try tauto; subst; apply ptof_length; assumption.
    + reflexivity.
  - destruct (is_at_border inp (a, b)); [|discriminate]. intros H. inv H.
    rewrite lin_midpoint by (rewrite !ptof_length; auto). unfold weighted, edge_mask. cbn. lra.
Qed.

Lemma butterfly_mask_ok c inp e p : valid inp -> joined inp (fst e) (snd e) -> butterfly_point inp e = Ok p ->
  lin c p = weighted (butterfly_mask inp e) (fun x => lin c (ptof inp x)).
Proof.
  intros Hv Hj. destruct e as [a b]. cbn [fst snd] in Hj. unfold butterfly_point, butterfly_mask.
  destruct (joined_get inp a b Hv Hj) as [Ea Eb]. cbn [fst snd]. rewrite Ea, Eb. cbn [rbind].
  destruct (lnext_some inp a b Hv Hj) as [x [-> Hx]]. destruct (rprev_some inp a b Hv Hj) as [y [-> Hy]].
  destruct (lprev_some inp a b Hv Hj) as [z [-> Hz]]. destruct (rnext_some inp a b Hv Hj) as [w [-> Hw]].
  cbn [obind].
  destruct (rprev_some inp b x Hv Hx) as [x' [-> Hx']]. destruct (lnext_some inp b y Hv Hy) as [y' [-> Hy']].
  destruct (rprev_some inp z a Hv Hz) as [z' [-> Hz']]. destruct (lnext_some inp w a Hv Hw) as [w' [-> Hw']].
  rewrite !dest_pt by assumption. cbn [rbind]. intros H. apply Ok_inj in H. subst p.
  rewrite lin_comb.
  - unfold pzero, weighted, edge_mask, odest. cbn. rewrite lin_zero. lra.
  - unfold pzero. cbn. apply repeat_length.
  - cbn. intros q Hq. decompose [or] Hq; try tauto; subst; apply ptof_length; assumption.
  - reflexivity.
Qed.

Lemma new_mask_ok c k inp e p : valid inp -> k <> CellF CSqrt3 -> joined inp (fst e) (snd e) -> new_point k inp e = Ok p ->
  lin c p = weighted (new_mask k inp e) (fun x => lin c (ptof inp x)).
Proof.
  intros Hv Hk Hj. destruct k as [[| | |]|[| |]]; cbn [new_point new_mask cell_point edge_point]; intros H;
  try (eapply linear_mask_ok; eassumption); try (eapply loop_mask_ok; eassumption); try (eapply butterfly_mask_ok; eassumption).
  congruence.
Qed.

(** ** The vertex rule *)
Lemma smooth_sums_lin c inp v : valid inp -> forall r (bpt opt : point) nb nn bpt' nb' opt' nn',
  length bpt = d -> length opt = d ->
  smooth_sums inp v r bpt nb opt nn = Ok (bpt', nb', opt', nn') ->
  let B := filter (fun w => is_at_border inp (v, w)) r in
  length bpt' = d /\ length opt' = d /\
  lin c bpt' = (lin c bpt + rsum (fun w => lin c (ptof inp w)) B)%R /\
  lin c opt' = (lin c opt + rsum (fun w => lin c (ptof inp w)) r)%R /\
  nb' = nb + N.of_nat (length B) /\ nn' = nn + N.of_nat (length r).
Proof.
  intros Hv. induction r as [|w r IH]; intros bpt opt nb nn bpt' nb' opt' nn' Lb Lo; cbn [smooth_sums].
  - intros H. assert (bpt' = bpt /\ nb' = nb /\ opt' = opt /\ nn' = nn) as [-> [-> [-> ->]]] by (repeat split; congruence).
    cbn. repeat split; try assumption; try lra; lia.
  - destruct (elem_pt inp w) as [p| | |] eqn:E; try discriminate. cbn [rbind]. apply elem_pt_inv in E. subst p.
    assert (Lw : length (ptof inp w) = d) by (apply ptof_length; exact Hv).
    assert (La : forall q : point, length q = d -> length (@padd (RO d) q (ptof inp w)) = d) by (intros; apply map2_length; auto).
    assert (Ll : forall q : point, length q = d -> lin c (@padd (RO d) q (ptof inp w)) = (lin c q + lin c (ptof inp w))%R).
    { intros q Hq. unfold padd. cbn. rewrite (map2_ext _ (fun x y => 1 * x + 1 * y)%R) by (intros; lra).
      rewrite lin_map2 by congruence. lra. }
    cbn [filter]. destruct (is_at_border inp (v, w)) eqn:Eb; intros H; apply IH in H; auto;
      destruct H as [H1 [H2 [H3 [H4 [H5 H6]]]]]; repeat split; try assumption;
      rewrite ?H3, ?H4, ?Ll by assumption; cbn [rsum fold_right length]; unfold rsum; try lra; lia.
Qed.

Lemma loop_beta_eq n : @loop_beta (RO d) n = loop_weight n.
Proof. unfold loop_beta, loop_weight, kfrac. cbn [kdiv ksub kmul kadd kZ kcos2pi RO]. f_equal. lra. Qed.

Lemma is_nil_length {A} (l : list A) : N.eqb (N.of_nat (length l)) 0 = is_nil l.
Proof. destruct l; [reflexivity|]. cbn [length is_nil]. apply N.eqb_neq. lia. Qed.

Lemma vertex_mask_ok c inp v p : valid inp -> oget v (pts inp) <> None -> smoothing_point inp v (ptof inp v) = Ok p ->
  lin c p = weighted (vertex_mask inp v) (fun x => lin c (ptof inp x)).
Proof.
  intros Hv Hid. unfold smoothing_point, vertex_mask.
  assert (Lv : length (ptof inp v) = d) by (apply ptof_length; exact Hv).
  destruct (ring inp v) as [|r0 r'] eqn:Er; [discriminate|]. rewrite <- Er. set (r := ring inp v).
  destruct (smooth_sums inp v r pzero 0 pzero 0) as [[[[bpt nb] opt] nn]| | |] eqn:E; try discriminate.
  cbn [rbind]. apply (smooth_sums_lin c) in E; auto; try (unfold pzero; cbn; apply repeat_length).
  destruct E as [Lb [Lo [Hb [Ho [-> ->]]]]]. unfold pzero in Hb, Ho. cbn [kZ RO kdim] in Hb, Ho. rewrite lin_zero in Hb, Ho.
  set (B := filter (fun w => is_at_border inp (v, w)) r) in *. rewrite !N.add_0_l, is_nil_length.
  assert (Hnil : is_nil r = false) by (unfold r; rewrite Er; reflexivity).
  destruct (is_nil B); intros H; inv H.
  - unfold interior_rule. cbn [kadd kmul ksub kZ RO]. rewrite loop_beta_eq, lin_map2 by (etransitivity; [exact Lv|symmetry; exact Lo]).
    rewrite weighted_ring, Ho. lra.
  - unfold border_rule, kfrac. cbn [kadd kmul kdiv kZ RO]. rewrite lin_map2 by (etransitivity; [exact Lv|symmetry; exact Lb]).
    rewrite weighted_ring, Hb. lra.
Qed.

(** ** All points of the output *)
Lemma out_lin c k f inp fuel f' out id : valid inp -> dense inp -> ready k f inp ->
  update k fuel f inp = Ok (f', out) -> oget id (pts out) <> None ->
  lin c (ptof out id) = weighted (out_mask k f inp id) (fun x => lin c (ptof inp x)).
Proof.
  intros Hv Hd Hr E Hid. pose proof Hr as [Hk _].
  destruct (face_run k f inp fuel f' out Hv Hd Hr E) as [mid [Ls FR]].
  unfold out_mask. destruct (N.ltb_spec id (osize (pts inp))) as [Hlt|Hge].
  - assert (Hold : oget id (pts inp) <> None) by (apply Hd; exact Hlt).
    destruct (oget id (pts inp)) as [p|] eqn:Ep; [|congruence].
    assert (Hsame : oget id (pts out) = Some p -> lin c (ptof out id) = weighted [(1%R, id)] (fun x => lin c (ptof inp x))).
    { intros H. rewrite (ptof_get _ _ _ H). unfold weighted. cbn. rewrite (ptof_get _ _ _ Ep). lra. }
    assert (Hcase : k = CellF CLoop \/ k <> CellF CLoop) by (destruct k as [[| | |]|]; auto; right; discriminate).
    destruct Hcase as [->|Hn].
    + pose proof (fr_old_loop _ _ _ _ _ _ _ FR id p Ep eq_refl) as Ho. destruct (smooths f id).
      * destruct (oget id (pts out)) as [q|] eqn:Eq; [|congruence]. rewrite (ptof_get _ _ _ Eq).
        apply vertex_mask_ok; [exact Hv|congruence|]. rewrite (ptof_get _ _ _ Ep). exact Ho.
      * auto.
    + pose proof (fr_old _ _ _ _ _ _ _ FR id p Ep Hn) as Ho. destruct k as [[| | |]|]; auto. congruence.
  - destruct (fr_sub _ _ _ _ _ _ _ FR) as [_ _ _ _ Hnew _ _ _].
    assert (Hn : oget id (pts inp) = None).
    { destruct (oget id (pts inp)) eqn:Ei; [|reflexivity]. exfalso.
      assert (H0 : oget id (pts inp) <> None) by (rewrite Ei; discriminate). apply Hd in H0. lia. }
    destruct (proj2 (Hnew id) (conj Hn Hid)) as [a [b Hm]].
    destruct (update_split_inv k f inp fuel f' out Hv Hd Hr E) as [P0 [_ [_ [_ [HI _]]]]].
    pose proof (fr_mid _ _ _ _ _ _ _ FR) as Hmid.
    destruct (fr_new _ _ _ _ _ _ _ FR a b id Hm) as [e [p [He [Hin [Hp Ho]]]]].
    assert (Hnth : nth_error (inserted k f inp) (N.to_nat (id - osize (pts inp))) = Some e).
    { rewrite Hmid in Hm. apply (sp_Some _ _ _ _ _ HI) in Hm. destruct Hm as [_ [e' [Hnth Hu]]].
      rewrite Hnth. f_equal. apply In_nth_error in Hin. destruct Hin as [i Hi].
      assert (i = N.to_nat (id - osize (pts inp))) as ->; [|pose proof (eq_trans (eq_sym Hnth) Hi) as H; inversion H; reflexivity].
      eapply HI; [exact Hi|exact Hnth|].
      destruct e as [x y], e' as [x' y']. unfold undirected_eq in *. cbn [fst snd] in *. intuition congruence. }
    rewrite Hnth, (ptof_get _ _ _ Ho). apply new_mask_ok; auto. eapply ins_dirs; eauto.
Qed.
End GEO.
