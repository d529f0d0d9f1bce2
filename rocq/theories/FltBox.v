(** * FltBox: floating-point runs of the Linear filters stay in every box that holds the input. *)
From Coq Require Import Reals Lra Psatz.
From Flocq Require Import Core BinarySingleNaN Mult_error.
From Verif Require Import Base Mesh Filters Drivers Spec SpecSub SpecGeo SpecFlt Lists PtsAny Drive Sim Flt.
Open Scope R_scope.

Section BOX.
Variables (prec emax : Z) (Hp : Prec_gt_0 prec) (Hm : Prec_lt_emax prec emax).
Hypothesis H8 : (8 <= prec)%Z.
Notation F := (binary_float prec emax).
Notation fexp := (SpecFloat.fexp prec emax).
Notation rnd := (round radix2 fexp ZnearestE).
Notation kz := (fun z => binary_normalize prec emax Hp Hm mode_NE z 0 false).
Notation dv := (@Bdiv prec emax Hp Hm mode_NE).
Notation ad := (@Bplus prec emax Hp Hm mode_NE).
Notation lim := (bpow radix2 (emax - 2)).

Local Instance exp_ok : Valid_exp fexp := fexp_correct prec emax Hp.

Lemma twice_format (x : F) : generic_format radix2 fexp (2 * B2R x).
Proof.
  destruct (Req_dec (B2R x) 0) as [E|E]; [rewrite E, Rmult_0_r; apply generic_format_0|].
  rewrite Rmult_comm. change 2 with (bpow radix2 1). apply mult_bpow_pos_exact_FLT; [apply generic_format_B2R|lia].
Qed.
Lemma rnd_le x y : x <= y -> rnd x <= rnd y.
Proof. apply round_le; apply valid_rnd_N || typeclasses eauto. Qed.
Lemma rnd_id x : generic_format radix2 fexp x -> rnd x = x.
Proof. apply round_generic. apply valid_rnd_N. Qed.

Lemma mid_between (x y : F) (lo hi : R) : is_finite x = true -> is_finite y = true ->
  lo <= B2R x <= hi -> lo <= B2R y <= hi -> - lim <= lo -> hi <= lim ->
  is_finite (dv (ad x y) (kz 2%Z)) = true /\ lo <= B2R (dv (ad x y) (kz 2%Z)) <= hi.
Proof.
  intros Fx Fy Hx Hy Hlo Hhi.
  assert (L1 : Rabs (B2R x) <= lim) by (apply Rabs_le; lra). assert (L2 : Rabs (B2R y) <= lim) by (apply Rabs_le; lra).
  assert (G0 : 1 <= lim).
  { replace 1 with (bpow radix2 0) by reflexivity. apply bpow_le. pose proof (emax_gt prec emax Hm H8). lia. }
  (* the sum lies between twice the smaller and twice the larger coordinate *)
  assert (S : exists a b : F, (a = x \/ a = y) /\ (b = x \/ b = y) /\ B2R a <= B2R x /\ B2R a <= B2R y /\ B2R x <= B2R b /\ B2R y <= B2R b).
  { destruct (Rle_dec (B2R x) (B2R y)); [exists x, y|exists y, x]; repeat split; auto; lra. }
  destruct S as [a [b [Ea [Eb [A1 [A2 [B1 B2]]]]]]].
  assert (La : lo <= B2R a) by (destruct Ea; subst; lra). assert (Lb : B2R b <= hi) by (destruct Eb; subst; lra). clear Ea Eb.
  assert (Sum : 2 * B2R a <= rnd (B2R x + B2R y) <= 2 * B2R b).
  { split; [rewrite <- (rnd_id _ (twice_format a))|rewrite <- (rnd_id _ (twice_format b))]; apply rnd_le; lra. }
  pose proof (Bplus_correct prec emax Hp Hm mode_NE x y Fx Fy) as C. change (round_mode mode_NE) with ZnearestE in C.
  rewrite Rlt_bool_true in C.
  2:{ apply (rnd_fits prec emax Hp Hm H8 _ (2 * lim)); [|lra]. eapply Rle_trans; [apply Rabs_triang|]. lra. }
  destruct C as [C1 [C2 _]]. set (s := ad x y) in *.
  destruct (kz_exact prec emax Hp Hm H8 2) as [D1 D2]; [lia|]. cbn beta in D1, D2.
  pose proof (Bdiv_correct prec emax Hp Hm mode_NE s (kz 2%Z)) as Q. cbn beta in Q. rewrite D1 in Q. specialize (Q ltac:(lra)).
  change (round_mode mode_NE) with ZnearestE in Q.
  assert (Half : B2R a <= B2R s / 2 <= B2R b) by (rewrite C1; lra).
  rewrite Rlt_bool_true in Q.
  2:{ apply (rnd_fits prec emax Hp Hm H8 _ lim); [|lra]. apply Rabs_le. lra. }
  destruct Q as [Q1 [Q2 _]]. split; [rewrite Q2; exact C2|]. rewrite Q1.
  assert (E1 := rnd_le _ _ (proj1 Half)). assert (E2 := rnd_le _ _ (proj2 Half)).
  rewrite rnd_id in E1 by apply generic_format_B2R. rewrite (rnd_id (B2R b)) in E2 by apply generic_format_B2R. lra.
Qed.

Lemma oset_In {A} k (v : A) (l : omap A) x : In x (oset k v l) -> x = (k, v) \/ In x l.
Proof.
  induction l as [|[i a] l IH]; cbn [oset]; [intros [H|[]]; auto|].
  destruct (N.ltb k i); [intros [H|H]; auto|]. destruct (N.eqb k i); [intros [H|H]; cbn; auto|].
  intros [H|H]; cbn; auto. destruct (IH H); auto.
Qed.

Section RUN.
Variable cosf : N -> F.
Context {d : nat} {D : Type}.
Notation OB := (BO prec emax Hp Hm cosf d).
Variables lo hi : nat -> R.
Hypothesis Hlo : forall i, - lim <= lo i.
Hypothesis Hhi : forall i, hi i <= lim.

Definition boxed (p : list (K OB)) : Prop := forall i (x : F), nth_error p i = Some x -> is_finite x = true /\ lo i <= B2R x <= hi i.
Lemma boxed_map2 (f : F -> F -> F) :
  (forall i x y, is_finite x = true -> is_finite y = true -> lo i <= B2R x <= hi i -> lo i <= B2R y <= hi i -> is_finite (f x y) = true /\ lo i <= B2R (f x y) <= hi i) ->
  forall p q : list F, boxed p -> boxed q -> boxed (map2 f p q).
Proof.
  intros Hf p q Bp Bq i z Hz.
  assert (E : exists x y, nth_error p i = Some x /\ nth_error q i = Some y /\ z = f x y).
  { clear Bp Bq. revert q i Hz. induction p as [|x p IH]; intros [|y q] [|i] Hz; cbn in *; try discriminate; eauto.
    injection Hz as <-. eauto. }
  destruct E as [x [y [Ex [Ey ->]]]]. destruct (Bp _ _ Ex), (Bq _ _ Ey). apply Hf; auto.
Qed.
Lemma boxed_mid p q : boxed p -> boxed q -> boxed (@midpoint OB p q).
Proof. apply boxed_map2. intros i x y Fx Fy Hx Hy. apply mid_between; auto. Qed.

Lemma in_box_sim (m : mesh OB D) : in_box prec emax Hp Hm lo hi m <-> Sim.msim (fun p _ : list (K OB) => boxed p) m m.
Proof.
  split.
  - intros H. split; [|auto]. unfold psim.
    assert (G : forall l, (forall id p, In (id, p) l -> boxed p) -> Forall2 (fun a b : N * list (K OB) => fst a = fst b /\ boxed (snd a)) l l).
    { induction l as [|[id p] l IH]; intros Hl; constructor; [|apply IH; intros; eapply Hl; right; eassumption].
      split; [reflexivity|]. eapply Hl. left. reflexivity. }
    apply G. intros id p Hin i x Hx. eapply H; eauto.
  - intros [H _] id p i x Hin Hx.
    assert (G : forall l l', Forall2 (fun a b : N * list (K OB) => fst a = fst b /\ boxed (snd a)) l l' -> In (id, p) l -> boxed p).
    { induction 1 as [|a b l l' [_ B] _ IH]; intros Hi; [destruct Hi|]. destruct Hi as [E|Hi]; [subst a; exact B|auto]. }
    exact (G _ _ H Hin i x Hx).
Qed.

Lemma update_box k fuel f (inp : mesh OB D) f' out : k = CellF CLinear \/ k = EdgeF ELinear -> in_box prec emax Hp Hm lo hi inp ->
  update k fuel f inp = Ok (f', out) -> in_box prec emax Hp Hm lo hi out.
Proof.
  intros Hk HI Hr. apply in_box_sim in HI.
  assert (G := update_sim (fun p _ : list (K OB) => boxed p) inp inp HI k).
  assert (G' := G ltac:(intros; apply boxed_mid; auto) ltac:(intros ->; destruct Hk; discriminate)
                  ltac:(intros [->| ->]; destruct Hk; discriminate) ltac:(intros [->| ->]; destruct Hk; discriminate)
                  ltac:(intros ->; destruct Hk; discriminate) ltac:(intros ->; destruct Hk; discriminate) fuel f).
  rewrite Hr in G'. destruct G' as [_ G']. apply in_box_sim. exact G'.
Qed.
Lemma iterative_box n fuel : forall sel (inp : mesh OB D) f' out, in_box prec emax Hp Hm lo hi inp ->
  iterative_levels n CLinear fuel sel inp = Ok (f', out) -> in_box prec emax Hp Hm lo hi out.
Proof.
  induction n as [|n IH]; intros sel inp f' out HI Hr; cbn [iterative_levels] in Hr; [injection Hr as <- <-; exact HI|].
  destruct (update (CellF CLinear) fuel (set_cells_to_be_subdivided new_filter sel) inp) as [[f1 o1]| | |] eqn:E; try discriminate. cbn [rbind] in Hr.
  assert (B1 : in_box prec emax Hp Hm lo hi o1) by (eapply update_box; [left; reflexivity|exact HI|exact E]).
  destruct n; [injection Hr as <- <-; exact B1|]. eapply IH; eauto.
Qed.
Lemma copy_box (inp : mesh OB D) : in_box prec emax Hp Hm lo hi inp -> in_box prec emax Hp Hm lo hi (copy_geometry inp).
Proof.
  intros HI. unfold copy_geometry, copy_cells.
  assert (G : forall l (m : mesh OB D), (forall kv, In kv l -> boxed (snd kv)) -> in_box prec emax Hp Hm lo hi m ->
            in_box prec emax Hp Hm lo hi (fold_left (fun m kv => set_point m (fst kv) (snd kv)) l m)).
  { induction l as [|[id p] l IH]; intros m Hl Bm; [exact Bm|]. cbn [fold_left]. apply IH; [intros; apply Hl; right; assumption|].
    intros id' p' i x Hin Hx. cbn [set_point pts] in Hin. apply oset_In in Hin. destruct Hin as [Hin|Hin]; [|eapply Bm; eauto].
    injection Hin as -> ->. apply (Hl (id, p) (or_introl eq_refl)). exact Hx. }
  assert (B0 : in_box prec emax Hp Hm lo hi (copy_points inp (empty_mesh (O := OB) (D := D)))).
  { unfold copy_points. apply G; [|intros ? ? ? ? []]. intros [id p] Hin i x Hx. eapply HI; eauto. }
  intros id p i x Hin. rewrite add_faces_pts, copy_ecells_pts in Hin. eapply B0; eauto.
Qed.
Lemma conditional_loop_box k crit : k = CellF CLinear \/ k = EdgeF ELinear -> forall fuel s f (out : mesh OB D) f' out',
  in_box prec emax Hp Hm lo hi out -> conditional_loop fuel k crit s f out = Ok (f', out') -> in_box prec emax Hp Hm lo hi out'.
Proof.
  intros Hk fuel. induction fuel as [|fuel IH]; intros s f out f' out' B Hr; [discriminate|]. cbn [conditional_loop] in Hr.
  destruct (sel_empty s); [injection Hr as <- <-; exact B|].
  destruct (update k fuel (apply_selection f s) out) as [[f1 o1]| | |] eqn:E; try discriminate. cbn [rbind] in Hr.
  destruct (crit fuel o1 s) as [s'| | |]; try discriminate. cbn [rbind] in Hr.
  eapply IH; [|exact Hr]. eapply update_box; eauto.
Qed.
Lemma conditional_box k fuel crit old f (inp : mesh OB D) f' out : k = CellF CLinear \/ k = EdgeF ELinear ->
  in_box prec emax Hp Hm lo hi inp -> conditional_update fuel k crit old f inp = Ok (f', out) -> in_box prec emax Hp Hm lo hi out.
Proof.
  intros Hk HI Hr. unfold conditional_update in Hr. cbn zeta in Hr. destruct crit as [cr|]; [|discriminate].
  destruct (cr fuel (copy_geometry inp) old) as [s| | |]; try discriminate. cbn [rbind] in Hr.
  eapply conditional_loop_box; [exact Hk| |exact Hr]. apply copy_box. exact HI.
Qed.
End RUN.
End BOX.

Lemma C89_update_pf : forall prec emax Hp Hm cosf d D (lo hi : nat -> R) k fuel f (inp : mesh (BO prec emax Hp Hm cosf d) D) f' out,
  (8 <= prec)%Z -> (forall i, - bpow radix2 (emax - 2) <= lo i)%R -> (forall i, hi i <= bpow radix2 (emax - 2))%R ->
  k = CellF CLinear \/ k = EdgeF ELinear -> in_box prec emax Hp Hm lo hi inp -> update k fuel f inp = Ok (f', out) ->
  in_box prec emax Hp Hm lo hi out.
Proof. intros. eapply update_box; eauto. Qed.
Lemma C89_iterative_pf : forall prec emax Hp Hm cosf d D (lo hi : nat -> R) levels fuel sel (inp : mesh (BO prec emax Hp Hm cosf d) D) f' out,
  (8 <= prec)%Z -> (forall i, - bpow radix2 (emax - 2) <= lo i)%R -> (forall i, hi i <= bpow radix2 (emax - 2))%R ->
  in_box prec emax Hp Hm lo hi inp -> iterative_update CLinear levels fuel sel inp = Ok (f', out) ->
  in_box prec emax Hp Hm lo hi out.
Proof. intros. eapply iterative_box; eauto. Qed.
Lemma C89_conditional_pf : forall prec emax Hp Hm cosf d D (lo hi : nat -> R) k fuel crit old f (inp : mesh (BO prec emax Hp Hm cosf d) D) f' out,
  (8 <= prec)%Z -> (forall i, - bpow radix2 (emax - 2) <= lo i)%R -> (forall i, hi i <= bpow radix2 (emax - 2))%R ->
  k = CellF CLinear \/ k = EdgeF ELinear -> in_box prec emax Hp Hm lo hi inp -> conditional_update fuel k crit old f inp = Ok (f', out) ->
  in_box prec emax Hp Hm lo hi out.
Proof. intros. eapply conditional_box; eauto. Qed.

Lemma C90_linear_pf : forall prec emax Hp Hm cosf d D i (c : R) k fuel f (inp : mesh (BO prec emax Hp Hm cosf d) D) f' out,
  (8 <= prec)%Z -> (Rabs c <= bpow radix2 (emax - 2))%R -> k = CellF CLinear \/ k = EdgeF ELinear ->
  (forall id p x, In (id, p) (pts inp) -> nth_error p i = Some x -> is_finite x = true /\ B2R x = c) ->
  (forall id p j x, In (id, p) (pts inp) -> nth_error p j = Some x -> is_finite x = true /\ (Rabs (B2R x) <= bpow radix2 (emax - 2))%R) ->
  update k fuel f inp = Ok (f', out) ->
  forall id p x, In (id, p) (pts out) -> nth_error p i = Some x -> is_finite x = true /\ B2R x = c.
Proof.
  intros prec emax Hp Hm cosf d D i c k fuel f inp f' out H8 Hc Hk Hi Hall Hr id p x Hin Hx.
  set (L := bpow radix2 (emax - 2)) in *. assert (Lp : 0 < L) by apply bpow_gt_0.
  assert (Hc' : - L <= c <= L) by (apply Rabs_le_inv; exact Hc).
  assert (G : in_box prec emax Hp Hm (fun j => if Nat.eqb j i then c else - L) (fun j => if Nat.eqb j i then c else L) out).
  { eapply C89_update_pf; [exact H8| | |exact Hk| |exact Hr].
    - intros j. destruct (Nat.eqb j i); fold L; lra.
    - intros j. destruct (Nat.eqb j i); fold L; lra.
    - intros id' p' j y Hin' Hy. destruct (Nat.eqb_spec j i) as [->|].
      + destruct (Hi _ _ _ Hin' Hy) as [F1 F2]. split; [exact F1|lra].
      + destruct (Hall _ _ _ _ Hin' Hy) as [F1 F2]. split; [exact F1|]. apply Rabs_le_inv. exact F2. }
  destruct (G _ _ _ _ Hin Hx) as [F1 F2]. rewrite Nat.eqb_refl in F2. split; [exact F1|lra].
Qed.
