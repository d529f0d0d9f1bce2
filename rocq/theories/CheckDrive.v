(** * CheckDrive: areas and lengths of concrete meshes, for the examples beside the theorems. *)
From Coq Require Import Reals Lra Psatz QArith Qreals.
From Verif Require Import Base Mesh Filters Drivers Samples Spec SpecSub SpecGeo SpecDrive Lists Check Geo GeoProps CheckGeo Drive DriveProps.

Open Scope N_scope.

Section C.
Context {d : nat}.
Implicit Types m : mesh (QO d) N.

Lemma Q2R_0 : Q2R 0 = 0%R. Proof. unfold Q2R. cbn. lra. Qed.
Definition qcrd m (i : nat) (x : N) : Q := nth i (match oget x (pts m) with Some p => p | None => repeat 0%Q d end) 0%Q.
Lemma Q2R_nth (p : list Q) i : nth i (map Q2R p) 0%R = Q2R (nth i p 0%Q).
Proof. rewrite <- Q2R_0. apply (map_nth Q2R). Qed.
Lemma crd_q m i x : crd (rmesh m) i x = Q2R (qcrd m i x).
Proof.
  unfold crd, ptof, qcrd, rmesh. cbn [pts]. rewrite (oget_map_pts (map Q2R)).
  assert (G : forall o : option (list Q), nth i match option_map (map Q2R) o with Some p => p | None => repeat 0%R d end 0%R
    = Q2R (nth i match o with Some p => p | None => repeat 0%Q d end 0%Q)); [|exact (G _)].
  intros [p|]; cbn [option_map]; [apply Q2R_nth|].
  rewrite <- (Q2R_nth (repeat 0%Q d) i). f_equal. clear. induction d as [|n IH]; cbn; [reflexivity|]. rewrite Q2R_0. f_equal. exact IH.
Qed.
Definition qdot m (o a b : N) : Q :=
  fold_right (fun i s => ((qcrd m i a - qcrd m i o) * (qcrd m i b - qcrd m i o) + s)%Q) 0%Q (seq 0 d).
Lemma dot_q m o a b : dot (rmesh m) o a b = Q2R (qdot m o a b).
Proof.
  unfold dot, qdot, rsum. induction (seq 0 d) as [|i l IH]; cbn [fold_right]; [symmetry; apply Q2R_0|].
  rewrite Q2R_plus, Q2R_mult, !Q2R_minus, <- !crd_q, IH. reflexivity.
Qed.
Definition qgram m (t : tri) : Q := let '(a, b, c) := t in (qdot m a b b * qdot m a c c - qdot m a b c * qdot m a b c)%Q.
Lemma area_q m t : tri_area (rmesh m) t = (1 / 2 * sqrt (Q2R (qgram m t)))%R.
Proof.
  destruct t as [[a b] c]. unfold tri_area, qgram. rewrite !dot_q. do 2 f_equal. rewrite Q2R_minus, !Q2R_mult. ring.
Qed.

Definition Qltb (x y : Q) : bool := negb (Qle_bool y x).
Lemma Qltb_lt x y : Qltb x y = true -> (Q2R x < Q2R y)%R.
Proof.
  unfold Qltb. intros H. apply Qlt_Rlt. apply Qnot_le_lt. intros Hle. apply Qle_bool_iff in Hle. rewrite Hle in H. discriminate.
Qed.
Lemma Qleb_le x y : Qle_bool x y = true -> (Q2R x <= Q2R y)%R.
Proof. intros H. apply Qle_Rle. apply Qle_bool_iff. exact H. Qed.

(** area > q, area <= q; length > q, length <= q. *)
Lemma area_gt m t q : Qle_bool 0 q && Qltb (4 * (q * q)) (qgram m t) = true -> (Q2R q < tri_area (rmesh m) t)%R.
Proof.
  intros H. apply andb_prop in H. destruct H as [H1 H2]. apply Qleb_le in H1. apply Qltb_lt in H2. rewrite Q2R_0 in H1.
  rewrite !Q2R_mult in H2. rewrite area_q. replace (Q2R 4) with 4%R in H2 by (unfold Q2R; cbn; lra).
  assert (Hs : (2 * Q2R q < sqrt (Q2R (qgram m t)))%R); [|lra].
  rewrite <- (sqrt_square (2 * Q2R q)) by lra. apply sqrt_lt_1_alt. split; nra.
Qed.
Lemma area_le m t q : Qle_bool 0 q && Qle_bool (qgram m t) (4 * (q * q)) = true -> (tri_area (rmesh m) t <= Q2R q)%R.
Proof.
  intros H. apply andb_prop in H. destruct H as [H1 H2]. apply Qleb_le in H1. apply Qleb_le in H2. rewrite Q2R_0 in H1.
  rewrite !Q2R_mult in H2. rewrite area_q. replace (Q2R 4) with 4%R in H2 by (unfold Q2R; cbn; lra).
  assert (Hs : (sqrt (Q2R (qgram m t)) <= 2 * Q2R q)%R); [|lra].
  rewrite <- (sqrt_square (2 * Q2R q)) by lra. apply sqrt_le_1_alt. nra.
Qed.
Lemma length_gt m a b q : Qle_bool 0 q && Qltb (q * q) (qdot m a b b) = true -> (Q2R q < seg_length (rmesh m) a b)%R.
Proof.
  intros H. apply andb_prop in H. destruct H as [H1 H2]. apply Qleb_le in H1. apply Qltb_lt in H2. rewrite Q2R_0 in H1.
  rewrite !Q2R_mult in H2. unfold seg_length. rewrite dot_q. rewrite <- (sqrt_square (Q2R q)) by lra. apply sqrt_lt_1_alt. split; nra.
Qed.
Lemma length_le m a b q : Qle_bool 0 q && Qle_bool (qdot m a b b) (q * q) = true -> (seg_length (rmesh m) a b <= Q2R q)%R.
Proof.
  intros H. apply andb_prop in H. destruct H as [H1 H2]. apply Qleb_le in H1. apply Qleb_le in H2. rewrite Q2R_0 in H1.
  rewrite !Q2R_mult in H2. unfold seg_length. rewrite dot_q. rewrite <- (sqrt_square (Q2R q)) by lra. apply sqrt_le_1_alt. nra.
Qed.
Definition areas_leb m q : bool := forallb (fun t => Qle_bool 0 q && Qle_bool (qgram m t) (4 * (q * q))) (tris m).
Lemma tris_rmesh m : tris (rmesh m) = tris m. Proof. reflexivity. Qed.
Lemma areas_le m q : areas_leb m q = true -> forall u, In u (tris (rmesh m)) -> (tri_area (rmesh m) u <= Q2R q)%R.
Proof. intros H u Hu. apply area_le. unfold areas_leb in H. rewrite forallb_forall in H. apply H. exact Hu. Qed.
Definition lengths_leb m q : bool :=
  forallb (fun r => forallb (fun b => Qle_bool 0 q && Qle_bool (qdot m (fst r) b b) (q * q)) (snd r)) (rings m).
Lemma lengths_le m q : lengths_leb m q = true -> forall a b, joined (rmesh m) a b -> (seg_length (rmesh m) a b <= Q2R q)%R.
Proof.
  intros H a b Hj. apply length_le. unfold lengths_leb in H. rewrite forallb_forall in H. unfold joined, ring in Hj. cbn [rings rmesh] in Hj.
  destruct (oget a (rings m)) as [r|] eqn:E; [|destruct Hj]. apply oget_In in E. specialize (H _ E). rewrite forallb_forall in H.
  apply (H b). exact Hj.
Qed.
End C.
