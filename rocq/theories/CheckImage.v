(** * CheckImage: mirror images and drawings along other axes, for the examples of C116 and C117. *)
From Coq Require Import Reals.
From Flocq Require Import Core BinarySingleNaN.
From Verif Require Import Base Mesh Filters Spec SpecGeo SpecFlt SpecMirror SpecAxes.

Section FLIP.
Context {prec emax : Z} {Hp : Prec_gt_0 prec} {Hm : Prec_lt_emax prec emax} {cosf : N -> binary_float prec emax} {d : nat} {D : Type}.
Fixpoint flip_from (flip : nat -> bool) (n : nat) (p : list (binary_float prec emax)) : list (binary_float prec emax) :=
  match p with [] => [] | x :: t => (if flip n then Bopp x else x) :: flip_from flip (S n) t end.
Definition flip_mesh (flip : nat -> bool) (m : mesh (BO prec emax Hp Hm cosf d) D) : mesh (BO prec emax Hp Hm cosf d) D :=
  Mesh (O := BO prec emax Hp Hm cosf d) (map (fun kv => (fst kv, flip_from flip 0 (snd kv))) (pts m)) (rings m) (cells m) (ecells m) (cdata m).
Lemma flip_from_ok flip p : forall n, length (flip_from flip n p) = length p /\
  forall i x y, nth_error p i = Some x -> nth_error (flip_from flip n p) i = Some y -> y = if flip (n + i)%nat then Bopp x else x.
Proof.
  induction p as [|a p IH]; intros n; cbn [flip_from]; [split; [reflexivity|intros [|i]; discriminate]|].
  destruct (IH (S n)) as [L H]. split; [cbn; rewrite L; reflexivity|]. intros [|i] x y Hx Hy; cbn in Hx, Hy.
  - rewrite Nat.add_0_r. injection Hx as ->; injection Hy as <-; reflexivity.
  - rewrite (H i x y Hx Hy). replace (S n + i)%nat with (n + S i)%nat by lia. reflexivity.
Qed.
Lemma flip_mesh_image flip m : mirror_image flip m (flip_mesh flip m).
Proof.
  split; [unfold same_connectivity, flip_mesh; cbn; split; [unfold okeys; rewrite map_map; reflexivity|auto]|].
  unfold flip_mesh. cbn [pts]. induction (pts m) as [|[i p] l IH]; cbn [map]; constructor; [|exact IH]. cbn [fst snd].
  destruct (flip_from_ok flip p 0) as [L H]. split; [symmetry; exact L|]. intros j x y Hx Hy. rewrite (H j x y Hx Hy). cbn [Nat.add].
  destruct (flip j); [left|]; reflexivity.
Qed.
End FLIP.

Section DRAW.
Context {O : Ops} {D : Type}.
Definition axes_mesh (ax : nat -> nat) (d : nat) (m : mesh O D) : mesh (in_dim O d) D :=
  Mesh (O := in_dim O d) (map (fun kv => (fst kv, map (fun i => nth (ax i) (snd kv) (kZ O 0)) (seq 0 d))) (pts m)) (rings m) (cells m) (ecells m) (cdata m).
Lemma axes_mesh_image ax d (m : mesh O D) : (forall i, (i < d)%nat -> (ax i < kdim O)%nat) ->
  (forall id p, In (id, p) (pts m) -> length p = kdim O) -> axes_image ax m (axes_mesh ax d m).
Proof.
  intros Hax Hd. split; [unfold same_connectivity, axes_mesh; cbn; split; [unfold okeys; rewrite map_map; reflexivity|auto]|].
  unfold axes_mesh. cbn [pts]. revert Hd. induction (pts m) as [|[i p] l IH]; intros Hd; cbn [map]; constructor; [|apply IH; intros a b H; apply (Hd a); cbn; auto].
  cbn [fst snd]. intros j Hj. rewrite map_length, seq_length in Hj. rewrite nth_error_map, (nth_error_nth' _ 0%nat) by (rewrite seq_length; exact Hj).
  rewrite seq_nth by exact Hj. cbn [option_map Nat.add]. apply nth_error_nth'. rewrite (Hd i p) by (cbn; auto). apply Hax. exact Hj.
Qed.
End DRAW.
