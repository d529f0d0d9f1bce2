(** * CheckPiece: a mesh of two separate pieces, for the examples of C120. *)
From Coq Require Import Reals QArith.
From Verif Require Import Base Mesh Filters Drivers Samples Spec SpecSub SpecGeo SpecDrive SpecConv SpecSame Lists Check CheckGeo CheckDrive Drive DriveProps Iter Root3Props Conv CheckSame.

Open Scope N_scope.

(** The strip (points 0 to 5) and the octahedron (points 6 to 11), the triangles of both mixed, those of the octahedron started
    with other points. *)
Definition both : mesh Q3 N :=
  build (number (map zpt [[0; 0; 0]; [16; 0; 0]; [0; 16; 0]; [16; 16; 0]; [32; 0; 0]; [32; 16; 4];
                          [0; 0; 16]; [16; 0; 0]; [0; 16; 0]; [-16; 0; 0]; [0; -16; 0]; [0; 0; -16]]%Z))
        [[7; 8; 6]; [0; 1; 2]; [6; 8; 9]; [6; 9; 10]; [2; 1; 3]; [10; 7; 6]; [11; 8; 7]; [3; 1; 4]; [9; 8; 11]; [11; 10; 9]; [11; 7; 10]; [3; 4; 5]].

Lemma rmesh_piece r (m1 m2 : mesh Q3 N) : piece r m1 m2 -> piece r (rmesh m1) (rmesh m2).
Proof.
  assert (P : forall (m : mesh Q3 N) x, oget x (pts (rmesh m)) <> None -> oget x (pts m) <> None)
    by (intros m x; rewrite rmesh_pt; destruct (oget x (pts m)); cbn; congruence).
  intros [H1 H2 H3 H4]. constructor; [| |exact H3|].
  - intros x p. rewrite !rmesh_pt. destruct (oget x (pts m1)) as [p0|] eqn:E; [|discriminate]. intros X. injection X as <-.
    rewrite (H1 _ _ E). reflexivity.
  - intros x y Hx Hy. apply H2; apply P; assumption.
  - intros x v w Hx. apply H4. apply P. exact Hx.
Qed.
Lemma whole_by (k : N) (m1 m2 : mesh Q3 N) :
  (forall x p, In (x, p) (pts m1) -> forall v w, is_face m2 (x + k) v w -> k <= v /\ k <= w /\ is_face m1 x (v - k) (w - k)) ->
  forall x v w, oget x (pts m1) <> None -> is_face m2 (x + k) v w -> exists y z, v = y + k /\ w = z + k /\ is_face m1 x y z.
Proof.
  intros H x v w Hx F. destruct (oget x (pts m1)) as [p|] eqn:E; [|congruence]. apply oget_list in E.
  destruct (H x p E v w F) as [A [B C]]. exists (v - k), (w - k). split; [lia|]. split; [lia|exact C].
Qed.
Ltac piece_cases k := constructor;
  [intros x p H; apply oget_list in H; each_case H; vm_compute; reflexivity
  |intros x y _ _ H; lia
  |intros a b c [H|[H|H]]; each_case H; vm_compute; tauto
  |apply (whole_by k); intros x p Hx v w F; each_case Hx; (destruct F as [F|[F|F]]; each_case F; vm_compute; intuition discriminate)].
Lemma octa_piece : piece (fun x => x + 6) octa both.
Proof. piece_cases 6. Qed.
Lemma strip_piece : piece (fun x => x + 0) strip4 both.
Proof. piece_cases 0. Qed.
