(** * CheckTurn: surfaces turned inside out, for the examples of C121. *)
From Coq Require Import Reals QArith.
From Verif Require Import Base Mesh Filters Drivers Samples Spec SpecSub SpecGeo SpecDrive SpecConv SpecSame SpecTurn Lists Check CheckGeo CheckDrive Drive DriveProps Iter Root3Props Conv CheckSame.

Open Scope N_scope.

(** The octahedron inside out, with its points in the opposite order and its triangles in another order. *)
Definition octat : mesh Q3 N :=
  build (number [zpt [0; 0; -16]%Z; zpt [0; -16; 0]%Z; zpt [-16; 0; 0]%Z; zpt [0; 16; 0]%Z; zpt [16; 0; 0]%Z; zpt [0; 0; 16]%Z])
        [[0; 1; 4]; [4; 5; 3]; [3; 0; 4]; [5; 2; 3]; [1; 2; 5]; [0; 3; 2]; [1; 0; 2]; [1; 5; 4]].
(** One triangle, the other way round but started with the same point. *)
Definition tri1t : mesh Q3 N := build (number [zpt [0; 0; 0]%Z; zpt [16; 0; 0]%Z; zpt [0; 16; 0]%Z]) [[0; 2; 1]].

Lemma rmesh_turned r r' (m1 m2 : mesh Q3 N) : turned r r' m1 m2 -> turned r r' (rmesh m1) (rmesh m2).
Proof.
  intros [H1 H2 H3 H4]. constructor; [| |exact H3|exact H4].
  - intros x p. rewrite !rmesh_pt. destruct (oget x (pts m1)) as [p0|] eqn:E; [|discriminate]. intros X. injection X as <-.
    destruct (H1 _ _ E) as [E1 E2]. rewrite E1. auto.
  - intros x p. rewrite !rmesh_pt. destruct (oget x (pts m2)) as [p0|] eqn:E; [|discriminate]. intros X. injection X as <-.
    destruct (H2 _ _ E) as [E1 E2]. rewrite E1. auto.
Qed.
Lemma octa_turned : turned flip5 flip5 octa octat.
Proof. by_cases. Qed.
Lemma tri1_turned : turned (fun x => x) (fun x => x) tri1 tri1t.
Proof. by_cases. Qed.
