(** * SpecSimil: similarity transformations.

    Independent of the filter model: only the other Spec files. *)
From Coq Require Import Reals.
From Verif Require Import Base Mesh Filters Drivers Spec SpecSub SpecGeo.

(** The linear map with matrix [M] from dimension [d1] to dimension [d2] multiplies every length by [s]: rotations,
    reflections and scalings, and embeddings into a higher dimension. *)
Definition similarity (d1 d2 : nat) (M : nat -> nat -> R) (s : R) : Prop :=
  forall x : nat -> R,
    rsum (fun j => rsum (fun i => M j i * x i) (seq 0 d1) ^ 2)%R (seq 0 d2) = (s ^ 2 * rsum (fun i => x i ^ 2) (seq 0 d1))%R.

(** The result [r2] is the image of the result [r1] under x |-> M x + t, or both fail in the same way. *)
Definition image_outcome {d1 d2 D1 D2} (M : nat -> nat -> R) (t : nat -> R)
           (r1 : res (@state (RO d1) D1)) (r2 : res (@state (RO d2) D2)) : Prop :=
  match r1, r2 with
  | Ok (f1, o1), Ok (f2, o2) => f1 = f2 /\ same_connectivity o1 o2 /\ affine_image M t o1 o2
  | Throw e1, Throw e2 => e1 = e2
  | Undef u1, Undef u2 => u1 = u2
  | OutOfFuel, OutOfFuel => True
  | _, _ => False
  end.

(** What a Loop or Butterfly filter asks of the mesh; the other filters ask nothing. *)
Definition drivable {O D} (k : kind) (m : mesh O D) : Prop :=
  k = CellF CLinear \/ k = CellF CSqrt3 \/ k = EdgeF ELinear \/
  (dense m /\ tris m <> [] /\ (is_loop k -> no_isolated m /\ no_wire m) /\ (k = CellF CLoop -> forall v, one_fan m v)).
