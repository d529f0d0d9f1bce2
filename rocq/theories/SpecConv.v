(** * SpecConv: what convergence of repeated uniform subdivision means.

    Independent of the filter model: only the mesh record and the other Spec files. *)
From Coq Require Import Reals.
From Verif Require Import Base Mesh Filters Drivers Spec SpecSub SpecGeo SpecDrive.

(** No edge is longer than [L]. *)
Definition edges_within {d D} (L : R) (m : mesh (RO d) D) : Prop :=
  forall a b, joined m a b -> (seg_length m a b <= L)%R.

(** Distance between the point [a] of [m1] and the point [b] of [m2]. *)
Definition apart {d D} (m1 : mesh (RO d) D) (a : N) (m2 : mesh (RO d) D) (b : N) : R :=
  sqrt (rsum (fun i => (crd m2 i b - crd m1 i a) * (crd m2 i b - crd m1 i a))%R (seq 0 d)).

(** One level makes every edge shorter by this factor. *)
Definition shrink (s : cscheme) : R :=
  match s with CLinear => 1 / 2 | CLoop => 7 / 8 | CButterfly => 3 / 4 | CSqrt3 => 2 / 3 end.
(** How far one level moves a point, or puts a new one, from a point of its input: this factor times
    the longest edge. *)
Definition stride (s : cscheme) : R :=
  match s with CLinear => 1 / 2 | CLoop => 5 / 8 | CButterfly => 3 / 4 | CSqrt3 => 2 / 3 end.

(** The meshes for which this holds. *)
Definition tame {d D} (s : cscheme) (m : mesh (RO d) D) : Prop :=
  match s with
  | CLinear => True
  | CLoop => no_isolated m /\ no_wire m /\ forall v, one_fan m v
  | CButterfly | CSqrt3 => closed m
  end.

(** After all further levels together: [stride] summed over the levels, stride / (1 - shrink). *)
Definition settle (s : cscheme) : R :=
  match s with CLinear => 1 | CLoop => 5 | CButterfly => 3 | CSqrt3 => 2 end.

(** [out] is what the iterative filter makes of [inp] in [n] levels without a selection; after 0
    levels there is [inp] itself. *)
Definition after {d D} (s : cscheme) (n : nat) (inp out : mesh (RO d) D) : Prop :=
  match n with
  | 0%nat => out = inp
  | _ => exists fuel f, iterative_update s n fuel [] inp = Ok (f, out)
  end.

(** The ids of [n] levels of sqrt(3) fit into 64 bits. *)
Definition fits {d D} (s : cscheme) (n : nat) (inp : mesh (RO d) D) : Prop :=
  s = CSqrt3 -> (2 * nV inp + (3 ^ Z.of_nat n - 1) * nF inp < 2 ^ 65)%Z.
