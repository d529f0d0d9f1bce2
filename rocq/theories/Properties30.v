(** * Properties30: order of the cells the sqrt(3) filter makes (C118).

    Theorems only; the proofs are in Num3Props.v. *)
From Verif Require Import Base Mesh Filters Drivers Samples Spec SpecSub SpecRoot3 SpecNum3 Lists Check CheckRoot3 Num3Props.

(** C118.  Cells are made cell by cell, edge by edge from the first point on; the two triangles at an edge between two
    subdivided cells are made with the cell that comes first. *)
Theorem C118 : forall (O : Ops) (D : Type) (f : fstate) (inp : mesh O D) fuel f' out,
  valid inp -> dense inp -> ready3 f inp -> update (CellF CSqrt3) fuel f inp = Ok (f', out) ->
  exists cen Ls, root3_subdivision inp out (selected inp (csel f)) cen /\
    tris out = concat Ls /\ length Ls = length (tris inp) /\
    (forall n t L, nth_error (tris inp) n = Some t -> nth_error Ls n = Some L -> children3 inp cen n t L) /\
    (forall id w, In (id, w) (faces out) <-> nth_error (tris out) (N.to_nat id) = Some w).
Proof. exact C118_pf. Qed.
Print Assumptions C118.

(** Cells 2 and 1 of the strip get the centres 6 and 7; cell 1 makes the two triangles at the common edge {1, 3}. *)
Example C118_ex :
  valid strip4 /\ dense strip4 /\ ready3 (sel [2; 1]) strip4 /\ tris strip4 = [(0, 1, 2); (2, 1, 3); (3, 1, 4); (3, 4, 5)] /\
  match update (CellF CSqrt3) 100 (sel [2; 1]) strip4 with
  | Ok (f', out) => tris out = concat [[(0, 1, 2)]; [(2, 1, 7); (7, 6, 3); (6, 7, 1); (3, 2, 7)]; [(1, 4, 6); (4, 3, 6)]; [(3, 4, 5)]]
  | _ => False end.
Proof. split; [apply validb_ok; vm_compute; reflexivity|]. split; [apply denseb_ok; vm_compute; reflexivity|]. split; [apply ready3b_ok; vm_compute; reflexivity|]. vm_compute. split; reflexivity. Qed.
