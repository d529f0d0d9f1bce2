(** * SpecNum: the order in which the filters number new points and new cells.

    Independent of the filter model: only the mesh record and the other Spec files. *)
From Verif Require Import Base Mesh Filters Drivers Spec SpecSub.

Section SPECNUM.
Context {O : Ops} {D : Type}.
Implicit Types m inp out : mesh O D.

(** The directed edges a cell-based filter comes across: those of the listed cells in the order of the list, or of all
    cells in the order of their ids; within a cell from its first point on. *)
Definition cell_walk m (sel : list N) : list dedge :=
  match sel with
  | [] => dirs (tris m)
  | _ => flat_map (fun i => match oget i (faces m) with Some t => tdirs t | None => [] end) sel
  end.

(** The edges an edge-based filter comes across: those of the list, or all edges in the order of the edge container. *)
Definition edge_walk m (sel : list (option dedge)) : list dedge :=
  flat_map (fun o => match o with Some e => [e] | None => [] end)
    (match sel with [] => match ecells m with Some es => map snd es | None => [] end | _ => sel end).

Definition walk (k : kind) (f : fstate) m : list dedge :=
  match k with CellF _ => cell_walk m (csel f) | EdgeF _ => edge_walk m (esel f) end.

(** The edge {a, b} occurs in [W] at position [n], and not before. *)
Definition first_at (W : list dedge) (n : nat) (a b : N) : Prop :=
  (exists e, nth_error W n = Some e /\ undirected_eq e (a, b)) /\
  forall j e, (j < n)%nat -> nth_error W j = Some e -> ~ undirected_eq e (a, b).

(** The children of the triangle (a, b, c) in the order of their ids; [mab], [mbc], [mca] are the new points of its
    edges. *)
Definition children (t : tri) (mab mbc mca : option N) : list tri :=
  let '(a, b, c) := t in
  match mab, mbc, mca with
  | None, None, None => [(a, b, c)]
  | Some x, None, None => [(x, b, c); (x, c, a)]
  | None, Some y, None => [(y, c, a); (y, a, b)]
  | None, None, Some z => [(z, a, b); (z, b, c)]
  | Some x, Some y, None => [(c, a, x); (c, x, y); (x, b, y)]
  | Some x, None, Some z => [(b, c, x); (c, z, x); (z, a, x)]
  | None, Some y, Some z => [(a, b, y); (a, y, z); (y, c, z)]
  | Some x, Some y, Some z => [(a, x, z); (x, b, y); (y, c, z); (x, y, z)]
  end.

End SPECNUM.
