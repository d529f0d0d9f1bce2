(** * SpecRoot3: what sqrt(3) subdivision of a mesh is.

    Written against the mesh record, Spec.v and SpecSub.v only. *)
From Coq Require Import Sorted.
From Verif Require Import Base Mesh Filters Spec SpecSub.

Section SPECROOT3.
Context {O : Ops} {D : Type}.
Notation mesh := (mesh O D).
Implicit Types (inp out : mesh) (cen : tri -> option N).

(** What the caller provides besides a valid mesh with contiguous ids: existing cells, each
    selected once, and ids that fit into 64 bits (the largest identifier is a sentinel in
    itkSquareThreeTriangleCellSubdivisionQuadEdgeMeshFilter.hxx:164). *)
Definition ready3 (f : fstate) inp : Prop :=
  existing inp (csel f) /\ NoDup (csel f) /\ (nV inp + nF inp < 2 ^ 64)%Z.

(** The oriented edge (a, b) has a face with a centre on it. *)
Definition centred inp cen (a b h : N) : Prop :=
  exists u, In u (tris inp) /\ In (a, b) (tdirs u) /\ cen u = Some h.

(** [w] is made of the face [t]: kept as it is; the triangle between an edge of [t] that it
    shares with no subdivided face and the centre of [t]; or the triangle between the centres of
    [t] and of a subdivided neighbour and one end of the common edge. *)
Definition kept3 cen (t w : tri) : Prop := cen t = None /\ w = t.
Definition side3 inp cen (t w : tri) : Prop := exists g a b,
  cen t = Some g /\ In (a, b) (tdirs t) /\ (forall h, ~ centred inp cen b a h) /\ w = (a, b, g).
Definition flip3 inp cen (t w : tri) : Prop := exists g h a b,
  cen t = Some g /\ In (a, b) (tdirs t) /\ centred inp cen b a h /\ w = (g, h, b).

(** [out] is the sqrt(3) subdivision of the faces [S] of [inp], [cen] being their centres. *)
Record root3_subdivision inp out (S : tri -> Prop) cen : Prop := {
  r3_dom : forall t, In t (tris inp) -> cen t <> None <-> S t;
  r3_inj : forall t u g, In t (tris inp) -> In u (tris inp) -> cen t = Some g -> cen u = Some g -> t = u;
  r3_old : forall id, oget id (pts inp) <> None -> oget id (pts out) <> None;
  r3_new : forall id, (exists t, In t (tris inp) /\ cen t = Some id) <->
                      (oget id (pts inp) = None /\ oget id (pts out) <> None);
  r3_faces : forall w, In w (tris out) <-> exists t, In t (tris inp) /\
                      (kept3 cen t w \/ side3 inp cen t w \/ flip3 inp cen t w);
  r3_nodup : NoDup (tris out);
  r3_nowire : no_wire out
}.

(** The cell a new triangle takes its data from: of the two cells a flipped edge belongs to, the
    one with the smaller id. *)
Definition source3 inp cen (pid : N) (w : tri) : Prop := exists t, In (pid, t) (faces inp) /\
  (kept3 cen t w \/ side3 inp cen t w \/
   exists qid u g h a b, In (qid, u) (faces inp) /\ cen t = Some g /\ cen u = Some h /\
     In (a, b) (tdirs t) /\ In (b, a) (tdirs u) /\ pid <= qid /\ (w = (g, h, b) \/ w = (h, g, a))).

(** A triangle with at least one new point. *)
Definition has_new inp (w : tri) : Prop := exists x, In x (tverts w) /\ oget x (pts inp) = None.

(** One adaptive level: the selected faces are subdivided, [sel'] lists, ascending, the ids of the
    faces with a new corner. *)
Definition level3 (sel : list N) inp (sel' : list N) out : Prop :=
  exists cen, root3_subdivision inp out (fun t => exists i, In i sel /\ In (i, t) (faces inp)) cen /\
    StronglySorted N.lt sel' /\
    forall id, In id sel' <-> exists w, In (id, w) (faces out) /\ has_new inp w.
Inductive levels3 : nat -> list N -> mesh -> list N -> mesh -> Prop :=
| levels3_0 sel m : levels3 0 sel m sel m
| levels3_S n sel m sel1 m1 sel2 m2 : level3 sel m sel1 m1 -> levels3 n sel1 m1 sel2 m2 -> levels3 (S n) sel m sel2 m2.

(** [ready] for all seven filters. *)
Definition ready_any (k : kind) (f : fstate) inp : Prop :=
  match k with CellF CSqrt3 => ready3 f inp | _ => ready k f inp end.

(** [out] is what [n] successive Update() calls, each of any of the seven filters with any
    admissible selection, make of [inp]. *)
Inductive chained_any inp : nat -> mesh -> Prop :=
| chained_any_0 : chained_any inp 0 inp
| chained_any_S n m k f fuel f' out :
    chained_any inp n m -> ready_any k f m -> update k fuel f m = Ok (f', out) -> chained_any inp (S n) out.

End SPECROOT3.
