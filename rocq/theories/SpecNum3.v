(** * SpecNum3: the order in which the sqrt(3) filter makes its cells.

    Independent of the filter model: only the mesh record and the other Spec files. *)
From Verif Require Import Base Mesh Filters Spec SpecSub SpecRoot3.

Section SPECNUM3.
Context {O : Ops} {D : Type}.
Implicit Types inp out : mesh O D.

(** What the edge [e] of the [n]-th cell, with centre [g], gives: one triangle if the cell beyond it has no centre (or there
    is none); two if that cell has a centre and a larger position; nothing if it has a centre and a smaller position. *)
Definition made3 inp (cen : tri -> option N) (n : nat) (g : N) (e : dedge) (L : list tri) : Prop :=
  let '(a, b) := e in
  ((forall h, ~ centred inp cen b a h) /\ L = [(a, b, g)]) \/
  (exists j u h, nth_error (tris inp) j = Some u /\ In (b, a) (tdirs u) /\ cen u = Some h /\
     ((n < j)%nat /\ L = [(g, h, b); (h, g, a)] \/ (j < n)%nat /\ L = [])).

(** What the [n]-th cell gives: itself, or what its three edges give, from its first point on. *)
Definition children3 inp (cen : tri -> option N) (n : nat) (t : tri) (L : list tri) : Prop :=
  (cen t = None /\ L = [t]) \/
  let '(a, b, c) := t in
  exists g L1 L2 L3, cen t = Some g /\ made3 inp cen n g (a, b) L1 /\ made3 inp cen n g (b, c) L2 /\ made3 inp cen n g (c, a) L3 /\
    L = L1 ++ L2 ++ L3.

End SPECNUM3.
