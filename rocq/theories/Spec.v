(** * Spec: what a user of the filters means by a valid triangle mesh, its
    edges, borders and Euler characteristic.

    Written against the mesh record only; no helper of the filter model is
    used.  (From Mesh.v only the record, [ring] = the list of neighbours of a
    point, and plain container lookups.) *)
From Coq Require Import Sorted.
From Verif Require Import Base Mesh.

(** ** Triangles *)
Definition tri : Type := N * N * N.

(** The three oriented edges, and the three corners (previous, point, next). *)
Definition tdirs (t : tri) : list (N * N) :=
  let '(a, b, c) := t in [(a, b); (b, c); (c, a)].
Definition tcorners (t : tri) : list (N * N * N) :=
  let '(a, b, c) := t in [(c, a, b); (a, b, c); (b, c, a)].
Definition tverts (t : tri) : list N := let '(a, b, c) := t in [a; b; c].

Definition dirs (T : list tri) : list (N * N) := flat_map tdirs T.
Definition corners (T : list tri) : list (N * N * N) := flat_map tcorners T.

(** The three points are pairwise different. *)
Definition proper (t : tri) : Prop :=
  let '(a, b, c) := t in a <> b /\ b <> c /\ c <> a.

(** Same three points. *)
Definition same_verts (t u : tri) : Prop := forall x, In x (tverts t) <-> In x (tverts u).

(** [y] comes immediately after [x] in the cyclic sequence [r]. *)
Definition cyc {A} (r : list A) (x y : A) : Prop :=
  (exists u v, r = u ++ x :: y :: v) \/
  ((exists u, r = u ++ [x]) /\ (exists v, r = y :: v)).

Definition undirected_eq (e f : N * N) : Prop := e = f \/ e = (snd f, fst f).

Section SPEC.
Context {O : Ops} {D : Type}.
Notation mesh := (mesh O D).

(** The triangles of a mesh, in container order, with their ids. *)
Definition cell_tri (c : option cell) : list tri :=
  match c with Some (Poly [a; b; c]) => [(a, b, c)] | _ => [] end.
Definition faces (m : mesh) : list (N * tri) :=
  match cells m with
  | None => []
  | Some cs => flat_map (fun ic => map (pair (fst ic)) (cell_tri (snd ic))) cs
  end.
Definition tris (m : mesh) : list tri := map snd (faces m).

Definition all_triangles (m : mesh) : Prop :=
  exists cs, cells m = Some cs /\
    forall id c, In (id, c) cs -> exists x y z, c = Some (Poly [x; y; z]).

Definition sorted_keys {A} (l : omap A) : Prop := StronglySorted N.lt (okeys l).

(** [a] and [b] are joined by an edge. *)
Definition joined (m : mesh) (a b : N) : Prop := In b (ring m a).

(** Point ids are 0 .. V-1. *)
Definition dense (m : mesh) : Prop := forall id, oget id (pts m) <> None <-> id < osize (pts m).

(** A sound triangle mesh.  Wire edges, isolated points, several components,
    borders and points where several fans meet are all allowed. *)
Record sound (m : mesh) : Prop := {
  v_pts_sorted : sorted_keys (pts m);
  v_pts_dim : forall id p, oget id (pts m) = Some p -> length p = kdim O;
  v_tris : all_triangles m;
  v_cells_sorted : forall cs, cells m = Some cs -> sorted_keys cs;
  v_proper : forall t, In t (tris m) -> proper t;
  v_verts : forall t x, In t (tris m) -> In x (tverts t) -> oget x (pts m) <> None;
  (** every oriented edge has at most one face *)
  v_dirs : NoDup (dirs (tris m));
  (** the neighbours of each point: no repetition, no loops, symmetric, existing *)
  v_ring_nodup : forall b, NoDup (ring m b);
  v_ring_irr : forall a, ~ joined m a a;
  v_ring_sym : forall a b, joined m a b -> joined m b a;
  v_ring_pts : forall a b, joined m a b -> oget b (pts m) <> None;
  (** faces use edges, and turn around each point in ring order *)
  v_face_edges : forall a b, In (a, b) (dirs (tris m)) -> joined m a b;
  v_corners : forall p b n, In (p, b, n) (corners (tris m)) -> cyc (ring m b) n p;
  (** the edge container lists every edge exactly once *)
  v_ecells : exists es, ecells m = Some es /\ sorted_keys es /\
     (forall id o, In (id, o) es -> exists a b, o = Some (a, b) /\ joined m a b) /\
     (forall a b, joined m a b -> exists id e, In (id, Some e) es /\ undirected_eq e (a, b)) /\
     (forall id1 id2 e1 e2, In (id1, Some e1) es -> In (id2, Some e2) es ->
        undirected_eq e1 e2 -> id1 = id2)
}.

(** A valid triangle mesh: in addition no two faces on the same three points. *)
Record valid (m : mesh) : Prop := {
  v_sound :> sound m;
  v_notwin : forall t u, In t (tris m) -> In u (tris m) -> same_verts t u -> t = u
}.

(** ** Counting *)
Definition nV (m : mesh) : Z := Z.of_nat (length (pts m)).
Definition nF (m : mesh) : Z := Z.of_nat (length (match cells m with Some cs => cs | None => [] end)).
Definition nE (m : mesh) : Z := Z.of_nat (length (match ecells m with Some es => es | None => [] end)).
Definition euler (m : mesh) : Z := (nV m - nE m + nF m)%Z.

(** An edge with a face on exactly one side / on both sides / on no side. *)
Definition border_edge (m : mesh) (a b : N) : Prop :=
  joined m a b /\ ((In (a, b) (dirs (tris m)) /\ ~ In (b, a) (dirs (tris m))) \/
                   (In (b, a) (dirs (tris m)) /\ ~ In (a, b) (dirs (tris m)))).
Definition interior_edge (m : mesh) (a b : N) : Prop :=
  In (a, b) (dirs (tris m)) /\ In (b, a) (dirs (tris m)).
Definition wire_edge (m : mesh) (a b : N) : Prop :=
  joined m a b /\ ~ In (a, b) (dirs (tris m)) /\ ~ In (b, a) (dirs (tris m)).
Definition closed (m : mesh) : Prop :=
  forall a b, In (a, b) (dirs (tris m)) -> In (b, a) (dirs (tris m)).

End SPEC.

(** ** Termination *)

(** The run completes with result [r]: from some fuel on, always [r]. *)
Definition completes {A} (run : nat -> res A) (r : res A) : Prop :=
  r <> OutOfFuel /\ exists n, forall fuel, (n <= fuel)%nat -> run fuel = r.
Definition diverges {A} (run : nat -> res A) : Prop :=
  forall fuel, run fuel = OutOfFuel.

(** The mesh without its non-triangle cells. *)
Definition is_tri_cell (c : option cell) : bool := match cell_tri c with [] => false | _ => true end.
Definition only_triangles {O D} (m : mesh O D) : mesh O D :=
  set_cells m (option_map (filter (fun ic => is_tri_cell (snd ic))) (cells m)).
