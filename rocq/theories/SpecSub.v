(** * SpecSub: what it means that one mesh is a subdivision of another.

    Written against the mesh record and Spec.v only.  The only names taken from
    the filter model are the user-visible members of the filter object (the two
    selection lists) and the names of the schemes. *)
From Verif Require Import Base Mesh Filters Spec.

(** ** Selections *)
Definition edge_of (t : tri) (a b : N) : Prop := In (a, b) (tdirs t) \/ In (b, a) (tdirs t).

Section SPECSUB.
Context {O : Ops} {D : Type}.
Notation mesh := (mesh O D).

(** Every selected id is the id of a cell. *)
Definition existing (m : mesh) (sel : list N) : Prop :=
  forall i, In i sel -> exists t, In (i, t) (faces m).

(** The triangles a selection stands for: an empty selection means all. *)
Definition selected (m : mesh) (sel : list N) (t : tri) : Prop :=
  (sel = [] /\ In t (tris m)) \/ exists i, In i sel /\ In (i, t) (faces m).

Definition no_isolated (m : mesh) : Prop :=
  forall id, oget id (pts m) <> None -> ring m id <> [].
Definition no_wire (m : mesh) : Prop :=
  forall a b, joined m a b -> In (a, b) (dirs (tris m)) \/ In (b, a) (dirs (tris m)).

(** The non-null entries of an edge list are edges of the mesh, each listed once. *)
Definition edges_listed (m : mesh) (l : list (option dedge)) : Prop :=
  forall a b, In (Some (a, b)) l -> joined m a b.
Definition face_edges_listed (m : mesh) (l : list (option dedge)) : Prop :=
  forall a b, In (Some (a, b)) l -> In (a, b) (dirs (tris m)) \/ In (b, a) (dirs (tris m)).
Definition listed_once (l : list (option dedge)) : Prop :=
  forall i j e f, nth_error l i = Some (Some e) -> nth_error l j = Some (Some f) ->
                  undirected_eq e f -> i = j.

(** Filters that replace a triangle according to its split edges (all but sqrt(3)). *)
Definition splits_faces (k : kind) : Prop := k <> CellF CSqrt3.
Definition is_loop (k : kind) : Prop := k = CellF CLoop \/ k = EdgeF ELoop.

(** What the caller has to provide besides a valid mesh with contiguous ids. *)
Definition ready (k : kind) (f : fstate) (m : mesh) : Prop :=
  splits_faces k /\ (is_loop k -> no_isolated m) /\
  match k with
  | CellF _ => existing m (csel f)
  | EdgeF s => (esel f = [] -> s = ELoop -> no_wire m) /\
               (esel f <> [] -> edges_listed m (esel f) /\ listed_once (esel f) /\
                                (s = ELoop -> face_edges_listed m (esel f)))
  end.

(** Two faces on the same three points. *)
Definition twins (m : mesh) (t u : tri) : Prop := In t (tris m) /\ In u (tris m) /\ t <> u /\ same_verts t u.

(** The edges that are to be split. *)
Definition to_split (k : kind) (f : fstate) (m : mesh) (a b : N) : Prop :=
  match k with
  | CellF _ => exists t, selected m (csel f) t /\ edge_of t a b
  | EdgeF _ => (esel f = [] /\ joined m a b) \/ In (Some (a, b)) (esel f) \/ In (Some (b, a)) (esel f)
  end.

(** ** Refinement of one triangle *)
Definition is_some {A} (o : option A) : bool := match o with Some _ => true | None => false end.

(** Number of edges of [t] that carry a new point. *)
Definition nsplit (mid : N -> N -> option N) (t : tri) : nat :=
  length (filter (fun e => is_some (mid (fst e) (snd e))) (tdirs t)).

(** The oriented edge (x, y) is the edge (a, b), or one of its two halves if it is split. *)
Definition part_of (mid : N -> N -> option N) (a b x y : N) : Prop :=
  match mid a b with
  | None => x = a /\ y = b
  | Some m => (x = a /\ y = m) \/ (x = m /\ y = b)
  end.

(** [L] is a triangulation of [t] with its new edge points: one triangle more than split
    edges, on the corners and the edge points of [t] only, coherently oriented, glued along
    inner edges, and with exactly the (halved) edges of [t] as its border. *)
Record refines (mid : N -> N -> option N) (t : tri) (L : list tri) : Prop := {
  rf_count : length L = S (nsplit mid t);
  rf_proper : forall u, In u L -> proper u;
  rf_verts : forall u x, In u L -> In x (tverts u) ->
     In x (tverts t) \/ exists a b, In (a, b) (tdirs t) /\ mid a b = Some x;
  rf_used : forall x, In x (tverts t) \/ (exists a b, In (a, b) (tdirs t) /\ mid a b = Some x) ->
     exists u, In u L /\ In x (tverts u);
  rf_dirs : NoDup (dirs L);
  rf_border : forall x y, (In (x, y) (dirs L) /\ ~ In (y, x) (dirs L)) <->
     exists a b, In (a, b) (tdirs t) /\ part_of mid a b x y;
  (** no child still uses a split edge as a whole *)
  rf_cut : forall a b, In (a, b) (tdirs t) -> mid a b <> None -> ~ In (a, b) (dirs L) /\ ~ In (b, a) (dirs L);
  (** a triangle without split edges is kept as it is *)
  rf_copy : nsplit mid t = 0%nat -> L = [t];
  (** three split edges: the corner triangles and the middle one *)
  rf_four : forall a b c x y z, t = (a, b, c) -> mid a b = Some x -> mid b c = Some y -> mid c a = Some z ->
     forall u, In u L <-> In u [(a, x, z); (x, b, y); (y, c, z); (x, y, z)]
}.

(** ** Subdivision of a mesh *)

(** [out] has one new point [mid a b] for every edge {a, b} in [S], each new id is used for one
    edge; the faces of [out] are those of [inp], refined one after the other: [Ls] lists the
    children of the first, second, ... face of [inp]. *)
Record subdivision (inp out : mesh) (S : N -> N -> Prop) (mid : N -> N -> option N)
       (Ls : list (list tri)) : Prop := {
  sd_sym : forall a b, mid a b = mid b a;
  sd_dom : forall a b, mid a b <> None <-> S a b;
  sd_inj : forall a b c d m, mid a b = Some m -> mid c d = Some m -> undirected_eq (a, b) (c, d);
  sd_old : forall id, oget id (pts inp) <> None -> oget id (pts out) <> None;
  sd_new : forall id, (exists a b, mid a b = Some id) <->
                      (oget id (pts inp) = None /\ oget id (pts out) <> None);
  sd_tris : tris out = concat Ls;
  sd_refines : Forall2 (refines mid) (tris inp) Ls;
  sd_nowire : no_wire out
}.

(** [u] is a child of the face [t] with id [pid]. *)
Definition child_of (inp : mesh) (Ls : list (list tri)) (pid : N) (t u : tri) : Prop :=
  exists L, In ((pid, t), L) (combine (faces inp) Ls) /\ In u L.

(** The cell data stored for a cell id, if any. *)
Definition cell_datum (m : mesh) (id : N) : option D :=
  match cdata m with Some d => oget id d | None => None end.

(** Oriented border edges, and their number. *)
Definition border_dir (m : mesh) (a b : N) : Prop :=
  In (a, b) (dirs (tris m)) /\ ~ In (b, a) (dirs (tris m)).
Definition dir_eqb (e f : N * N) : bool := N.eqb (fst e) (fst f) && N.eqb (snd e) (snd f).
Definition nB (m : mesh) : Z :=
  Z.of_nat (length (filter (fun d => negb (existsb (dir_eqb (snd d, fst d)) (dirs (tris m)))) (dirs (tris m)))).

(** [out] is what [n] successive Update() calls make of [inp]: each of them of any face-split
    filter object with any admissible selection, on the previous output. *)
Inductive chained (inp : mesh) : nat -> mesh -> Prop :=
| chained_0 : chained inp 0 inp
| chained_S n m k f fuel f' out :
    chained inp n m -> ready k f m -> update k fuel f m = Ok (f', out) -> chained inp (S n) out.

(** A face of [m], read from any of its corners. *)
Definition is_face (m : mesh) (a b c : N) : Prop :=
  In (a, b, c) (tris m) \/ In (b, c, a) (tris m) \/ In (c, a, b) (tris m).

End SPECSUB.
