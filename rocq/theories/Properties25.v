(** * Properties25: polynomials on regular pieces (C112).

    Theorems only; the proofs are in PolyProps.v. *)
From Coq Require Import Reals Lra QArith.
From Verif Require Import Base Mesh Filters Drivers Samples Spec SpecSub SpecGeo SpecDrive SpecPoly Lists Check Geo GeoProps CheckGeo Drive DriveProps Iter Never CheckDrive CheckRenum PolyProps.

Open Scope R_scope.

(** C112.  Butterfly: where the mesh is regular, a coordinate that is a cubic polynomial of the parameters stays one:
    the new point of an edge with its two triangles and their four neighbours has the value at the middle. *)
Theorem C112_butterfly : forall (d : nat) (D : Type) k f (inp : mesh (RO d) D) fuel f' out,
  k = CellF CButterfly \/ k = EdgeF EButterfly ->
  valid inp -> dense inp -> ready k f inp -> update k fuel f inp = Ok (f', out) ->
  exists mid Ls, subdivision inp out (to_split k f inp) mid Ls /\
    forall s t q i, lattice inp s -> lattice inp t -> graph_of inp i s t (bipoly 3 q) ->
    forall a b m c e w1 w2 w3 w4, mid a b = Some m ->
      is_face inp a b c -> is_face inp b a e ->
      is_face inp c b w1 -> is_face inp a c w2 -> is_face inp b e w3 -> is_face inp e a w4 ->
      crd out i m = bipoly 3 q ((s a + s b) / 2) ((t a + t b) / 2).
Proof. exact C112_butterfly_pf. Qed.
Print Assumptions C112_butterfly.

(** C112.  Loop: a coordinate that is a quadratic polynomial of the parameters is shifted by a constant: the new point
    of an inner edge and a point with six neighbours get the value of the polynomial plus [bulge], which is the same
    for adjacent triangles. *)
Theorem C112_loop : forall (d : nat) (D : Type) k f (inp : mesh (RO d) D) fuel f' out,
  k = CellF CLoop \/ k = EdgeF ELoop ->
  valid inp -> dense inp -> ready k f inp -> update k fuel f inp = Ok (f', out) ->
  exists mid Ls, subdivision inp out (to_split k f inp) mid Ls /\
    forall s t q i, lattice inp s -> lattice inp t -> graph_of inp i s t (bipoly 2 q) ->
    (forall a b m c e, mid a b = Some m -> is_face inp a b c -> is_face inp b a e ->
       crd out i m = bipoly 2 q ((s a + s b) / 2) ((t a + t b) / 2) + bulge q s t a b c) /\
    (k = CellF CLoop -> csel f = [] -> uniform f = true -> no_isolated inp -> no_wire inp ->
     forall v w c, interior_vertex inp v -> length (ring inp v) = 6%nat -> is_face inp v w c ->
       crd out i v = bipoly 2 q (s v) (t v) + bulge q s t v w c) /\
    (forall a b c e, is_face inp a b c -> is_face inp b a e -> bulge q s t b a e = bulge q s t a b c /\ bulge q s t b c a = bulge q s t a b c).
Proof. exact C112_loop_pf. Qed.
Print Assumptions C112_loop.

(** Nine points of a grid ([grid9], PolyProps.v), the coordinates x, x^2 + x y - y^2 and x^3 - y: point 0 has six
    neighbours and the edge 0-1 all the triangles of the Butterfly rule. *)
Example C112_ex : let m := rmesh grid9 in
  valid m /\ dense m /\ no_isolated m /\ no_wire m /\ tris m <> [] /\
  lattice m (fun v => IZR (gs v)) /\ lattice m (fun v => IZR (gt v)) /\
  graph_of m 2 (fun v => IZR (gs v)) (fun v => IZR (gt v)) (bipoly 3 cub) /\
  graph_of m 1 (fun v => IZR (gs v)) (fun v => IZR (gt v)) (bipoly 2 qua) /\
  is_face m 0 1 2 /\ is_face m 1 0 3 /\ is_face m 2 1 4 /\ is_face m 0 2 5 /\ is_face m 1 3 6 /\ is_face m 3 0 7 /\
  interior_vertex m 0 /\ length (ring m 0) = 6%nat /\
  (forall k, In k [CellF CButterfly; EdgeF EButterfly; CellF CLoop; EdgeF ELoop] -> ready k new_filter m) /\
  (forall k, In k [CellF CButterfly; EdgeF EButterfly; CellF CLoop; EdgeF ELoop] ->
     exists fuel f' out, update k fuel new_filter m = Ok (f', out)).
Proof.
  intros m. assert (V : valid m) by (apply validb_ok; vm_compute; reflexivity).
  assert (NI : no_isolated m) by (apply no_isolatedb_ok; vm_compute; reflexivity). assert (NW : no_wire m) by (apply no_wireb_ok; vm_compute; reflexivity).
  split; [exact V|]. split; [apply denseb_ok; vm_compute; reflexivity|]. split; [exact NI|]. split; [exact NW|]. split; [vm_compute; discriminate|].
  split; [apply latticeb_ok; vm_compute; reflexivity|]. split; [apply latticeb_ok; vm_compute; reflexivity|].
  split; [exact grid9_cubic|]. split; [exact grid9_quadratic|].
  do 6 (split; [apply is_faceb_ok; vm_compute; reflexivity|]).
  split; [split; [vm_compute; discriminate|intros w Hw; apply (borderb_ok _ 0%N V) in Hw; vm_compute in Hw; exact Hw]|].
  split; [vm_compute; reflexivity|].
  assert (R : forall k, In k [CellF CButterfly; EdgeF EButterfly; CellF CLoop; EdgeF ELoop] -> ready k new_filter m).
  { intros k [<-|[<-|[<-|[<-|[]]]]]; apply readyb_ok; vm_compute; reflexivity. }
  split; [exact R|]. intros k Hk. apply run_exists; [exact V| |exact (R k Hk)]. apply denseb_ok; vm_compute; reflexivity.
Qed.
