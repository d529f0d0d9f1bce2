(** * Properties2: unusual inputs, repeated use, independence of the coordinates.

    Theorems only; proofs are in Any.v, Robust.v, Hang.v and Conn.v. *)
From Coq Require Import Sorted.
From Verif Require Import Base Mesh Filters Drivers Samples Spec SpecSub Check Any Robust Hang Conn.

(** A triangle and a quadrilateral that share an edge. *)
Definition quad : mesh Q3 N :=
  build (number [zpt [0; 0; 0]%Z; zpt [16; 0; 0]%Z; zpt [16; 16; 0]%Z; zpt [0; 16; 0]%Z; zpt [32; 0; 0]%Z])
        [[1; 4; 2]; [0; 1; 2; 3]].

(** C27.  If one cell of the mesh, valid or not, is not a triangle, no filter ever delivers an
    output mesh and the cell-area criterion never delivers a list. *)
Theorem C27_never_completes : forall (O : Ops) (D : Type) k f (inp : mesh O D) cs id c,
  cells inp = Some cs -> In (id, c) cs -> cell_tri c = [] ->
  (forall fuel st, update k fuel f inp <> Ok st) /\
  (forall maxarea fuel old s, cell_area_criterion maxarea fuel inp old <> Ok s).
Proof. exact C27_never_completes_pf. Qed.
Print Assumptions C27_never_completes.

Example C27_never_completes_ex :
  exists cs, cells quad = Some cs /\ In (1, Some (Poly [0; 1; 2; 3])) cs /\ cell_tri (Some (Poly [0; 1; 2; 3])) = [].
Proof. eexists. split; [vm_compute; reflexivity|]. split; [cbn; auto|reflexivity]. Qed.

(** C27, refuted part for every mesh: the cell-area criterion does not end as soon as one cell is
    not a triangle (the loop skips the step to the next cell). *)
Theorem C27_area_criterion_hangs : forall (O : Ops) (D : Type) (inp : mesh O D) maxarea old cs id c,
  cells inp = Some cs -> In (id, c) cs -> cell_tri c = [] ->
  (forall t x, In t (tris inp) -> In x (tverts t) -> oget x (pts inp) <> None) ->
  diverges (fun fuel => cell_area_criterion maxarea fuel inp old).
Proof. exact C27_area_criterion_hangs_pf. Qed.
Print Assumptions C27_area_criterion_hangs.

Example C27_area_criterion_hangs_ex :
  exists cs, cells quad = Some cs /\ In (1, Some (Poly [0; 1; 2; 3])) cs /\ cell_tri (Some (Poly [0; 1; 2; 3])) = [] /\
  forall t x, In t (tris quad) -> In x (tverts t) -> oget x (pts quad) <> None.
Proof.
  eexists. split; [vm_compute; reflexivity|]. split; [cbn; auto|]. split; [reflexivity|].
  intros t x Ht. assert (E : tris quad = [(1, 4, 2)]) by (vm_compute; reflexivity). rewrite E in Ht.
  destruct Ht as [<-|[]]. cbn [tverts]. intros [<-|[<-|[<-|[]]]]; vm_compute; discriminate.
Qed.

(** C27, refuted part for every mesh: adaptive cell-based subdivision and every edge-based
    subdivision never end if one cell is not a triangle (even one far away from the selection).
    [only_triangles inp] is the mesh without the cells that are not triangles. *)
Theorem C27_hangs : forall (O : Ops) (D : Type) k f (inp : mesh O D) cs id c,
  cells inp = Some cs -> sorted_keys cs -> In (id, c) cs -> cell_tri c = [] ->
  valid (only_triangles inp) -> dense (only_triangles inp) -> ready k f (only_triangles inp) ->
  match k with CellF _ => csel f <> [] | EdgeF _ => True end ->
  diverges (fun fuel => update k fuel f inp).
Proof. exact C27_hangs_pf. Qed.
Print Assumptions C27_hangs.

Example C27_hangs_ex :
  exists cs, cells quad = Some cs /\ sorted_keys cs /\ In (1, Some (Poly [0; 1; 2; 3])) cs /\
  cell_tri (Some (Poly [0; 1; 2; 3])) = [] /\
  valid (only_triangles quad) /\ dense (only_triangles quad) /\
  ready (CellF CLoop) (sel [0]) (only_triangles quad) /\ tris (only_triangles quad) <> [] /\ csel (sel [0]) <> [].
Proof.
  eexists. split; [vm_compute; reflexivity|]. split; [repeat (constructor; try lia)|].
  split; [cbn; auto|]. split; [reflexivity|]. ex_good. discriminate.
Qed.

(** C27: uniform cell-based subdivision reports the cell by an exception. *)
Theorem C27_uniform_throws : forall (O : Ops) (D : Type) s f (inp : mesh O D) cs id c,
  cells inp = Some cs -> sorted_keys cs -> In (id, c) cs -> cell_tri c = [] ->
  (forall id x, In (id, x) cs -> x <> None) ->
  valid (only_triangles inp) -> dense (only_triangles inp) -> (s = CLoop -> no_isolated inp) ->
  csel f = [] ->
  completes (fun fuel => update (CellF s) fuel f inp) (Throw NotTriangle).
Proof. exact C27_uniform_throws_pf. Qed.
Print Assumptions C27_uniform_throws.

Example C27_uniform_throws_ex :
  exists cs, cells quad = Some cs /\ sorted_keys cs /\ In (1, Some (Poly [0; 1; 2; 3])) cs /\
  cell_tri (Some (Poly [0; 1; 2; 3])) = [] /\ (forall id x, In (id, x) cs -> x <> None) /\ no_isolated quad /\
  valid (only_triangles quad) /\ dense (only_triangles quad) /\
  ready (CellF CLoop) new_filter (only_triangles quad) /\ tris (only_triangles quad) <> [] /\
  update (CellF CLoop) 100 new_filter quad = Throw NotTriangle.
Proof.
  eexists. split; [vm_compute; reflexivity|]. split; [repeat (constructor; try lia)|].
  split; [cbn; auto|]. split; [reflexivity|].
  split; [intros id x [H|[H|[]]]; (inversion H; subst); discriminate|].
  split; [apply no_isolatedb_ok; vm_compute; reflexivity|].
  ex_good. vm_compute. reflexivity.
Qed.

(** C28.  A point without edges is carried over, unmoved and still without edges, by every
    face-split filter except the Loop ones (see the next theorem; the Loop edge filter is excluded
    by [ready], the Loop cell filter explicitly). *)
Theorem C28_isolated_kept : forall (O : Ops) (D : Type) k f (inp : mesh O D) fuel f' out id p,
  valid inp -> dense inp -> ready k f inp -> tris inp <> [] -> k <> CellF CLoop ->
  oget id (pts inp) = Some p -> ring inp id = [] ->
  update k fuel f inp = Ok (f', out) ->
  oget id (pts out) = Some p /\ ring out id = [].
Proof. exact C28_isolated_kept_pf. Qed.
Print Assumptions C28_isolated_kept.

Example C28_isolated_kept_ex :
  valid mixed /\ dense mixed /\ ready (CellF CButterfly) (sel [1]) mixed /\ tris mixed <> [] /\
  exists f' out, update (CellF CButterfly) 100 (sel [1]) mixed = Ok (f', out) /\
    oget 4 (pts mixed) = Some (zpt [9; 9; 9]%Z) /\ ring mixed 4 = [] /\ nF out = 6%Z.
Proof. ex_run. Qed.

(** C28, refuted part for every valid mesh: with an isolated point the Loop edge filter always,
    and the Loop cell filter in uniform use (or if the *cell* id of that number is selected),
    dereference a null edge. *)
Theorem C28_loop_undefined : forall (O : Ops) (D : Type) f (inp : mesh O D) fuel id,
  valid inp -> oget id (pts inp) <> None -> ring inp id = [] ->
  (uniform f = true \/ existing inp (csel f) /\ In id (csel f) -> update (CellF CLoop) fuel f inp = Undef NullDeref) /\
  update (EdgeF ELoop) fuel f inp = Undef NullDeref.
Proof. exact C28_loop_undefined_pf. Qed.
Print Assumptions C28_loop_undefined.

Example C28_loop_undefined_ex :
  valid mixed /\ oget 4 (pts mixed) <> None /\ ring mixed 4 = [] /\ uniform new_filter = true /\
  update (CellF CLoop) 100 new_filter mixed = Undef NullDeref.
Proof. split; [apply validb_ok; vm_compute; reflexivity|]. vm_compute. repeat split; discriminate. Qed.

(** C29, refuted for every valid mesh: a selected id that is no cell id makes all cell-based
    filters (sqrt(3) included) read a missing element. *)
Theorem C29_unknown_id_undefined : forall (O : Ops) (D : Type) s f (inp : mesh O D) fuel i,
  valid inp -> dense inp -> (s = CLoop -> no_isolated inp) ->
  In i (csel f) -> (forall t, ~ In (i, t) (faces inp)) ->
  update (CellF s) fuel f inp = Undef MissingKey.
Proof. exact C29_unknown_id_undefined_pf. Qed.
Print Assumptions C29_unknown_id_undefined.

Example C29_unknown_id_undefined_ex :
  valid tri2 /\ dense tri2 /\ no_isolated tri2 /\ In 7 (csel (sel [0; 7])) /\ (forall t, ~ In (7, t) (faces tri2)) /\
  update (CellF CSqrt3) 100 (sel [0; 7]) tri2 = Undef MissingKey.
Proof.
  split; [apply validb_ok; vm_compute; reflexivity|]. split; [apply denseb_ok; vm_compute; reflexivity|].
  split; [apply no_isolatedb_ok; vm_compute; reflexivity|]. split; [cbn; auto|].
  split; [|vm_compute; reflexivity].
  assert (E : faces tri2 = [(0, (0, 1, 2)); (1, (2, 1, 3))]) by (vm_compute; reflexivity).
  intros t. rewrite E. intros [H|[H|[]]]; (inversion H; subst).
Qed.

(** C31.  For every mesh (valid or not): if Update() succeeded, running the same filter object
    again on the same input gives the same output and leaves the object as it is.  For all
    edge-based filters with any list, and all cell-based filters without a selection (and, for the
    Loop one, an object whose last run was not adaptive).  With a selection it is false
    (C31_refuted_selection, Refuted.v). *)
Theorem C31_rerun : forall (O : Ops) (D : Type) k fuel f (inp : mesh O D) f' out,
  match k with
  | CellF s => csel f = [] /\ (s = CLoop -> uniform f = true)
  | EdgeF _ => True
  end ->
  update k fuel f inp = Ok (f', out) -> update k fuel f' inp = Ok (f', out).
Proof. exact C31_rerun_pf. Qed.
Print Assumptions C31_rerun.

Example C31_rerun_ex :
  valid mixed /\ dense mixed /\ ready (EdgeF EButterfly) (esl [Some (2, 1); None]) mixed /\ tris mixed <> [] /\
  exists f' out, update (EdgeF EButterfly) 100 (esl [Some (2, 1); None]) mixed = Ok (f', out) /\ nF out = 4%Z.
Proof. ex_run. Qed.

(** C47.  Cell-based filters ignore an edge without faces: the run completes, no point is inserted
    on it; it is, however, absent from the output. *)
Theorem C47_wire_edges : forall (O : Ops) (D : Type) s f (inp : mesh O D) a b,
  valid inp -> dense inp -> ready (CellF s) f inp -> wire_edge inp a b ->
  exists f' out mid Ls, completes (fun fuel => update (CellF s) fuel f inp) (Ok (f', out)) /\
    subdivision inp out (to_split (CellF s) f inp) mid Ls /\
    mid a b = None /\ ~ joined out a b.
Proof. exact C47_wire_edges_pf. Qed.
Print Assumptions C47_wire_edges.

Example C47_wire_edges_ex :
  wire_edge mixed 3 5 /\ valid mixed /\ dense mixed /\ ready (CellF CLinear) new_filter mixed /\ tris mixed <> [] /\
  exists f' out, update (CellF CLinear) 100 new_filter mixed = Ok (f', out) /\ nF out = 8%Z /\ joinedb out 3 5 = false.
Proof.
  split; [|ex_run].
  assert (E : dirs (tris mixed) = [(0, 1); (1, 2); (2, 0); (2, 1); (1, 3); (3, 2)]) by (vm_compute; reflexivity).
  split; [vm_compute; auto|]. rewrite E. cbn. split; intuition discriminate.
Qed.

(** C47.  The Loop edge filter raises an exception if it has to split an edge without faces,
    whether in uniform use or because the edge is listed. *)
Theorem C47_loop_edge_filter_throws : forall (O : Ops) (D : Type) f (inp : mesh O D) fuel a b,
  valid inp -> dense inp -> no_isolated inp -> wire_edge inp a b ->
  (esel f <> [] -> edges_listed inp (esel f)) ->
  esel f = [] \/ In (Some (a, b)) (esel f) \/ In (Some (b, a)) (esel f) ->
  update (EdgeF ELoop) fuel f inp = Throw WireEdge.
Proof. exact C47_loop_edge_filter_throws_pf. Qed.
Print Assumptions C47_loop_edge_filter_throws.

Example C47_loop_edge_filter_throws_ex :
  let m := fst (add_missing_edges tri2 [(0, 3)]) in
  valid m /\ dense m /\ no_isolated m /\ wire_edge m 3 0 /\ esel new_filter = [] /\
  update (EdgeF ELoop) 100 new_filter m = Throw WireEdge.
Proof.
  intros m.
  split; [apply validb_ok; vm_compute; reflexivity|]. split; [apply denseb_ok; vm_compute; reflexivity|].
  split; [apply no_isolatedb_ok; vm_compute; reflexivity|].
  split; [|split; [reflexivity|vm_compute; reflexivity]].
  assert (E : dirs (tris m) = [(0, 1); (1, 2); (2, 0); (2, 1); (1, 3); (3, 2)]) by (vm_compute; reflexivity).
  split; [vm_compute; auto|]. rewrite E. cbn. split; intuition discriminate.
Qed.

(** C48.  Two runs of cell-based (or two of edge-based) filters of any of the three schemes over
    any two coordinate types, on meshes with the same connectivity and with the same selection:
    same point ids, same edge rings, same cells, same edge list, same refinement list. *)
Theorem C48_connectivity : forall (O1 O2 : Ops) (D1 D2 : Type) k1 k2 f1 f2 (m1 : mesh O1 D1) (m2 : mesh O2 D2) n1 n2 f1' o1 f2' o2,
  match k1, k2 with CellF _, CellF _ => True | EdgeF _, EdgeF _ => True | _, _ => False end ->
  valid m1 -> dense m1 -> ready k1 f1 m1 -> valid m2 -> dense m2 -> ready k2 f2 m2 ->
  okeys (pts m1) = okeys (pts m2) -> rings m1 = rings m2 -> cells m1 = cells m2 -> ecells m1 = ecells m2 ->
  csel f1 = csel f2 -> esel f1 = esel f2 ->
  update k1 n1 f1 m1 = Ok (f1', o1) -> update k2 n2 f2 m2 = Ok (f2', o2) ->
  okeys (pts o1) = okeys (pts o2) /\ rings o1 = rings o2 /\ cells o1 = cells o2 /\ ecells o1 = ecells o2 /\
  csel f1' = csel f2'.
Proof. exact C48_connectivity_pf. Qed.
Print Assumptions C48_connectivity.

Example C48_connectivity_ex :
  valid torus7 /\ dense torus7 /\ ready (CellF CLoop) (sel [3; 8]) torus7 /\ tris torus7 <> [] /\
  exists f' out, update (CellF CLoop) 100 (sel [3; 8]) torus7 = Ok (f', out) /\
  valid (erase torus7) /\ dense (erase torus7) /\ ready (CellF CButterfly) (sel [3; 8]) (erase torus7) /\
  exists f2 o2, update (CellF CButterfly) 100 (sel [3; 8]) (erase torus7) = Ok (f2, o2) /\ cells out = cells o2 /\ nF out = 26%Z.
Proof.
  ex_good. apply run_ex.
  set (r := update _ _ _ _). vm_compute in r. subst r.
  split; [apply validb_ok; vm_compute; reflexivity|].
  split; [apply denseb_ok; vm_compute; reflexivity|].
  split; [apply readyb_ok; vm_compute; reflexivity|].
  apply run_ex. vm_compute. split; reflexivity.
Qed.
