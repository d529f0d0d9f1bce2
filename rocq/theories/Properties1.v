(** * Properties1: connectivity of the face-split filters.

    Theorems only; proofs are in FaceProps.v.  Vocabulary: Spec.v ([valid], [dense], [tris],
    [dirs], [nV]/[nE]/[nF], [closed], [completes]) and SpecSub.v ([ready], [to_split],
    [subdivision], [refines], ...).  Unless a scheme is named, [k] ranges over the Linear, Loop
    and modified Butterfly cell and edge filters ([ready] excludes sqrt(3)). *)
From Coq Require Import Sorted.
From Verif Require Import Base Mesh Filters Drivers Samples Spec SpecSub Check FaceProps.

(** C01.  Uniform Linear, Loop and Butterfly cell subdivision of a valid triangle mesh with
    contiguous ids terminates normally (no exception, no undefined behaviour, for every fuel from
    some bound on) and has four cells per input cell.  For the Loop scheme no point may be isolated
    (see C28_refuted). *)
Theorem C01_uniform_completes : forall (O : Ops) (D : Type) (s : cscheme) (f : fstate) (inp : mesh O D),
  valid inp -> dense inp -> s <> CSqrt3 -> (s = CLoop -> no_isolated inp) -> csel f = [] ->
  exists f' out, completes (fun fuel => update (CellF s) fuel f inp) (Ok (f', out)) /\
                 nF out = (4 * nF inp)%Z.
Proof. exact C01_uniform_completes_pf. Qed.
Print Assumptions C01_uniform_completes.

Example C01_uniform_completes_ex :
  valid torus7 /\ dense torus7 /\ ready (CellF CLoop) new_filter torus7 /\ tris torus7 <> [] /\
  exists f' out, update (CellF CLoop) 100 new_filter torus7 = Ok (f', out) /\ nF out = 56%Z.
Proof. ex_run. Qed.

(** C01, all face-split filters and selections: the run completes. *)
Theorem C01_face_split_completes : forall (O : Ops) (D : Type) (k : kind) (f : fstate) (inp : mesh O D),
  valid inp -> dense inp -> ready k f inp ->
  exists f' out, completes (fun fuel => update k fuel f inp) (Ok (f', out)).
Proof. exact C01_face_split_completes_pf. Qed.
Print Assumptions C01_face_split_completes.

Example C01_face_split_completes_ex :
  valid mixed /\ dense mixed /\ ready (EdgeF EButterfly) (esl [Some (2, 1); None; Some (3, 5)]) mixed /\ tris mixed <> [] /\
  exists f' out, update (EdgeF EButterfly) 100 (esl [Some (2, 1); None; Some (3, 5)]) mixed = Ok (f', out) /\ nF out = 4%Z.
Proof. ex_run. Qed.

(** C02.  Uniform subdivision: one new point per undirected triangle edge ([mid] is symmetric, so
    both sides share it, and injective); every face becomes the three corner triangles and the
    middle one; twice the number of new points is 3F + B, and it equals E if there are no wire
    edges. *)
Theorem C02_one_point_per_edge : forall (O : Ops) (D : Type) (s : cscheme) (f : fstate) (inp : mesh O D) fuel f' out,
  valid inp -> dense inp -> s <> CSqrt3 -> (s = CLoop -> no_isolated inp) -> csel f = [] ->
  update (CellF s) fuel f inp = Ok (f', out) ->
  exists mid Ls,
    subdivision inp out (fun a b => In (a, b) (dirs (tris inp)) \/ In (b, a) (dirs (tris inp))) mid Ls /\
    (forall t L, In (t, L) (combine (tris inp) Ls) -> exists a b c x y z, t = (a, b, c) /\
       mid a b = Some x /\ mid b c = Some y /\ mid c a = Some z /\
       forall u, In u L <-> In u [(a, x, z); (x, b, y); (y, c, z); (x, y, z)]) /\
    (tris inp <> [] -> 2 * (nV out - nV inp) = 3 * nF inp + nB inp)%Z /\
    (tris inp <> [] -> no_wire inp -> nV out - nV inp = nE inp)%Z.
Proof. exact C02_one_point_per_edge_pf. Qed.
Print Assumptions C02_one_point_per_edge.

Example C02_one_point_per_edge_ex :
  valid strip4 /\ dense strip4 /\ ready (CellF CButterfly) new_filter strip4 /\ tris strip4 <> [] /\
  exists f' out, update (CellF CButterfly) 100 new_filter strip4 = Ok (f', out) /\ (nV out - nV strip4 = 9)%Z /\ nE strip4 = 9%Z.
Proof. ex_run. Qed.

(** C03.  Every original id survives, the output ids are 0..V'-1 again, and there are exactly as
    many new points as undirected split edges. *)
Theorem C03_ids_survive : forall (O : Ops) (D : Type) (k : kind) (f : fstate) (inp : mesh O D) fuel f' out,
  valid inp -> dense inp -> ready k f inp -> update k fuel f inp = Ok (f', out) ->
  (forall id, oget id (pts inp) <> None -> oget id (pts out) <> None) /\
  (forall id, oget id (pts out) <> None <-> id < osize (pts out)) /\
  exists Es : list (N * N),
    (forall i j e g, nth_error Es i = Some e -> nth_error Es j = Some g -> undirected_eq e g -> i = j) /\
    (forall a b, to_split k f inp a b <-> exists e, In e Es /\ undirected_eq e (a, b)) /\
    osize (pts out) = osize (pts inp) + N.of_nat (length Es).
Proof. exact C03_ids_survive_pf. Qed.
Print Assumptions C03_ids_survive.

Example C03_ids_survive_ex :
  valid strip4 /\ dense strip4 /\ ready (CellF CLinear) (sel [1; 1]) strip4 /\ tris strip4 <> [] /\
  exists f' out, update (CellF CLinear) 100 (sel [1; 1]) strip4 = Ok (f', out) /\ osize (pts out) = 9.
Proof. ex_run. Qed.

(** C04.  Every output cell is a triangle on three different existing points. *)
Theorem C04_proper_triangles : forall (O : Ops) (D : Type) (k : kind) (f : fstate) (inp : mesh O D) fuel f' out,
  valid inp -> dense inp -> ready k f inp -> update k fuel f inp = Ok (f', out) ->
  forall cs id c, cells out = Some cs -> In (id, c) cs ->
  exists x y z, c = Some (Poly [x; y; z]) /\ x <> y /\ y <> z /\ z <> x /\
    oget x (pts out) <> None /\ oget y (pts out) <> None /\ oget z (pts out) <> None.
Proof. exact C04_proper_triangles_pf. Qed.
Print Assumptions C04_proper_triangles.

Example C04_proper_triangles_ex :
  valid tri3 /\ dense tri3 /\ ready (CellF CLoop) (sel [0]) tri3 /\ tris tri3 <> [] /\
  exists f' out, update (CellF CLoop) 100 (sel [0]) tri3 = Ok (f', out) /\ nF out = 7%Z.
Proof. ex_run. Qed.

(** C05.  Every oriented edge of the output has at most one face, and the cells of the output are,
    in order, exactly the prescribed children of the input faces: none was rejected. *)
Theorem C05_manifold_nothing_lost : forall (O : Ops) (D : Type) (k : kind) (f : fstate) (inp : mesh O D) fuel f' out,
  valid inp -> dense inp -> ready k f inp -> update k fuel f inp = Ok (f', out) ->
  NoDup (dirs (tris out)) /\
  exists mid Ls, subdivision inp out (to_split k f inp) mid Ls /\
    nF out = Z.of_nat (length (concat Ls)) /\
    forall id u, In (id, u) (faces out) <-> nth_error (concat Ls) (N.to_nat id) = Some u.
Proof. exact C05_manifold_nothing_lost_pf. Qed.
Print Assumptions C05_manifold_nothing_lost.

Example C05_manifold_nothing_lost_ex :
  valid torus7 /\ dense torus7 /\ ready (CellF CLinear) (sel [3; 8; 3]) torus7 /\ tris torus7 <> [] /\
  exists f' out, update (CellF CLinear) 100 (sel [3; 8; 3]) torus7 = Ok (f', out) /\ nF out = 26%Z.
Proof. ex_run. Qed.

(** C06.  The oriented border edges of the output are exactly the border edges of the input or,
    where split, their halves; closed meshes stay closed; uniform subdivision doubles the number
    of border edges. *)
Theorem C06_borders : forall (O : Ops) (D : Type) (k : kind) (f : fstate) (inp : mesh O D) fuel f' out,
  valid inp -> dense inp -> ready k f inp -> tris inp <> [] -> update k fuel f inp = Ok (f', out) ->
  exists mid Ls, subdivision inp out (to_split k f inp) mid Ls /\
    (forall x y, border_dir out x y <-> exists a b, border_dir inp a b /\ part_of mid a b x y) /\
    (closed inp <-> closed out) /\
    (csel f = [] -> esel f = [] -> nB out = 2 * nB inp)%Z.
Proof. exact C06_borders_pf. Qed.
Print Assumptions C06_borders.

Example C06_borders_ex :
  valid strip4 /\ dense strip4 /\ ready (CellF CLoop) new_filter strip4 /\ tris strip4 <> [] /\
  exists f' out, update (CellF CLoop) 100 new_filter strip4 = Ok (f', out) /\ nB out = 12%Z /\ nB strip4 = 6%Z.
Proof. ex_run. Qed.

(** C07.  V - E + F is preserved. *)
Theorem C07_euler : forall (O : Ops) (D : Type) (k : kind) (f : fstate) (inp : mesh O D) fuel f' out,
  valid inp -> dense inp -> ready k f inp -> tris inp <> [] -> no_wire inp ->
  update k fuel f inp = Ok (f', out) -> euler out = euler inp.
Proof. exact C07_euler_pf. Qed.
Print Assumptions C07_euler.

Example C07_euler_ex :
  no_wire torus7 /\ valid torus7 /\ dense torus7 /\ ready (CellF CLoop) (sel [4; 9]) torus7 /\ tris torus7 <> [] /\
  exists f' out, update (CellF CLoop) 100 (sel [4; 9]) torus7 = Ok (f', out) /\ euler out = 0%Z /\ nF out = 26%Z.
Proof. split; [apply no_wireb_ok; vm_compute; reflexivity|]. ex_run. Qed.

(** C08.  The output is a valid mesh with contiguous ids. *)
Theorem C08_output_valid : forall (O : Ops) (D : Type) (k : kind) (f : fstate) (inp : mesh O D) fuel f' out,
  valid inp -> dense inp -> ready k f inp -> tris inp <> [] -> update k fuel f inp = Ok (f', out) ->
  valid out /\ dense out /\ tris out <> [] /\ no_wire out /\
  (no_wire inp -> no_isolated inp -> no_isolated out).
Proof. exact C08_output_valid_pf. Qed.
Print Assumptions C08_output_valid.

Example C08_output_valid_ex :
  valid bowtie /\ dense bowtie /\ ready (CellF CButterfly) (sel [1]) bowtie /\ tris bowtie <> [] /\
  exists f' out, update (CellF CButterfly) 100 (sel [1]) bowtie = Ok (f', out) /\ validb out = true /\ nF out = 5%Z.
Proof. ex_run. Qed.

(** C08.  Any number of successive runs, each with any face-split filter and any admissible
    selection: the output is valid, keeps the topology, and every further run completes. *)
Theorem C08_chains : forall (O : Ops) (D : Type) (inp : mesh O D) n out,
  valid inp -> dense inp -> tris inp <> [] -> chained inp n out ->
  valid out /\ dense out /\ tris out <> [] /\
  (no_wire inp -> no_wire out /\ euler out = euler inp /\ (no_isolated inp -> no_isolated out)) /\
  forall k f, ready k f out -> exists f' out', completes (fun fuel => update k fuel f out) (Ok (f', out')).
Proof. exact C08_chains_pf. Qed.
Print Assumptions C08_chains.

Example C08_chains_ex :
  valid tri2 /\ dense tri2 /\ tris tri2 <> [] /\ no_wire tri2 /\ no_isolated tri2 /\
  exists out, chained tri2 2 out /\ nF out = 24%Z.
Proof.
  assert (H : valid tri2 /\ dense tri2 /\ ready (CellF CLoop) (sel [0]) tri2 /\ tris tri2 <> [])
    by (apply goodb_ok; vm_compute; reflexivity).
  destruct H as [H1 [H2 [H3 H4]]].
  split; [exact H1|]. split; [exact H2|]. split; [exact H4|].
  split; [apply no_wireb_ok; vm_compute; reflexivity|].
  split; [apply no_isolatedb_ok; vm_compute; reflexivity|].
  eexists. split; [eapply chained_S with (k := EdgeF EButterfly) (f := new_filter) (fuel := 100%nat);
    [eapply chained_S with (k := CellF CLoop) (f := sel [0]) (fuel := 100%nat);
       [apply chained_0|exact H3|vm_compute; reflexivity]
    |apply readyb_ok; vm_compute; reflexivity|vm_compute; reflexivity]|vm_compute; reflexivity].
Qed.

(** C09.  No T-junctions: the end points of a split edge are no longer joined, every face at that
    edge is replaced by faces that use both halves, and an unsplit face edge stays an edge. *)
Theorem C09_no_T_junction : forall (O : Ops) (D : Type) (k : kind) (f : fstate) (inp : mesh O D) fuel f' out,
  valid inp -> dense inp -> ready k f inp -> tris inp <> [] -> update k fuel f inp = Ok (f', out) ->
  exists mid Ls, subdivision inp out (to_split k f inp) mid Ls /\
    (forall a b, to_split k f inp a b -> ~ joined out a b) /\
    (forall a b m t L, mid a b = Some m -> In (t, L) (combine (tris inp) Ls) -> In (a, b) (tdirs t) ->
       In (a, m) (dirs L) /\ In (m, b) (dirs L)) /\
    (forall a b, ~ to_split k f inp a b -> In (a, b) (dirs (tris inp)) -> joined out a b).
Proof. exact C09_no_T_junction_pf. Qed.
Print Assumptions C09_no_T_junction.

Example C09_no_T_junction_ex :
  valid strip4 /\ dense strip4 /\ ready (CellF CLinear) (sel [1]) strip4 /\ tris strip4 <> [] /\
  exists f' out, update (CellF CLinear) 100 (sel [1]) strip4 = Ok (f', out) /\ joinedb out 1 2 = false /\ joinedb out 0 1 = true.
Proof. ex_run. Qed.

(** C10.  Exactly the edges of the selected triangles (resp. the listed edges) are split; a face
    with k split edges becomes k + 1 cells, consecutive and in the order of the input cells; a
    selected triangle becomes four. *)
Theorem C10_children : forall (O : Ops) (D : Type) (k : kind) (f : fstate) (inp : mesh O D) fuel f' out,
  valid inp -> dense inp -> ready k f inp -> update k fuel f inp = Ok (f', out) ->
  exists mid Ls, subdivision inp out (to_split k f inp) mid Ls /\
    tris out = concat Ls /\ length Ls = length (tris inp) /\
    (forall t L, In (t, L) (combine (tris inp) Ls) ->
       length L = (1 + nsplit mid t)%nat /\
       (forall a b, In (a, b) (tdirs t) -> mid a b <> None <-> to_split k f inp a b)) /\
    (forall t L s, In (t, L) (combine (tris inp) Ls) -> k = CellF s -> selected inp (csel f) t -> length L = 4%nat).
Proof. exact C10_children_pf. Qed.
Print Assumptions C10_children.

Example C10_children_ex :
  valid strip4 /\ dense strip4 /\ ready (CellF CLinear) (sel [1]) strip4 /\ tris strip4 <> [] /\
  exists f' out, update (CellF CLinear) 100 (sel [1]) strip4 = Ok (f', out) /\ nF out = 9%Z.
Proof. ex_run. Qed.

(** C11.  A triangle none of whose edges is split is copied verbatim, exactly once. *)
Theorem C11_untouched_copied : forall (O : Ops) (D : Type) (k : kind) (f : fstate) (inp : mesh O D) fuel f' out t,
  valid inp -> dense inp -> ready k f inp -> update k fuel f inp = Ok (f', out) ->
  In t (tris inp) -> (forall a b, In (a, b) (tdirs t) -> ~ to_split k f inp a b) ->
  exists i, nth_error (tris out) i = Some t /\ forall j, nth_error (tris out) j = Some t -> j = i.
Proof. exact C11_untouched_copied_pf. Qed.
Print Assumptions C11_untouched_copied.

Example C11_untouched_copied_ex :
  valid strip4 /\ dense strip4 /\ ready (CellF CLinear) (sel [0]) strip4 /\ tris strip4 <> [] /\
  exists f' out, update (CellF CLinear) 100 (sel [0]) strip4 = Ok (f', out) /\ existsb (eqb_tri (3, 4, 5)) (tris out) = true.
Proof. ex_run. Qed.

(** C12.  After an adaptive run the reported list is strictly ascending and contains exactly the
    ids of the output cells whose parent had all three edges split; it is empty after a uniform
    run. *)
Theorem C12_reported_list : forall (O : Ops) (D : Type) (k : kind) (f : fstate) (inp : mesh O D) fuel f' out,
  valid inp -> dense inp -> ready k f inp -> update k fuel f inp = Ok (f', out) ->
  exists mid Ls, subdivision inp out (to_split k f inp) mid Ls /\
    StronglySorted N.lt (csel f') /\
    (forall id, In id (csel f') -> exists u, In (id, u) (faces out)) /\
    (match k with CellF _ => csel f <> [] | EdgeF _ => esel f <> [] end ->
     forall id u pid t, In (id, u) (faces out) -> child_of inp Ls pid t u ->
       (In id (csel f') <-> forall a b, In (a, b) (tdirs t) -> to_split k f inp a b)) /\
    (match k with CellF _ => csel f = [] | EdgeF _ => esel f = [] end -> csel f' = []).
Proof. exact C12_reported_list_pf. Qed.
Print Assumptions C12_reported_list.

Example C12_reported_list_ex :
  valid strip4 /\ dense strip4 /\ ready (CellF CLinear) (sel [1]) strip4 /\ tris strip4 <> [] /\
  exists f' out, update (CellF CLinear) 100 (sel [1]) strip4 = Ok (f', out) /\ csel f' = [2; 3; 4; 5].
Proof. ex_run. Qed.

(** C14.  Every output cell has the cell data of the input cell it was cut from (none if that had
    none), and no other cell data appears. *)
Theorem C14_cell_data : forall (O : Ops) (D : Type) (k : kind) (f : fstate) (inp : mesh O D) fuel f' out,
  valid inp -> dense inp -> ready k f inp -> update k fuel f inp = Ok (f', out) ->
  exists mid Ls, subdivision inp out (to_split k f inp) mid Ls /\
    (forall id u, In (id, u) (faces out) -> exists pid t, child_of inp Ls pid t u) /\
    (forall id u pid t, In (id, u) (faces out) -> child_of inp Ls pid t u -> cell_datum out id = cell_datum inp pid) /\
    (forall id, cell_datum out id <> None -> exists u, In (id, u) (faces out)).
Proof. exact C14_cell_data_pf. Qed.
Print Assumptions C14_cell_data.

Example C14_cell_data_ex :
  valid strip4 /\ dense strip4 /\ ready (CellF CLinear) (sel [1]) strip4 /\ tris strip4 <> [] /\
  exists f' out, update (CellF CLinear) 100 (sel [1]) strip4 = Ok (f', out) /\ map (fun id => cell_datum out id) [0; 1; 2; 5; 6; 7; 8; 9] = [Some 10; Some 10; None; None; Some 12; Some 12; None; None].
Proof. ex_run. Qed.

(** C15.  All filters but the Loop cell filter leave the original points where they are, for every
    arithmetic.  (sqrt(3): see C15_any_filter in Properties6.v.) *)
Theorem C15_interpolating : forall (O : Ops) (D : Type) (k : kind) (f : fstate) (inp : mesh O D) fuel f' out id p,
  valid inp -> dense inp -> ready k f inp -> k <> CellF CLoop -> update k fuel f inp = Ok (f', out) ->
  oget id (pts inp) = Some p -> oget id (pts out) = Some p.
Proof. exact C15_interpolating_pf. Qed.
Print Assumptions C15_interpolating.

Example C15_interpolating_ex :
  valid strip4 /\ dense strip4 /\ ready (EdgeF ELoop) (esl [Some (1, 3)]) strip4 /\ tris strip4 <> [] /\
  exists f' out, update (EdgeF ELoop) 100 (esl [Some (1, 3)]) strip4 = Ok (f', out) /\ oget 1 (pts out) = oget 1 (pts strip4).
Proof. ex_run. Qed.

(** C39.  An edge filter with a list of edges, none listed twice: completes, inserts one point per
    non-null entry, and splits exactly the listed edges. *)
Theorem C39_edge_filters : forall (O : Ops) (D : Type) (s : escheme) (f : fstate) (inp : mesh O D),
  valid inp -> dense inp -> esel f <> [] -> edges_listed inp (esel f) -> listed_once (esel f) ->
  (s = ELoop -> no_isolated inp /\ face_edges_listed inp (esel f)) ->
  exists f' out, completes (fun fuel => update (EdgeF s) fuel f inp) (Ok (f', out)) /\
  (nV out = nV inp + Z.of_nat (length (filter is_some (esel f))))%Z /\
  exists mid Ls,
    subdivision inp out (fun a b => In (Some (a, b)) (esel f) \/ In (Some (b, a)) (esel f)) mid Ls.
Proof. exact C39_edge_filters_pf. Qed.
Print Assumptions C39_edge_filters.

Example C39_edge_filters_ex :
  valid mixed /\ dense mixed /\ ready (EdgeF EButterfly) (esl [Some (2, 1); None; Some (3, 5)]) mixed /\ tris mixed <> [] /\
  exists f' out, update (EdgeF EButterfly) 100 (esl [Some (2, 1); None; Some (3, 5)]) mixed = Ok (f', out) /\ nV out = 8%Z.
Proof. ex_run. Qed.
