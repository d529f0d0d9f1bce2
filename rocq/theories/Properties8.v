(** * Properties8: selections with repetitions (C40, C44).

    Theorems only; proofs are in Repeat.v and Repeat3.v. *)
From Coq Require Import Sorted.
From Verif Require Import Base Mesh Filters Drivers Samples Spec SpecSub SpecRenum Lists Check Repeat Repeat3.

Open Scope N_scope.

Ltac ex_valid := apply validb_ok; vm_compute; reflexivity.
Ltac ex_dense := apply denseb_ok; vm_compute; reflexivity.

(** In the list [l] every entry is an edge of the mesh, of a face. *)
Lemma listedb_ok (m : mesh Q3 N) (l : list (option dedge)) :
  forallb (fun o => match o with Some (a, b) => memN b (ring m a) && (mem_dedge (a, b) (dirs (tris m)) || mem_dedge (b, a) (dirs (tris m))) | None => true end) l = true ->
  edges_listed m l /\ face_edges_listed m l.
Proof.
  rewrite forallb_forall. intros H. split; intros a b Hin; apply H in Hin; apply andb_prop in Hin; destruct Hin as [H1 H2].
  - apply memN_In. exact H1.
  - apply orb_prop in H2. destruct H2 as [H2|H2]; apply mem_dedge_In in H2; auto.
Qed.
(** The edge of the two triangles of tri2 listed twice, in both directions, and another edge. *)
Definition twice : list (option dedge) := [Some (1, 2); None; Some (2, 1); Some (0, 1)].

(** C40.  Edge filters with any edge list, an edge possibly listed several times and in both
    directions: the run completes, every entry inserts a point, the point of the last entry of an
    edge splits it, the points of the other entries belong to no edge and no face. *)
Theorem C40_repeated : forall (O : Ops) (D : Type) s f (l : list (option dedge)) (inp : mesh O D),
  valid inp -> dense inp -> l <> [] -> edges_listed inp l ->
  (s = ELoop -> no_isolated inp /\ face_edges_listed inp l) ->
  exists f' out, (exists n, forall fuel, (n <= fuel)%nat -> update (EdgeF s) fuel (set_edges_to_be_subdivided f l) inp = Ok (f', out)) /\
    dense out /\ (tris inp <> [] -> valid out) /\ (nV out = nV inp + entries l)%Z /\
    (forall id p, oget id (pts inp) = Some p -> oget id (pts out) = Some p) /\
    exists mid Ls, tris out = concat Ls /\ Forall2 (refines mid) (tris inp) Ls /\
      (forall a b, mid a b = mid b a) /\
      (forall a b, mid a b <> None <-> lists_edge l a b) /\
      (** the last entry of an edge gives its point *)
      (forall a b m, mid a b = Some m -> exists (l1 : list (option dedge)) e l2, l = l1 ++ Some e :: l2 /\ undirected_eq (a, b) e /\
         ~ lists_edge l2 a b /\ Z.of_N m = (nV inp + entries l1)%Z) /\
      (** the other entries give points of no face *)
      (forall (l1 : list (option dedge)) a b l2 id, l = l1 ++ Some (a, b) :: l2 -> lists_edge l2 a b -> Z.of_N id = (nV inp + entries l1)%Z ->
         oget id (pts out) <> None /\ ring out id = [] /\ forall u, In u (tris out) -> ~ In id (tverts u)).
Proof. exact C40_repeated_pf. Qed.
Print Assumptions C40_repeated.

Example C40_repeated_ex :
  valid tri2 /\ dense tri2 /\ twice <> [] /\ edges_listed tri2 twice /\ no_isolated tri2 /\ face_edges_listed tri2 twice /\
  twice = [] ++ Some (1, 2) :: [None; Some (2, 1); Some (0, 1)] /\ lists_edge [None; Some (2, 1); Some (0, 1)] 1 2 /\
  match update (EdgeF ELoop) 100 (set_edges_to_be_subdivided new_filter twice) tri2 with
  | Ok (_, out) => nV out = (nV tri2 + 3)%Z /\ ring out 4 = [] /\ ring out 5 <> []
  | _ => False
  end.
Proof.
  assert (L : edges_listed tri2 twice /\ face_edges_listed tri2 twice) by (apply listedb_ok; vm_compute; reflexivity).
  split; [ex_valid|]. split; [ex_dense|]. split; [discriminate|]. split; [apply L|].
  split; [apply no_isolatedb_ok; vm_compute; reflexivity|]. split; [apply L|]. split; [reflexivity|].
  split; [right; cbn; auto|]. vm_compute. repeat split; discriminate.
Qed.

(** C40.  Two lists of the same edges, with whatever repetitions, order and directions: the same faces in
    the same order up to the numbers of the new points, the same number of cells, cell data and next
    selection; the same coordinates for the Linear scheme with commutative addition, or when every
    edge keeps one direction. *)
Theorem C40_same_edges : forall (O : Ops) (D : Type) s f (l1 l2 : list (option dedge)) (inp : mesh O D) fuel1 fuel2 f1 f2 out1 out2,
  valid inp -> dense inp -> l1 <> [] -> l2 <> [] -> edges_listed inp l1 ->
  (s = ELoop -> no_isolated inp /\ face_edges_listed inp l1) ->
  (forall a b, lists_edge l1 a b <-> lists_edge l2 a b) ->
  update (EdgeF s) fuel1 (set_edges_to_be_subdivided f l1) inp = Ok (f1, out1) ->
  update (EdgeF s) fuel2 (set_edges_to_be_subdivided f l2) inp = Ok (f2, out2) ->
  exists r r' : N -> N,
    (forall id, oget id (pts inp) <> None -> r id = id) /\
    (forall u x, In u (tris out1) -> In x (tverts u) -> r' (r x) = x /\ oget (r x) (pts out2) <> None) /\
    tris out2 = map (tmap r) (tris out1) /\ nF out1 = nF out2 /\ csel f1 = csel f2 /\
    (forall id, cell_datum out1 id = cell_datum out2 id) /\
    (s = ELinear /\ (forall x y, kadd O x y = kadd O y x) \/
     (forall a b, In (Some (a, b)) l1 <-> In (Some (a, b)) l2) /\ (forall a b, In (Some (a, b)) l1 -> ~ In (Some (b, a)) l1) ->
     forall u x, In u (tris out1) -> In x (tverts u) -> oget (r x) (pts out2) = oget x (pts out1)).
Proof. exact C40_same_edges_pf. Qed.
Print Assumptions C40_same_edges.

Example C40_same_edges_ex :
  valid tri2 /\ dense tri2 /\ edges_listed tri2 twice /\ face_edges_listed tri2 twice /\ no_isolated tri2 /\
  (forall a b, lists_edge twice a b <-> lists_edge [Some (0, 1); Some (1, 2)] a b) /\
  match update (EdgeF ELinear) 100 (set_edges_to_be_subdivided new_filter twice) tri2,
        update (EdgeF ELinear) 100 (set_edges_to_be_subdivided new_filter [Some (0, 1); Some (1, 2)]) tri2 with
  | Ok (_, out1), Ok (_, out2) => tris out1 <> tris out2 /\ length (tris out1) = 5%nat
  | _, _ => False
  end.
Proof.
  assert (L : edges_listed tri2 twice /\ face_edges_listed tri2 twice) by (apply listedb_ok; vm_compute; reflexivity).
  split; [ex_valid|]. split; [ex_dense|]. split; [apply L|]. split; [apply L|].
  split; [apply no_isolatedb_ok; vm_compute; reflexivity|]. split.
  - intros a b. unfold lists_edge. cbn. intuition congruence.
  - vm_compute. split; [discriminate|reflexivity].
Qed.

(** C44.  Sqrt(3) filter with a selection in which cells occur several times: the run completes on a
    valid mesh; every entry inserts a point, but only the distinct cells are subdivided; the point of
    the first entry of a cell is its centre, the points of the other entries belong to no edge and no
    face. *)
Theorem C44_repeated : forall (O : Ops) (D : Type) f (inp : mesh O D),
  valid inp -> dense inp -> existing inp (csel f) -> csel f <> [] -> (nV inp + Z.of_nat (length (csel f)) < 2 ^ 64)%Z ->
  exists f' out, (exists n, forall fuel, (n <= fuel)%nat -> update (CellF CSqrt3) fuel f inp = Ok (f', out)) /\
    valid out /\ dense out /\
    (nV out = nV inp + Z.of_nat (length (csel f)))%Z /\
    (nF out = nF inp + 2 * Z.of_nat (length (nodup N.eq_dec (csel f))))%Z /\
    (forall id p, oget id (pts inp) = Some p -> oget id (pts out) = Some p) /\
    forall l1 i l2 g, csel f = l1 ++ i :: l2 -> Z.of_N g = (nV inp + Z.of_nat (length l1))%Z ->
      oget g (pts out) <> None /\
      (** the first entry of a cell gives its centre, the others give points of no face *)
      (~ In i l1 -> exists u, In u (tris out) /\ In g (tverts u)) /\
      (In i l1 -> ring out g = [] /\ forall u, In u (tris out) -> ~ In g (tverts u)).
Proof. exact C44_repeated_pf. Qed.
Print Assumptions C44_repeated.

Example C44_repeated_ex :
  valid strip4 /\ dense strip4 /\ existing strip4 (csel (sel [2; 1; 2; 2])) /\ csel (sel [2; 1; 2; 2]) <> [] /\
  (nV strip4 + Z.of_nat (length (csel (sel [2; 1; 2; 2]%N))) < 2 ^ 64)%Z /\
  csel (sel [2; 1; 2; 2]) = [2; 1] ++ 2 :: [2] /\ In 2 [2; 1] /\
  match update (CellF CSqrt3) 100 (sel [2; 1; 2; 2]) strip4 with
  | Ok (_, out) => nF out = (nF strip4 + 4)%Z /\ nV out = (nV strip4 + 4)%Z
  | _ => False
  end.
Proof.
  split; [ex_valid|]. split; [ex_dense|]. split; [apply existingb_ok; vm_compute; reflexivity|]. split; [discriminate|].
  split; [vm_compute; reflexivity|]. split; [reflexivity|]. split; [cbn; auto|]. vm_compute. split; reflexivity.
Qed.

(** C44.  Sqrt(3) filter, two selections of the same cells, with whatever repetitions and order: the
    same faces in the same order up to the numbers of the new points, with the same coordinates, cell
    data and next selection. *)
Theorem C44_same_cells : forall (O : Ops) (D : Type) f1 f2 (inp : mesh O D) fuel1 fuel2 f1' f2' out1 out2,
  valid inp -> dense inp -> existing inp (csel f1) -> csel f1 <> [] -> (forall i, In i (csel f1) <-> In i (csel f2)) ->
  (nV inp + Z.of_nat (length (csel f1)) < 2 ^ 64)%Z -> (nV inp + Z.of_nat (length (csel f2)) < 2 ^ 64)%Z ->
  update (CellF CSqrt3) fuel1 f1 inp = Ok (f1', out1) ->
  update (CellF CSqrt3) fuel2 f2 inp = Ok (f2', out2) ->
  exists r r' : N -> N,
    (forall id, oget id (pts inp) <> None -> r id = id) /\
    (forall u x, In u (tris out1) -> In x (tverts u) -> r' (r x) = x /\ oget (r x) (pts out2) = oget x (pts out1)) /\
    tris out2 = map (tmap r) (tris out1) /\ nF out1 = nF out2 /\ csel f1' = csel f2' /\
    (forall id, cell_datum out1 id = cell_datum out2 id).
Proof. exact C44_same_cells_pf. Qed.
Print Assumptions C44_same_cells.

Example C44_same_cells_ex :
  valid strip4 /\ dense strip4 /\ existing strip4 (csel (sel [2; 1; 2; 2])) /\ csel (sel [2; 1; 2; 2]) <> [] /\
  (forall i, In i (csel (sel [2; 1; 2; 2])) <-> In i (csel (sel [1; 2]))) /\
  (nV strip4 + Z.of_nat (length (csel (sel [2; 1; 2; 2]%N))) < 2 ^ 64)%Z /\
  (nV strip4 + Z.of_nat (length (csel (sel [1; 2]%N))) < 2 ^ 64)%Z /\
  match update (CellF CSqrt3) 100 (sel [2; 1; 2; 2]) strip4, update (CellF CSqrt3) 100 (sel [1; 2]) strip4 with
  | Ok (_, out1), Ok (_, out2) => tris out1 <> tris out2
  | _, _ => False
  end.
Proof.
  split; [ex_valid|]. split; [ex_dense|]. split; [apply existingb_ok; vm_compute; reflexivity|]. split; [discriminate|].
  split; [intros i; cbn; intuition congruence|]. split; [vm_compute; reflexivity|]. split; [vm_compute; reflexivity|].
  vm_compute. discriminate.
Qed.
