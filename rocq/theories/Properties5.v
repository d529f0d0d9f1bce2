(** * Properties5: order of the selection; edge-based against cell-based filters.

    Theorems only; proofs are in RenumProps.v.  [renumbered] (SpecRenum.v): the same mesh up to the
    numbering of the new points. *)
From Coq Require Import Reals Lra QArith.
From Verif Require Import Base Mesh Filters Drivers Samples Spec SpecSub SpecRenum SpecGeo Lists Check Geo GeoProps CheckGeo
  RenumProps CheckRenum.

Open Scope N_scope.

Ltac ex_valid := apply validb_ok; vm_compute; reflexivity.
Ltac ex_dense := apply denseb_ok; vm_compute; reflexivity.
Ltac ex_exists := apply existingb_ok; vm_compute; reflexivity.
Ltac ex_noiso := apply no_isolatedb_ok; vm_compute; reflexivity.
Ltac ex_real := apply run_exists; [apply validb_ok|apply denseb_ok|apply readyb_ok]; vm_compute; reflexivity.

(** C13, any arithmetic.  Two selections with the same set of cell ids (permuted, repeated): the
    outputs are the same mesh up to a renumbering of the new points, cell by cell, with the same cell
    data and the same list of cells for the next level; for the Linear filter with the same
    coordinates, bit by bit, whenever addition commutes. *)
Theorem C13_selection_order : forall (O : Ops) (D : Type) s f sel1 sel2 (inp : mesh O D) fuel1 fuel2 f1 f2 out1 out2,
  valid inp -> dense inp -> s <> CSqrt3 -> (s = CLoop -> no_isolated inp) ->
  existing inp sel1 -> (forall i, In i sel1 <-> In i sel2) ->
  update (CellF s) fuel1 (set_cells_to_be_subdivided f sel1) inp = Ok (f1, out1) ->
  update (CellF s) fuel2 (set_cells_to_be_subdivided f sel2) inp = Ok (f2, out2) ->
  exists r r', renumbered inp r r' out1 out2 /\ csel f1 = csel f2 /\
    ((forall x y, kadd O x y = kadd O y x) -> s = CLinear -> same_coordinates r out1 out2).
Proof. exact C13_selection_order_pf. Qed.
Print Assumptions C13_selection_order.

Example C13_selection_order_ex :
  valid strip4 /\ dense strip4 /\ no_isolated strip4 /\ existing strip4 [0; 2] /\ (forall i, In i [0; 2] <-> In i [2; 0; 2]) /\
  match update (CellF CLoop) 100 (sel [0; 2]) strip4, update (CellF CLoop) 100 (sel [2; 0; 2]) strip4 with
  | Ok (f1, out1), Ok (f2, out2) => nF out1 = 13%Z /\ csel f1 = csel f2 /\ tris out1 <> tris out2
  | _, _ => False end.
Proof.
  split; [ex_valid|]. split; [ex_dense|]. split; [ex_noiso|]. split; [ex_exists|]. split; [cbn; tauto|].
  vm_compute. repeat split. discriminate.
Qed.

(** C13, exact coordinates: all face-split cell filters, the Butterfly filter if every triangle at
    an interior edge has only interior edges (see C13_butterfly_refuted). *)
Theorem C13_selection_order_coordinates : forall (d : nat) (D : Type) s f sel1 sel2 (inp : mesh (RO d) D) fuel1 fuel2 f1 f2 out1 out2,
  valid inp -> dense inp -> s <> CSqrt3 -> (s = CLoop -> no_isolated inp) ->
  (s = CButterfly -> forall a b, interior_edge inp a b -> away_from_border inp a b) ->
  existing inp sel1 -> (forall i, In i sel1 <-> In i sel2) ->
  update (CellF s) fuel1 (set_cells_to_be_subdivided f sel1) inp = Ok (f1, out1) ->
  update (CellF s) fuel2 (set_cells_to_be_subdivided f sel2) inp = Ok (f2, out2) ->
  exists r r', renumbered inp r r' out1 out2 /\ csel f1 = csel f2 /\ same_coordinates r out1 out2.
Proof. exact C13_selection_order_coordinates_pf. Qed.
Print Assumptions C13_selection_order_coordinates.

Example C13_selection_order_coordinates_ex :
  valid (rmesh octa) /\ dense (rmesh octa) /\ existing (rmesh octa) [0; 5] /\ (forall i, In i [0; 5] <-> In i [5; 0; 5]) /\
  (forall a b, interior_edge (rmesh octa) a b -> away_from_border (rmesh octa) a b) /\
  (exists fuel f1 out1, update (CellF CButterfly) fuel (sel [0; 5]) (rmesh octa) = Ok (f1, out1)) /\
  (exists fuel f2 out2, update (CellF CButterfly) fuel (sel [5; 0; 5]) (rmesh octa) = Ok (f2, out2)).
Proof.
  split; [ex_valid|]. split; [ex_dense|]. split; [ex_exists|]. split; [cbn; tauto|].
  split; [intros a b Hi; apply closed_away; [apply closedb_ok; vm_compute; reflexivity|exact Hi]|].
  split; ex_real.
Qed.

(** C52, any arithmetic.  Two duplicate-free edge lists with the same undirected edges, in any order
    and direction and with any null entries: the same mesh up to renumbering. *)
Theorem C52_edge_order : forall (O : Ops) (D : Type) s f l1 l2 (inp : mesh O D) fuel1 fuel2 f1 f2 out1 out2,
  valid inp -> dense inp -> l1 <> [] -> l2 <> [] ->
  edges_listed inp l1 -> listed_once l1 -> listed_once l2 ->
  (s = ELoop -> no_isolated inp /\ face_edges_listed inp l1) ->
  (forall a b, lists_edge l1 a b <-> lists_edge l2 a b) ->
  update (EdgeF s) fuel1 (set_edges_to_be_subdivided f l1) inp = Ok (f1, out1) ->
  update (EdgeF s) fuel2 (set_edges_to_be_subdivided f l2) inp = Ok (f2, out2) ->
  exists r r', renumbered inp r r' out1 out2 /\ csel f1 = csel f2 /\
    ((forall x y, kadd O x y = kadd O y x) -> s = ELinear -> same_coordinates r out1 out2).
Proof. exact C52_edge_order_pf. Qed.
Print Assumptions C52_edge_order.

Example C52_edge_order_ex :
  valid strip4 /\ dense strip4 /\ edges_listed strip4 [Some (0, 1); Some (1, 2)] /\
  listed_once [Some (0, 1); Some (1, 2)] /\ listed_once [Some (2, 1); None; Some (0, 1)] /\
  (forall a b, lists_edge [Some (0, 1); Some (1, 2)] a b <-> lists_edge [Some (2, 1); None; Some (0, 1)] a b) /\
  match update (EdgeF ELinear) 100 (esl [Some (0, 1); Some (1, 2)]) strip4, update (EdgeF ELinear) 100 (esl [Some (2, 1); None; Some (0, 1)]) strip4 with
  | Ok (f1, out1), Ok (f2, out2) => nF out1 = 7%Z /\ tris out1 <> tris out2
  | _, _ => False end.
Proof.
  split; [ex_valid|]. split; [ex_dense|].
  split. { intros a b [H|[H|[]]]; inversion H; subst; vm_compute; tauto. }
  split; [apply listed_onceb_ok; vm_compute; reflexivity|]. split; [apply listed_onceb_ok; vm_compute; reflexivity|].
  split. { intros a b. unfold lists_edge. cbn. intuition congruence. }
  vm_compute. repeat split. discriminate.
Qed.

(** C52, exact coordinates. *)
Theorem C52_edge_order_coordinates : forall (d : nat) (D : Type) s f l1 l2 (inp : mesh (RO d) D) fuel1 fuel2 f1 f2 out1 out2,
  valid inp -> dense inp -> l1 <> [] -> l2 <> [] ->
  edges_listed inp l1 -> listed_once l1 -> listed_once l2 ->
  (s = ELoop -> no_isolated inp /\ face_edges_listed inp l1) ->
  (s = EButterfly -> forall a b, lists_edge l1 a b -> interior_edge inp a b /\ away_from_border inp a b) ->
  (forall a b, lists_edge l1 a b <-> lists_edge l2 a b) ->
  update (EdgeF s) fuel1 (set_edges_to_be_subdivided f l1) inp = Ok (f1, out1) ->
  update (EdgeF s) fuel2 (set_edges_to_be_subdivided f l2) inp = Ok (f2, out2) ->
  exists r r', renumbered inp r r' out1 out2 /\ csel f1 = csel f2 /\ same_coordinates r out1 out2.
Proof. exact C52_edge_order_coordinates_pf. Qed.
Print Assumptions C52_edge_order_coordinates.

Example C52_edge_order_coordinates_ex :
  valid (rmesh octa) /\ dense (rmesh octa) /\ edges_listed (rmesh octa) [Some (0, 2); Some (5, 2)] /\
  listed_once [Some (0, 2); Some (5, 2)] /\ listed_once [Some (2, 5); Some (2, 0)] /\
  (forall a b, lists_edge [Some (0, 2); Some (5, 2)] a b -> interior_edge (rmesh octa) a b /\ away_from_border (rmesh octa) a b) /\
  (forall a b, lists_edge [Some (0, 2); Some (5, 2)] a b <-> lists_edge [Some (2, 5); Some (2, 0)] a b) /\
  (exists fuel f1 out1, update (EdgeF EButterfly) fuel (esl [Some (0, 2); Some (5, 2)]) (rmesh octa) = Ok (f1, out1)) /\
  (exists fuel f2 out2, update (EdgeF EButterfly) fuel (esl [Some (2, 5); Some (2, 0)]) (rmesh octa) = Ok (f2, out2)).
Proof.
  split; [ex_valid|]. split; [ex_dense|].
  split. { intros a b [H|[H|[]]]; inversion H; subst; vm_compute; tauto. }
  split; [apply listed_onceb_ok; vm_compute; reflexivity|]. split; [apply listed_onceb_ok; vm_compute; reflexivity|].
  split.
  { intros a b H. apply and_comm. apply closed_away; [apply closedb_ok; vm_compute; reflexivity|].
    destruct H as [[H|[H|[]]]|[H|[H|[]]]]; inversion H; subst; split; vm_compute; tauto. }
  split. { intros a b. unfold lists_edge. cbn. intuition congruence. }
  split; ex_real.
Qed.

(** C41, any arithmetic.  Uniform edge-based and cell-based subdivision with the same scheme give the
    same mesh up to renumbering if there are no wire edges; Linear also bit by bit the same
    coordinates. *)
Theorem C41_uniform : forall (O : Ops) (D : Type) sc se fc fe (inp : mesh O D) fuel1 fuel2 f1 f2 out1 out2,
  scheme_of (CellF sc) = scheme_of (EdgeF se) -> csel fc = [] -> esel fe = [] ->
  valid inp -> dense inp -> no_wire inp -> (sc = CLoop -> no_isolated inp) ->
  update (CellF sc) fuel1 fc inp = Ok (f1, out1) ->
  update (EdgeF se) fuel2 fe inp = Ok (f2, out2) ->
  exists r r', renumbered inp r r' out1 out2 /\
    ((forall x y, kadd O x y = kadd O y x) -> sc = CLinear -> same_coordinates r out1 out2).
Proof. exact C41_uniform_pf. Qed.
Print Assumptions C41_uniform.

Example C41_uniform_ex :
  valid strip4 /\ dense strip4 /\ no_wire strip4 /\ no_isolated strip4 /\
  match update (CellF CLoop) 100 new_filter strip4, update (EdgeF ELoop) 100 new_filter strip4 with
  | Ok (f1, out1), Ok (f2, out2) => nF out1 = 16%Z /\ nF out2 = 16%Z | _, _ => False end.
Proof.
  split; [ex_valid|]. split; [ex_dense|]. split; [apply no_wireb_ok; vm_compute; reflexivity|]. split; [ex_noiso|].
  vm_compute. repeat split.
Qed.

(** C41, exact coordinates: the new points coincide for all schemes, the Butterfly scheme on closed
    meshes (see C41_butterfly_refuted); the Loop edge filter does not move the original points (C15),
    all other points coincide. *)
Theorem C41_uniform_coordinates : forall (d : nat) (D : Type) sc se fc fe (inp : mesh (RO d) D) fuel1 fuel2 f1 f2 out1 out2,
  scheme_of (CellF sc) = scheme_of (EdgeF se) -> csel fc = [] -> esel fe = [] ->
  valid inp -> dense inp -> no_wire inp -> (sc = CLoop -> no_isolated inp) -> (sc = CButterfly -> closed inp) ->
  update (CellF sc) fuel1 fc inp = Ok (f1, out1) ->
  update (EdgeF se) fuel2 fe inp = Ok (f2, out2) ->
  exists r r', renumbered inp r r' out1 out2 /\ same_new_coordinates inp r out1 out2 /\
    (sc <> CLoop -> same_coordinates r out1 out2).
Proof. exact C41_uniform_coordinates_pf. Qed.
Print Assumptions C41_uniform_coordinates.

Example C41_uniform_coordinates_ex :
  valid (rmesh octa) /\ dense (rmesh octa) /\ no_wire (rmesh octa) /\ closed (rmesh octa) /\
  (exists fuel f1 out1, update (CellF CButterfly) fuel new_filter (rmesh octa) = Ok (f1, out1)) /\
  (exists fuel f2 out2, update (EdgeF EButterfly) fuel new_filter (rmesh octa) = Ok (f2, out2)).
Proof.
  split; [ex_valid|]. split; [ex_dense|]. split; [apply no_wireb_ok; vm_compute; reflexivity|].
  split; [apply closedb_ok; vm_compute; reflexivity|]. split; ex_real.
Qed.

(** C51, any arithmetic.  Selecting cells in a cell filter and listing exactly their edges in the edge
    filter of the same scheme give the same mesh up to renumbering and the same cells for the next
    level. *)
Theorem C51_edges_of_selection : forall (O : Ops) (D : Type) sc se fc fe sel l (inp : mesh O D) fuel1 fuel2 f1 f2 out1 out2,
  scheme_of (CellF sc) = scheme_of (EdgeF se) -> sel <> [] ->
  valid inp -> dense inp -> existing inp sel -> (sc = CLoop -> no_isolated inp) ->
  listed_once l -> (forall a b, lists_edge l a b <-> exists i t, In i sel /\ In (i, t) (faces inp) /\ edge_of t a b) ->
  update (CellF sc) fuel1 (set_cells_to_be_subdivided fc sel) inp = Ok (f1, out1) ->
  update (EdgeF se) fuel2 (set_edges_to_be_subdivided fe l) inp = Ok (f2, out2) ->
  exists r r', renumbered inp r r' out1 out2 /\ csel f1 = csel f2 /\
    ((forall x y, kadd O x y = kadd O y x) -> sc = CLinear -> same_coordinates r out1 out2).
Proof. exact C51_edges_of_selection_pf. Qed.
Print Assumptions C51_edges_of_selection.

Example C51_edges_of_selection_ex :
  valid strip4 /\ dense strip4 /\ existing strip4 [0] /\ listed_once [Some (1, 0); Some (1, 2); Some (0, 2)] /\
  (forall a b, lists_edge [Some (1, 0); Some (1, 2); Some (0, 2)] a b <->
     exists i t, In i [0] /\ In (i, t) (faces strip4) /\ edge_of t a b) /\
  match update (CellF CLinear) 100 (sel [0]) strip4, update (EdgeF ELinear) 100 (esl [Some (1, 0); Some (1, 2); Some (0, 2)]) strip4 with
  | Ok (f1, out1), Ok (f2, out2) => nF out1 = 8%Z /\ csel f1 = [0; 1; 2; 3] /\ csel f1 = csel f2 | _, _ => False end.
Proof.
  split; [ex_valid|]. split; [ex_dense|]. split; [ex_exists|]. split; [apply listed_onceb_ok; vm_compute; reflexivity|].
  split.
  { assert (HF : faces strip4 = [(0, (0, 1, 2)); (1, (2, 1, 3)); (2, (3, 1, 4)); (3, (3, 4, 5))]) by (vm_compute; reflexivity).
    rewrite HF. intros a b. split.
    - intros H. exists 0, (0, 1, 2). split; [cbn; auto|]. split; [cbn; auto|].
      destruct H as [[H|[H|[H|[]]]]|[H|[H|[H|[]]]]]; inversion H; subst; unfold edge_of; cbn; auto 10.
    - intros [i [t [[<-|[]] [Ht He]]]]. cbn in Ht. destruct Ht as [Ht|[Ht|[Ht|[Ht|[]]]]]; inversion Ht; subst.
      unfold edge_of in He. cbn in He. unfold lists_edge. cbn. intuition congruence. }
  vm_compute. repeat split.
Qed.

(** C51, exact coordinates. *)
Theorem C51_edges_of_selection_coordinates : forall (d : nat) (D : Type) sc se fc fe sel l (inp : mesh (RO d) D) fuel1 fuel2 f1 f2 out1 out2,
  scheme_of (CellF sc) = scheme_of (EdgeF se) -> sel <> [] ->
  valid inp -> dense inp -> existing inp sel -> (sc = CLoop -> no_isolated inp) ->
  (sc = CButterfly -> forall a b, lists_edge l a b -> interior_edge inp a b /\ away_from_border inp a b) ->
  listed_once l -> (forall a b, lists_edge l a b <-> exists i t, In i sel /\ In (i, t) (faces inp) /\ edge_of t a b) ->
  update (CellF sc) fuel1 (set_cells_to_be_subdivided fc sel) inp = Ok (f1, out1) ->
  update (EdgeF se) fuel2 (set_edges_to_be_subdivided fe l) inp = Ok (f2, out2) ->
  exists r r', renumbered inp r r' out1 out2 /\ csel f1 = csel f2 /\ same_new_coordinates inp r out1 out2 /\
    (sc <> CLoop -> same_coordinates r out1 out2).
Proof. exact C51_edges_of_selection_coordinates_pf. Qed.
Print Assumptions C51_edges_of_selection_coordinates.

Example C51_edges_of_selection_coordinates_ex :
  valid (rmesh strip4) /\ dense (rmesh strip4) /\ existing (rmesh strip4) [0] /\ no_isolated (rmesh strip4) /\
  (exists fuel f1 out1, update (CellF CLoop) fuel (sel [0]) (rmesh strip4) = Ok (f1, out1)) /\
  (exists fuel f2 out2, update (EdgeF ELoop) fuel (esl [Some (1, 0); Some (1, 2); Some (0, 2)]) (rmesh strip4) = Ok (f2, out2)).
Proof.
  split; [ex_valid|]. split; [ex_dense|]. split; [ex_exists|]. split; [ex_noiso|]. split; ex_real.
Qed.
