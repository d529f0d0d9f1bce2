(** * Refuted2: results that depend on the order of the selection or on the direction of edges.

    Same conventions as Refuted.v. *)
From Coq Require Import QArith Floats Uint63.
From Verif Require Import Base Mesh Filters Drivers Samples Spec SpecSub SpecRenum Lists Check CheckRenum Refuted.
Open Scope N_scope.

(** No point of [m] has the coordinates [p]. *)
Lemma nowhere {O D} (m : mesh O D) (p : list (K O)) (eqb : list (K O) -> bool) :
  eqb p = true -> forallb (fun ip => negb (eqb (snd ip))) (pts m) = true -> forall id, oget id (pts m) <> Some p.
Proof.
  intros Hp H id E. apply oget_In in E. rewrite forallb_forall in H. specialize (H _ E). cbn [snd] in H.
  rewrite Hp in H. discriminate.
Qed.
Definition qpt_eqb (p q : list Q) : bool :=
  Nat.eqb (length p) (length q) && forallb (fun xy => Qeq_bool (fst xy) (snd xy)) (combine p q).

Lemma no_same {O D} (m1 m2 : mesh O D) i p : oget i (pts m1) = Some p -> (forall id, oget id (pts m2) <> Some p) ->
  forall r, ~ same_coordinates r m1 m2.
Proof. intros H1 H2 r H. apply (H2 (r i)). apply H. exact H1. Qed.

(** ** C13: near the border the Butterfly mask depends on the direction of the edge, hence on which
    of the two triangles is visited first.  Two triangles, both selected, in the two possible
    orders: no renumbering makes the outputs equal. *)
Theorem C13_butterfly_refuted :
  exists (m : mesh Q3 N) l1 l2 f1 o1 f2 o2,
    valid m /\ dense m /\ existing m l1 /\ (forall i, In i l1 <-> In i l2) /\
    update (CellF CButterfly) 100 (sel l1) m = Ok (f1, o1) /\
    update (CellF CButterfly) 100 (sel l2) m = Ok (f2, o2) /\
    forall r, ~ same_coordinates r o1 o2.
Proof.
  exists tri2, [0; 1], [1; 0], (fst (out_of (CellF CButterfly) (sel [0; 1]) tri2)), (snd (out_of (CellF CButterfly) (sel [0; 1]) tri2)),
    (fst (out_of (CellF CButterfly) (sel [1; 0]) tri2)), (snd (out_of (CellF CButterfly) (sel [1; 0]) tri2)).
  split; [by_valid|]. split; [by_dense|]. split; [apply existingb_ok; vm_compute; reflexivity|].
  split; [cbn; tauto|]. split; [by_run|]. split; [by_run|].
  apply (no_same _ _ 5 (zpt [7; 9; 0]%Z)); [vm_compute; reflexivity|].
  apply (nowhere (O := Q3) _ _ (qpt_eqb (zpt (d := 3) [7; 9; 0]%Z))); vm_compute; reflexivity.
Qed.
Print Assumptions C13_butterfly_refuted.

(** ** C41: on a border edge the Butterfly mask depends on the direction in which the edge was
    created.  The edge (3, 1) was added before the faces (AddEdge), the face runs along (1, 3). *)
Definition tri2_edge_first : mesh Q3 N :=
  let ps := number [zpt [0; 0; 0]%Z; zpt [16; 0; 0]%Z; zpt [0; 16; 0]%Z; zpt [16; 16; 0]%Z] in
  let m0 := fold_left (fun m kv => set_point m (fst kv) (snd kv)) ps empty_mesh in
  let m1 := set_cells m0 (Some []) in
  let m2 := match add_edge m1 3 1 with Some m => m | None => m1 end in
  fold_left (fun m f => fst (add_face m f)) [[0; 1; 2]; [2; 1; 3]] m2.
Theorem C41_butterfly_refuted :
  exists (m : mesh Q3 N) f1 o1 f2 o2,
    valid m /\ dense m /\ no_wire m /\
    update (CellF CButterfly) 100 new_filter m = Ok (f1, o1) /\
    update (EdgeF EButterfly) 100 new_filter m = Ok (f2, o2) /\
    forall r, ~ same_coordinates r o1 o2.
Proof.
  exists tri2_edge_first, (fst (out_of (CellF CButterfly) new_filter tri2_edge_first)), (snd (out_of (CellF CButterfly) new_filter tri2_edge_first)),
    (fst (out_of (EdgeF EButterfly) new_filter tri2_edge_first)), (snd (out_of (EdgeF EButterfly) new_filter tri2_edge_first)).
  split; [by_valid|]. split; [by_dense|]. split; [apply no_wireb_ok; vm_compute; reflexivity|].
  split; [by_run|]. split; [by_run|].
  apply (no_same _ _ 7 (zpt [15; 11; 0]%Z)); [vm_compute; reflexivity|].
  apply (nowhere (O := Q3) _ _ (qpt_eqb (zpt (d := 3) [15; 11; 0]%Z))); vm_compute; reflexivity.
Qed.
Print Assumptions C41_butterfly_refuted.

(** ** C13 in binary64: the Butterfly mask adds its eight points in an order that depends on the
    direction of the edge, so even on a closed mesh two selection orders give different bits. *)
Definition fZ (z : Z) : float :=
  match z with
  | Z0 => 0%float
  | Zpos _ => PrimFloat.of_uint63 (Uint63.of_Z z)
  | Zneg p => PrimFloat.opp (PrimFloat.of_uint63 (Uint63.of_Z (Zpos p)))
  end.
(** binary64 in dimension 3.  No cosine: the filter used here does not need it. *)
Definition F3 : Ops :=
  mkOps float 3 PrimFloat.add PrimFloat.sub PrimFloat.mul PrimFloat.div fZ PrimFloat.sqrt (fun _ => 0%float)
        (fun a b => PrimFloat.ltb b a).
Definition fpt (x y z : float) : list (K F3) := [x; y; z].
(** A tetrahedron with x-coordinates 0.1, 0.3, 0.7 and 1.1. *)
Definition ftetra : mesh F3 N :=
  build (O := F3) (number [fpt 0x1.999999999999ap-4 0 0; fpt 0x1.3333333333333p-2 0 0; fpt 0x1.6666666666666p-1 1 0; fpt 0x1.199999999999ap+0 0 1])
        [[0; 2; 1]; [0; 1; 3]; [1; 2; 3]; [2; 0; 3]].
Definition fpt_eqb (p q : list float) : bool :=
  Nat.eqb (length p) (length q) && forallb (fun xy => PrimFloat.eqb (fst xy) (snd xy)) (combine p q).
Definition fnew : list (K F3) :=
  match oget 6 (pts (snd (out_of (CellF CButterfly) (sel [0; 1; 2; 3]) ftetra))) with Some p => p | None => [] end.
Theorem C13_binary64_refuted :
  exists (m : mesh F3 N) l1 l2 f1 o1 f2 o2,
    valid m /\ dense m /\ closed m /\ existing m l1 /\ (forall i, In i l1 <-> In i l2) /\
    update (CellF CButterfly) 100 (sel l1) m = Ok (f1, o1) /\
    update (CellF CButterfly) 100 (sel l2) m = Ok (f2, o2) /\
    forall r, ~ same_coordinates r o1 o2.
Proof.
  exists ftetra, [0; 1; 2; 3], [3; 2; 1; 0], (fst (out_of (CellF CButterfly) (sel [0; 1; 2; 3]) ftetra)), (snd (out_of (CellF CButterfly) (sel [0; 1; 2; 3]) ftetra)),
    (fst (out_of (CellF CButterfly) (sel [3; 2; 1; 0]) ftetra)), (snd (out_of (CellF CButterfly) (sel [3; 2; 1; 0]) ftetra)).
  split; [by_valid|]. split; [by_dense|]. split; [apply closedb_ok; vm_compute; reflexivity|].
  split; [apply existingb_ok; vm_compute; reflexivity|].
  split; [cbn; tauto|]. split; [by_run|]. split; [by_run|].
  apply (no_same _ _ 6 fnew); [vm_compute; reflexivity|].
  apply (nowhere (O := F3) _ _ (fpt_eqb fnew)); vm_compute; reflexivity.
Qed.
Print Assumptions C13_binary64_refuted.
