(** * Properties10: C06, C07, C09 also without triangles; C04 and C47 for the sqrt(3) filter.

    Theorems only; proofs are in Gaps.v. *)
From Coq Require Import Sorted.
From Verif Require Import Base Mesh Filters Drivers Samples Spec SpecSub SpecRoot3 Lists Check Gaps Refuted3.

Open Scope N_scope.

Ltac ex_valid := apply validb_ok; vm_compute; reflexivity.
Ltac ex_dense := apply denseb_ok; vm_compute; reflexivity.
Ltac ex_ready := apply readyb_ok; vm_compute; reflexivity.

(** C06.  [C06_borders] without the hypothesis that there is a triangle. *)
Theorem C06_all : forall (O : Ops) (D : Type) (k : kind) (f : fstate) (inp : mesh O D) fuel f' out,
  valid inp -> dense inp -> ready k f inp -> update k fuel f inp = Ok (f', out) ->
  exists mid Ls, subdivision inp out (to_split k f inp) mid Ls /\
    (forall x y, border_dir out x y <-> exists a b, border_dir inp a b /\ part_of mid a b x y) /\
    (closed inp <-> closed out) /\
    (csel f = [] -> esel f = [] -> nB out = 2 * nB inp)%Z.
Proof. exact C06_all_pf. Qed.
Print Assumptions C06_all.

Example C06_all_ex :
  valid bare /\ dense bare /\ ready (CellF CLinear) (new_filter) bare /\
  match update (CellF CLinear) 100 (new_filter) bare with Ok (_, out) => nV out = 3%Z /\ nF out = 0%Z | _ => False end.
Proof. split; [ex_valid|]. split; [ex_dense|]. split; [ex_ready|]. vm_compute; auto. Qed.
Example C06_all_tri_ex :
  valid tri3 /\ dense tri3 /\ ready (CellF CLinear) (sel [0]) tri3 /\
  match update (CellF CLinear) 100 (sel [0]) tri3 with Ok (_, out) => nF out = 7%Z | _ => False end.
Proof. split; [ex_valid|]. split; [ex_dense|]. split; [ex_ready|]. vm_compute; reflexivity. Qed.

(** C07.  [C07_euler] without the hypothesis that there is a triangle. *)
Theorem C07_all : forall (O : Ops) (D : Type) (k : kind) (f : fstate) (inp : mesh O D) fuel f' out,
  valid inp -> dense inp -> ready k f inp -> no_wire inp ->
  update k fuel f inp = Ok (f', out) -> euler out = euler inp.
Proof. exact C07_all_pf. Qed.
Print Assumptions C07_all.

Example C07_all_ex :
  valid bare /\ dense bare /\ ready (CellF CLinear) (new_filter) bare /\
  match update (CellF CLinear) 100 (new_filter) bare with Ok (_, out) => nV out = 3%Z /\ nF out = 0%Z | _ => False end.
Proof. split; [ex_valid|]. split; [ex_dense|]. split; [ex_ready|]. vm_compute; auto. Qed.
Example C07_all_tri_ex :
  valid tri3 /\ dense tri3 /\ ready (CellF CLinear) (sel [0]) tri3 /\
  match update (CellF CLinear) 100 (sel [0]) tri3 with Ok (_, out) => nF out = 7%Z | _ => False end.
Proof. split; [ex_valid|]. split; [ex_dense|]. split; [ex_ready|]. vm_compute; reflexivity. Qed.
Example C07_all_nowire : no_wire bare /\ no_wire tri3.
Proof. split; apply no_wireb_ok; vm_compute; reflexivity. Qed.

(** C09.  [C09_no_T_junction] without the hypothesis that there is a triangle. *)
Theorem C09_all : forall (O : Ops) (D : Type) (k : kind) (f : fstate) (inp : mesh O D) fuel f' out,
  valid inp -> dense inp -> ready k f inp -> update k fuel f inp = Ok (f', out) ->
  exists mid Ls, subdivision inp out (to_split k f inp) mid Ls /\
    (forall a b, to_split k f inp a b -> ~ joined out a b) /\
    (forall a b m t L, mid a b = Some m -> In (t, L) (combine (tris inp) Ls) -> In (a, b) (tdirs t) ->
       In (a, m) (dirs L) /\ In (m, b) (dirs L)) /\
    (forall a b, ~ to_split k f inp a b -> In (a, b) (dirs (tris inp)) -> joined out a b).
Proof. exact C09_all_pf. Qed.
Print Assumptions C09_all.

Example C09_all_ex :
  valid bare /\ dense bare /\ ready (CellF CLinear) (new_filter) bare /\
  match update (CellF CLinear) 100 (new_filter) bare with Ok (_, out) => nV out = 3%Z /\ nF out = 0%Z | _ => False end.
Proof. split; [ex_valid|]. split; [ex_dense|]. split; [ex_ready|]. vm_compute; auto. Qed.
Example C09_all_tri_ex :
  valid tri3 /\ dense tri3 /\ ready (CellF CLinear) (sel [0]) tri3 /\
  match update (CellF CLinear) 100 (sel [0]) tri3 with Ok (_, out) => nF out = 7%Z | _ => False end.
Proof. split; [ex_valid|]. split; [ex_dense|]. split; [ex_ready|]. vm_compute; reflexivity. Qed.

(** C08.  The output is without triangles only if the input is (then it is not valid: C08_refuted). *)
Theorem C08_no_triangles : forall (O : Ops) (D : Type) (k : kind) (f : fstate) (inp : mesh O D) fuel f' out,
  valid inp -> dense inp -> ready k f inp -> update k fuel f inp = Ok (f', out) ->
  tris out = [] <-> tris inp = [].
Proof. exact C08_no_triangles_pf. Qed.
Print Assumptions C08_no_triangles.

Example C08_no_triangles_ex :
  valid bare /\ dense bare /\ ready (CellF CLinear) (new_filter) bare /\
  match update (CellF CLinear) 100 (new_filter) bare with Ok (_, out) => nV out = 3%Z /\ nF out = 0%Z | _ => False end.
Proof. split; [ex_valid|]. split; [ex_dense|]. split; [ex_ready|]. vm_compute; auto. Qed.
Example C08_no_triangles_tri_ex :
  valid tri3 /\ dense tri3 /\ ready (CellF CLinear) (sel [0]) tri3 /\
  match update (CellF CLinear) 100 (sel [0]) tri3 with Ok (_, out) => nF out = 7%Z | _ => False end.
Proof. split; [ex_valid|]. split; [ex_dense|]. split; [ex_ready|]. vm_compute; reflexivity. Qed.

(** C04.  Every output cell of the sqrt(3) filter is a triangle on three different existing points. *)
Theorem C04_sqrt3 : forall (O : Ops) (D : Type) (f : fstate) (inp : mesh O D) fuel f' out,
  valid inp -> dense inp -> ready3 f inp -> update (CellF CSqrt3) fuel f inp = Ok (f', out) ->
  forall id u, In (id, u) (faces out) ->
  exists x y z, u = (x, y, z) /\ x <> y /\ y <> z /\ z <> x /\
    oget x (pts out) <> None /\ oget y (pts out) <> None /\ oget z (pts out) <> None /\
    nF out = Z.of_nat (length (tris out)).
Proof. exact C04_sqrt3_pf. Qed.
Print Assumptions C04_sqrt3.

Example C04_sqrt3_ex : valid tri3 /\ dense tri3 /\ ready3 (sel [0]) tri3 /\
  match update (CellF CSqrt3) 100 (sel [0]) tri3 with Ok (_, out) => nF out = (nF tri3 + 2)%Z | _ => False end.
Proof. split; [ex_valid|]. split; [ex_dense|]. split; [split; [apply existingb_ok; vm_compute; reflexivity|split; [repeat constructor; cbn; intuition discriminate|vm_compute; reflexivity]]|]. vm_compute. reflexivity. Qed.

(** C47.  The sqrt(3) filter ignores an edge without faces: the run completes, the edge is absent from the output. *)
Theorem C47_sqrt3 : forall (O : Ops) (D : Type) f (inp : mesh O D) a b,
  valid inp -> dense inp -> ready3 f inp -> wire_edge inp a b ->
  exists f' out cen, completes (fun fuel => update (CellF CSqrt3) fuel f inp) (Ok (f', out)) /\
    root3_subdivision inp out (selected inp (csel f)) cen /\ ~ joined out a b.
Proof. exact C47_sqrt3_pf. Qed.
Print Assumptions C47_sqrt3.

Example C47_sqrt3_ex : wire_edge mixed 3 5 /\ valid mixed /\ dense mixed /\ ready3 (sel [0]) mixed /\
  match update (CellF CSqrt3) 100 (sel [0]) mixed with Ok (_, out) => nF out = 4%Z | _ => False end.
Proof.
  split.
  { assert (E : dirs (tris mixed) = [(0, 1); (1, 2); (2, 0); (2, 1); (1, 3); (3, 2)]) by (vm_compute; reflexivity).
    split; [vm_compute; auto|]. rewrite E. cbn. split; intuition discriminate. }
  split; [ex_valid|]. split; [ex_dense|]. split; [split; [apply existingb_ok; vm_compute; reflexivity|split; [repeat constructor; cbn; intuition discriminate|vm_compute; reflexivity]]|]. vm_compute. reflexivity.
Qed.

(** C04.  The same for the edge filters when edges are listed several times. *)
Theorem C04_repeated_edges : forall (O : Ops) (D : Type) s f (l : list (option dedge)) (inp : mesh O D) fuel f' out,
  valid inp -> dense inp -> tris inp <> [] -> l <> [] -> edges_listed inp l ->
  (s = ELoop -> no_isolated inp /\ face_edges_listed inp l) ->
  update (EdgeF s) fuel (set_edges_to_be_subdivided f l) inp = Ok (f', out) ->
  forall cs id c, cells out = Some cs -> In (id, c) cs ->
  exists x y z, c = Some (Poly [x; y; z]) /\ x <> y /\ y <> z /\ z <> x /\
    oget x (pts out) <> None /\ oget y (pts out) <> None /\ oget z (pts out) <> None.
Proof. exact C04_repeated_edges_pf. Qed.
Print Assumptions C04_repeated_edges.

Example C04_repeated_edges_ex :
  let l := [Some (1, 2); None; Some (2, 1)] in
  valid tri3 /\ dense tri3 /\ tris tri3 <> [] /\ edges_listed tri3 l /\
  match update (EdgeF ELinear) 100 (esl l) tri3 with Ok (_, out) => (nF tri3 < nF out)%Z | _ => False end.
Proof.
  cbn zeta. split; [ex_valid|]. split; [ex_dense|]. split; [vm_compute; discriminate|]. split; [|vm_compute; reflexivity].
  assert (R1 : memN 2 (ring tri3 1) = true /\ memN 1 (ring tri3 2) = true) by (vm_compute; auto).
  destruct R1 as [R1 R2]. unfold joined.
  intros a b [H|[H|[H|[]]]]; [|discriminate H|]; injection H as <- <-; apply memN_In; assumption.
Qed.

(** C04.  The same for the sqrt(3) filter when cells are selected several times. *)
Theorem C04_repeated_cells : forall (O : Ops) (D : Type) f (inp : mesh O D) fuel f' out,
  valid inp -> dense inp -> existing inp (csel f) -> csel f <> [] ->
  (nV inp + Z.of_nat (length (csel f)) < 2 ^ 64)%Z -> update (CellF CSqrt3) fuel f inp = Ok (f', out) ->
  forall cs id c, cells out = Some cs -> In (id, c) cs ->
  exists x y z, c = Some (Poly [x; y; z]) /\ x <> y /\ y <> z /\ z <> x /\
    oget x (pts out) <> None /\ oget y (pts out) <> None /\ oget z (pts out) <> None.
Proof. exact C04_repeated_cells_pf. Qed.
Print Assumptions C04_repeated_cells.

Example C04_repeated_cells_ex : valid tri3 /\ dense tri3 /\ existing tri3 [0; 1; 0] /\
  match update (CellF CSqrt3) 100 (sel [0; 1; 0]) tri3 with Ok (_, out) => nF out = (nF tri3 + 4)%Z | _ => False end.
Proof. split; [ex_valid|]. split; [ex_dense|]. split; [apply existingb_ok; vm_compute; reflexivity|]. vm_compute. reflexivity. Qed.
