(** * Properties6: the sqrt(3) filter.

    Theorems only; proofs are in Root3Props.v.  What sqrt(3) subdivision means is in SpecRoot3.v. *)
From Coq Require Import Sorted Reals Lra QArith.
From Verif Require Import Base Mesh Filters Drivers Samples Spec SpecSub SpecGeo SpecDrive SpecRoot3 Lists Check CheckGeo CheckRenum
  Root3Props CheckRoot3.

Open Scope N_scope.

Ltac ex_valid := apply validb_ok; vm_compute; reflexivity.
Ltac ex_dense := apply denseb_ok; vm_compute; reflexivity.
Ltac ex_ready := apply ready3b_ok; vm_compute; reflexivity.
Ltac ex_start := split; [ex_valid|]; split; [ex_dense|]; split; [ex_ready|].
Ltac ex_real := apply run_exists3; [ex_valid|ex_dense|ex_ready].

(** C20, any arithmetic (floating point included).  Every selected triangle gets one new point, each
    new id belongs to one triangle; its coordinates are ((0 + a) + b) + c times 1/3 in this order of
    operations; original points keep theirs. *)
Theorem C20_centroid_any : forall (O : Ops) (D : Type) f (inp : mesh O D) fuel f' out,
  valid inp -> dense inp -> ready3 f inp -> update (CellF CSqrt3) fuel f inp = Ok (f', out) ->
  exists cen, root3_subdivision inp out (selected inp (csel f)) cen /\
    (forall id p, oget id (pts inp) = Some p -> oget id (pts out) = Some p) /\
    forall a b c g, In (a, b, c) (tris inp) -> cen (a, b, c) = Some g -> exists pa pb pc p,
      oget a (pts inp) = Some pa /\ oget b (pts inp) = Some pb /\ oget c (pts inp) = Some pc /\
      oget g (pts out) = Some p /\ length p = kdim O /\
      forall i xa xb xc, nth_error pa i = Some xa -> nth_error pb i = Some xb -> nth_error pc i = Some xc ->
        nth_error p i = Some (kmul O (kadd O (kadd O (kadd O (kZ O 0) xa) xb) xc) (kdiv O (kZ O 1) (kZ O 3))).
Proof. exact C20_centroid_any_pf. Qed.
Print Assumptions C20_centroid_any.

Example C20_centroid_any_ex :
  valid strip4 /\ dense strip4 /\ ready3 (sel [3; 0]) strip4 /\
  match update (CellF CSqrt3) 100 (sel [3; 0]) strip4 with
  | Ok (f', out) => oget 6 (pts out) = Some [(80 # 3)%Q; (32 # 3)%Q; (4 # 3)%Q] /\ oget 7 (pts out) = Some [(16 # 3)%Q; (16 # 3)%Q; 0%Q]
  | _ => False end.
Proof. ex_start. vm_compute. repeat split. Qed.

(** C20, exact coordinates: the new point is the centroid of its triangle. *)
Theorem C20_centroid : forall (d : nat) (D : Type) f (inp : mesh (RO d) D) fuel f' out,
  valid inp -> dense inp -> ready3 f inp -> update (CellF CSqrt3) fuel f inp = Ok (f', out) ->
  exists cen, root3_subdivision inp out (selected inp (csel f)) cen /\
    (forall id i, oget id (pts inp) <> None -> crd out i id = crd inp i id) /\
    forall a b c g i, In (a, b, c) (tris inp) -> cen (a, b, c) = Some g ->
      crd out i g = ((crd inp i a + crd inp i b + crd inp i c) / 3)%R.
Proof. exact C20_centroid_pf. Qed.
Print Assumptions C20_centroid.

Example C20_centroid_ex :
  valid (rmesh octa) /\ dense (rmesh octa) /\ ready3 (sel [2; 5]) (rmesh octa) /\
  exists fuel f' out, update (CellF CSqrt3) fuel (sel [2; 5]) (rmesh octa) = Ok (f', out).
Proof. ex_start. ex_real. Qed.

(** C03 for all seven filters and any cells (not only valid triangle meshes): on completion the input
    ids are still there and all ids are contiguous. *)
Theorem C03_any_filter : forall (O : Ops) (D : Type) k f (inp : mesh O D) fuel f' out,
  sorted_keys (pts inp) -> (forall id p, oget id (pts inp) = Some p -> length p = kdim O) -> dense inp ->
  update k fuel f inp = Ok (f', out) ->
  dense out /\ sorted_keys (pts out) /\ (nV inp <= nV out)%Z /\
  (forall id, oget id (pts inp) <> None -> oget id (pts out) <> None).
Proof. exact C03_any_filter_pf. Qed.
Print Assumptions C03_any_filter.

Example C03_any_filter_ex :
  sorted_keys (pts mixed) /\ (forall id p, oget id (pts mixed) = Some p -> length p = kdim Q3) /\ dense mixed /\
  match update (CellF CSqrt3) 100 (sel [1; 0]) mixed with Ok (f', out) => nV out = 8%Z /\ nV mixed = 6%Z | _ => False end.
Proof.
  split; [apply (v_pts_sorted mixed); ex_valid|]. split; [apply (v_pts_dim mixed); ex_valid|]. split; [ex_dense|]. vm_compute. split; reflexivity.
Qed.

(** C15 for the six filters other than Loop's cell filter and any cells: original points keep their
    coordinates. *)
Theorem C15_any_filter : forall (O : Ops) (D : Type) k f (inp : mesh O D) fuel f' out id p,
  sorted_keys (pts inp) -> (forall id p, oget id (pts inp) = Some p -> length p = kdim O) -> dense inp ->
  k <> CellF CLoop -> update k fuel f inp = Ok (f', out) -> oget id (pts inp) = Some p -> oget id (pts out) = Some p.
Proof. exact C15_any_filter_pf. Qed.
Print Assumptions C15_any_filter.

Example C15_any_filter_ex :
  sorted_keys (pts mixed) /\ (forall id p, oget id (pts mixed) = Some p -> length p = kdim Q3) /\ dense mixed /\
  match update (CellF CSqrt3) 100 (sel [1; 0]) mixed with
  | Ok (f', out) => oget 3 (pts mixed) = Some (zpt (d := 3) [16; 16; 0]%Z) /\ oget 3 (pts out) = Some (zpt (d := 3) [16; 16; 0]%Z)
  | _ => False end.
Proof.
  split; [apply (v_pts_sorted mixed); ex_valid|]. split; [apply (v_pts_dim mixed); ex_valid|]. split; [ex_dense|]. vm_compute. split; reflexivity.
Qed.

(** C42.  Without a selection the sqrt(3) filter completes on every valid mesh with contiguous ids (and
    few enough of them): 3F cells, V + F points; the output is valid; every interior edge is replaced
    by the edge between the two centres; the border stays as it is. *)
Theorem C42_uniform : forall (O : Ops) (D : Type) f (inp : mesh O D),
  valid inp -> dense inp -> csel f = [] -> (nV inp + nF inp < 2 ^ 64)%Z ->
  exists f' out cen, completes (fun fuel => update (CellF CSqrt3) fuel f inp) (Ok (f', out)) /\
    root3_subdivision inp out (fun t => In t (tris inp)) cen /\
    nF out = (3 * nF inp)%Z /\ nV out = (nV inp + nF inp)%Z /\
    (tris inp <> [] -> valid out /\ dense out) /\
    (forall a b, In (a, b) (dirs (tris inp)) -> In (b, a) (dirs (tris inp)) ->
       ~ joined out a b /\ exists g h, centred inp cen a b g /\ centred inp cen b a h /\ joined out g h) /\
    (forall a b, border_dir out a b <-> border_dir inp a b).
Proof. exact C42_uniform_pf. Qed.
Print Assumptions C42_uniform.

Example C42_uniform_ex :
  valid torus7 /\ dense torus7 /\ (nV torus7 + nF torus7 < 2 ^ 64)%Z /\ tris torus7 <> [] /\
  match update (CellF CSqrt3) 100 new_filter torus7 with
  | Ok (f', out) => nF torus7 = 14%Z /\ nF out = 42%Z /\ nV out = 21%Z | _ => False end.
Proof. split; [ex_valid|]. split; [ex_dense|]. split; [vm_compute; reflexivity|]. split; [vm_compute; discriminate|]. vm_compute. repeat split. Qed.

(** C53.  With a duplicate-free selection of k existing cells the sqrt(3) filter completes: k new
    points, 2k more cells, valid output.  An edge disappears if and only if the faces on both sides
    are selected; then the two centres are joined.  Unselected faces are copied. *)
Theorem C53_adaptive : forall (O : Ops) (D : Type) f (inp : mesh O D),
  valid inp -> dense inp -> ready3 f inp -> csel f <> [] ->
  exists f' out cen, completes (fun fuel => update (CellF CSqrt3) fuel f inp) (Ok (f', out)) /\
    root3_subdivision inp out (selected inp (csel f)) cen /\
    nF out = (nF inp + 2 * Z.of_nat (length (csel f)))%Z /\ nV out = (nV inp + Z.of_nat (length (csel f)))%Z /\
    valid out /\ dense out /\
    (forall a b, In (a, b) (dirs (tris inp)) ->
       (joined out a b <-> (forall h, ~ centred inp cen a b h) \/ (forall h, ~ centred inp cen b a h))) /\
    (forall a b g h, centred inp cen a b g -> centred inp cen b a h -> joined out g h) /\
    (forall t, In t (tris inp) -> ~ selected inp (csel f) t -> In t (tris out)).
Proof. exact C53_adaptive_pf. Qed.
Print Assumptions C53_adaptive.

Example C53_adaptive_ex :
  valid strip4 /\ dense strip4 /\ ready3 (sel [2; 1]) strip4 /\
  match update (CellF CSqrt3) 100 (sel [2; 1]) strip4 with
  | Ok (f', out) => nF out = 8%Z /\ tris out = [(0, 1, 2); (2, 1, 7); (7, 6, 3); (6, 7, 1); (3, 2, 7); (1, 4, 6); (4, 3, 6); (3, 4, 5)]
  | _ => False end.
Proof. ex_start. vm_compute. repeat split. Qed.

(** C54.  After an adaptive sqrt(3) run the reported list contains, ascending, exactly the ids of the
    output cells with a new corner; after a uniform run it is empty. *)
Theorem C54_reported : forall (O : Ops) (D : Type) f (inp : mesh O D) fuel f' out,
  valid inp -> dense inp -> ready3 f inp -> update (CellF CSqrt3) fuel f inp = Ok (f', out) ->
  StronglySorted N.lt (csel f') /\
  forall id, In id (csel f') <-> csel f <> [] /\ exists w, In (id, w) (faces out) /\ has_new inp w.
Proof. exact C54_reported_pf. Qed.
Print Assumptions C54_reported.

Example C54_reported_ex :
  valid strip4 /\ dense strip4 /\ ready3 (sel [2; 1]) strip4 /\
  match update (CellF CSqrt3) 100 (sel [2; 1]) strip4 with
  | Ok (f', out) => csel f' = [1; 2; 3; 4; 5; 6] | _ => False end.
Proof. ex_start. vm_compute. repeat split. Qed.

(** C55.  Every output cell of the sqrt(3) filter has a source cell and carries its data: the face
    itself if it is copied, the subdivided face for a triangle on one of its own edges, and for the two
    triangles at a flipped edge the face with the smaller id. *)
Theorem C55_cell_data : forall (O : Ops) (D : Type) f (inp : mesh O D) fuel f' out,
  valid inp -> dense inp -> ready3 f inp -> update (CellF CSqrt3) fuel f inp = Ok (f', out) ->
  exists cen, root3_subdivision inp out (selected inp (csel f)) cen /\
    (forall id w, In (id, w) (faces out) -> exists pid, source3 inp cen pid w) /\
    (forall id w pid, In (id, w) (faces out) -> source3 inp cen pid w -> cell_datum out id = cell_datum inp pid) /\
    (forall id, cell_datum out id <> None -> exists w, In (id, w) (faces out)).
Proof. exact C55_cell_data_pf. Qed.
Print Assumptions C55_cell_data.

Example C55_cell_data_ex :
  valid strip4 /\ dense strip4 /\ ready3 (sel [2; 1]) strip4 /\
  match update (CellF CSqrt3) 100 (sel [2; 1]) strip4 with
  | Ok (f', out) => map (cell_datum out) [0; 1; 2; 3; 4; 5; 6; 7] = [Some 10; None; None; None; None; Some 12; Some 12; None]
  | _ => False end.
Proof. ex_start. vm_compute. repeat split. Qed.

(** C56.  The sqrt(3) filter, uniform or adaptive, changes neither the oriented border edges nor (no
    wire edges) the Euler characteristic; closed meshes stay closed. *)
Theorem C56_border_euler : forall (O : Ops) (D : Type) f (inp : mesh O D) fuel f' out,
  valid inp -> dense inp -> ready3 f inp -> update (CellF CSqrt3) fuel f inp = Ok (f', out) ->
  (forall a b, border_dir out a b <-> border_dir inp a b) /\ nB out = nB inp /\ (closed inp <-> closed out) /\
  (tris inp <> [] -> no_wire inp -> euler out = euler inp).
Proof. exact C56_border_euler_pf. Qed.
Print Assumptions C56_border_euler.

Example C56_border_euler_ex :
  valid torus7 /\ dense torus7 /\ ready3 (sel [4; 9; 0]) torus7 /\ tris torus7 <> [] /\ no_wire torus7 /\
  match update (CellF CSqrt3) 100 (sel [4; 9; 0]) torus7 with
  | Ok (f', out) => euler out = 0%Z /\ nB out = 0%Z /\ nF out = 20%Z | _ => False end.
Proof.
  ex_start. split; [vm_compute; discriminate|]. split; [apply no_wireb_ok; vm_compute; reflexivity|]. vm_compute. repeat split.
Qed.

(** C57.  Any number of Update() calls, each of any of the seven filters, uniform or adaptive: the mesh
    stays valid, the next call completes; closedness and (no wire edges in the input) the Euler
    characteristic never change. *)
Theorem C57_chains : forall (O : Ops) (D : Type) (inp : mesh O D) n out,
  valid inp -> dense inp -> tris inp <> [] -> chained_any inp n out ->
  valid out /\ dense out /\ tris out <> [] /\
  (closed inp -> closed out) /\
  (no_wire inp -> no_wire out /\ euler out = euler inp /\ (no_isolated inp -> no_isolated out)) /\
  forall k f, ready_any k f out -> exists f' out', completes (fun fuel => update k fuel f out) (Ok (f', out')).
Proof. exact C57_chains_pf. Qed.
Print Assumptions C57_chains.

Example C57_chains_ex :
  valid tri2 /\ dense tri2 /\ tris tri2 <> [] /\ no_wire tri2 /\ no_isolated tri2 /\
  exists out, chained_any tri2 3 out /\ nF out = 48%Z.
Proof.
  split; [ex_valid|]. split; [ex_dense|]. split; [vm_compute; discriminate|].
  split; [apply no_wireb_ok; vm_compute; reflexivity|].
  split; [apply no_isolatedb_ok; vm_compute; reflexivity|].
  destruct (chainb_ok [(CellF CLinear, new_filter); (CellF CSqrt3, sel [1; 4]); (EdgeF ELoop, new_filter)] tri2
    (fun m => Z.eqb (nF m) 48) 0 tri2 (chained_any_0 tri2)) as [out [H1 H2]]; [vm_compute; reflexivity|].
  exists out. split; [exact H1|apply Z.eqb_eq; exact H2].
Qed.

(** C58, uniform.  The iterative filter over sqrt(3) without a selection completes for every number k of
    levels for which the ids fit into 64 bits: 3^k times the cells, V + F (3^k - 1) / 2 points, valid,
    same Euler characteristic. *)
Theorem C58_iterative_uniform : forall (O : Ops) (D : Type) (levels : nat) (inp : mesh O D),
  valid inp -> dense inp -> tris inp <> [] ->
  (2 * nV inp + (3 ^ Z.of_nat (Nat.max 1 levels) - 1) * nF inp < 2 ^ 65)%Z ->
  exists f out, completes (fun fuel => iterative_update CSqrt3 levels fuel [] inp) (Ok (f, out)) /\
    nF out = (3 ^ Z.of_nat (Nat.max 1 levels) * nF inp)%Z /\
    (2 * nV out = 2 * nV inp + (3 ^ Z.of_nat (Nat.max 1 levels) - 1) * nF inp)%Z /\
    valid out /\ dense out /\ csel f = [] /\ (no_wire inp -> euler out = euler inp).
Proof. exact C58_iterative_uniform_pf. Qed.
Print Assumptions C58_iterative_uniform.

Example C58_iterative_uniform_ex :
  valid tetra /\ dense tetra /\ tris tetra <> [] /\ (2 * nV tetra + (3 ^ Z.of_nat (Nat.max 1 3) - 1) * nF tetra < 2 ^ 65)%Z /\
  match iterative_update CSqrt3 3 300 [] tetra with Ok (f, out) => nF out = 108%Z /\ nV out = 56%Z | _ => False end.
Proof. split; [ex_valid|]. split; [ex_dense|]. split; [vm_compute; discriminate|]. split; [vm_compute; reflexivity|]. vm_compute. repeat split. Qed.

(** C58, adaptive.  With a duplicate-free selection every level subdivides exactly the cells with a
    corner that the level before has inserted. *)
Theorem C58_iterative_adaptive : forall (O : Ops) (D : Type) (levels : nat) (sel : list N) (inp : mesh O D),
  valid inp -> dense inp -> sel <> [] -> NoDup sel -> existing inp sel ->
  (2 * nV inp + (3 ^ Z.of_nat (Nat.max 1 levels) - 1) * nF inp < 2 ^ 65)%Z ->
  exists f out, completes (fun fuel => iterative_update CSqrt3 levels fuel sel inp) (Ok (f, out)) /\
    valid out /\ dense out /\ csel f <> [] /\ levels3 (Nat.max 1 levels) sel inp (csel f) out.
Proof. exact C58_iterative_adaptive_pf. Qed.
Print Assumptions C58_iterative_adaptive.

Example C58_iterative_adaptive_ex :
  valid tetra /\ dense tetra /\ [2] <> [] /\ NoDup [2] /\ existing tetra [2] /\
  (2 * nV tetra + (3 ^ Z.of_nat (Nat.max 1 2) - 1) * nF tetra < 2 ^ 65)%Z /\
  match iterative_update CSqrt3 2 300 [2] tetra with Ok (f, out) => nF out = 12%Z /\ length (csel f) = 9%nat | _ => False end.
Proof.
  split; [ex_valid|]. split; [ex_dense|]. split; [discriminate|]. split; [repeat constructor; intros []|].
  split; [apply existingb_ok; vm_compute; reflexivity|]. split; [vm_compute; reflexivity|]. vm_compute. repeat split.
Qed.

(** C59.  Uniform sqrt(3): a point with faces on both sides of all its edges keeps its valence; a new
    point has valence 3 to 6, exactly 6 on a closed mesh. *)
Theorem C59_valence : forall (O : Ops) (D : Type) f (inp : mesh O D) fuel f' out,
  valid inp -> dense inp -> csel f = [] -> (nV inp + nF inp < 2 ^ 64)%Z ->
  update (CellF CSqrt3) fuel f inp = Ok (f', out) ->
  (forall v, oget v (pts inp) <> None -> ring inp v <> [] ->
     (forall w, joined inp v w -> In (v, w) (dirs (tris inp)) /\ In (w, v) (dirs (tris inp))) ->
     length (ring out v) = length (ring inp v)) /\
  (forall id, oget id (pts inp) = None -> oget id (pts out) <> None -> (3 <= length (ring out id) <= 6)%nat) /\
  (closed inp -> forall id, oget id (pts inp) = None -> oget id (pts out) <> None -> length (ring out id) = 6%nat).
Proof. exact C59_valence_pf. Qed.
Print Assumptions C59_valence.

Example C59_valence_ex :
  valid torus7 /\ dense torus7 /\ (nV torus7 + nF torus7 < 2 ^ 64)%Z /\ closed torus7 /\
  match update (CellF CSqrt3) 100 new_filter torus7 with
  | Ok (f', out) => length (ring torus7 3) = 6%nat /\ length (ring out 3) = 6%nat /\ length (ring out 12) = 6%nat | _ => False end.
Proof.
  split; [ex_valid|]. split; [ex_dense|]. split; [vm_compute; reflexivity|]. split; [apply closedb_ok; vm_compute; reflexivity|].
  vm_compute. repeat split.
Qed.

(** C59, any selection: who is joined to whom.  An original point is joined to the centres of the
    selected faces around it and to those neighbours whose common edge is not flipped; a centre to the
    corners of its face and to the centres of the selected faces across its edges. *)
Theorem C59_adaptive : forall (O : Ops) (D : Type) f (inp : mesh O D) fuel f' out,
  valid inp -> dense inp -> ready3 f inp -> tris inp <> [] -> update (CellF CSqrt3) fuel f inp = Ok (f', out) ->
  exists cen, root3_subdivision inp out (selected inp (csel f)) cen /\
   (forall v y, oget v (pts inp) <> None -> joined out v y <->
      (exists t, In t (tris inp) /\ In v (tverts t) /\ cen t = Some y) \/
      ((In (v, y) (dirs (tris inp)) \/ In (y, v) (dirs (tris inp))) /\
       ((forall h, ~ centred inp cen v y h) \/ (forall h, ~ centred inp cen y v h)))) /\
   (forall t g y, In t (tris inp) -> cen t = Some g ->
      joined out g y <-> In y (tverts t) \/ exists a b, In (a, b) (tdirs t) /\ centred inp cen b a y).
Proof. exact C59_adaptive_pf. Qed.
Print Assumptions C59_adaptive.

Example C59_adaptive_ex :
  valid strip4 /\ dense strip4 /\ ready3 (sel [2; 1]) strip4 /\ tris strip4 <> [] /\
  match update (CellF CSqrt3) 100 (sel [2; 1]) strip4 with
  | Ok (f', out) => In 7 (ring out 6) /\ length (ring out 6) = 4%nat /\ ~ In 1 (ring out 3) | _ => False end.
Proof. ex_start. split; [vm_compute; discriminate|]. vm_compute. repeat split; [tauto|]. intuition discriminate. Qed.

(** C60.  Two uniform sqrt(3) steps replace every interior edge by a path of three edges over two
    points of the second step. *)
Theorem C60_two_steps : forall (O : Ops) (D : Type) f1 f2 (inp : mesh O D) n1 n2 f1' m f2' out a b,
  valid inp -> dense inp -> csel f1 = [] -> csel f2 = [] -> (nV inp + 4 * nF inp < 2 ^ 64)%Z ->
  update (CellF CSqrt3) n1 f1 inp = Ok (f1', m) -> update (CellF CSqrt3) n2 f2 m = Ok (f2', out) ->
  In (a, b) (dirs (tris inp)) -> In (b, a) (dirs (tris inp)) ->
  ~ joined out a b /\ exists x y, oget x (pts m) = None /\ oget y (pts m) = None /\
    joined out a x /\ joined out x y /\ joined out y b.
Proof. exact C60_two_steps_pf. Qed.
Print Assumptions C60_two_steps.

Example C60_two_steps_ex :
  valid octa /\ dense octa /\ (nV octa + 4 * nF octa < 2 ^ 64)%Z /\ In (0, 1) (dirs (tris octa)) /\ In (1, 0) (dirs (tris octa)) /\
  match update (CellF CSqrt3) 100 new_filter octa with
  | Ok (f1, m) => match update (CellF CSqrt3) 100 new_filter m with Ok (f2, out) => nF out = 72%Z | _ => False end
  | _ => False end.
Proof. split; [ex_valid|]. split; [ex_dense|]. split; [vm_compute; reflexivity|]. split; [vm_compute; tauto|]. split; [vm_compute; tauto|]. vm_compute. reflexivity. Qed.

(** C60, exact coordinates: with opposite corners p and q, the two points on the way from a to b are
    (5a + 2b + p + q)/9 and (2a + 5b + p + q)/9. *)
Theorem C60_stencil : forall (d : nat) (D : Type) f1 f2 (inp : mesh (RO d) D) n1 n2 f1' m f2' out a b p q,
  valid inp -> dense inp -> csel f1 = [] -> csel f2 = [] -> (nV inp + 4 * nF inp < 2 ^ 64)%Z ->
  update (CellF CSqrt3) n1 f1 inp = Ok (f1', m) -> update (CellF CSqrt3) n2 f2 m = Ok (f2', out) ->
  is_face inp a b p -> is_face inp b a q ->
  exists x y, joined out a x /\ joined out x y /\ joined out y b /\
    forall i, crd out i x = ((5 * crd inp i a + 2 * crd inp i b + crd inp i p + crd inp i q) / 9)%R /\
              crd out i y = ((2 * crd inp i a + 5 * crd inp i b + crd inp i p + crd inp i q) / 9)%R.
Proof. exact C60_stencil_pf. Qed.
Print Assumptions C60_stencil.

Example C60_stencil_ex :
  valid (rmesh octa) /\ dense (rmesh octa) /\ (nV (rmesh octa) + 4 * nF (rmesh octa) < 2 ^ 64)%Z /\
  is_face (rmesh octa) 0 1 2 /\ is_face (rmesh octa) 1 0 4 /\
  exists n1 f1' m n2 f2' out, update (CellF CSqrt3) n1 new_filter (rmesh octa) = Ok (f1', m) /\
    update (CellF CSqrt3) n2 new_filter m = Ok (f2', out).
Proof.
  assert (V : valid (rmesh octa)) by ex_valid. assert (De : dense (rmesh octa)) by ex_dense.
  split; [exact V|]. split; [exact De|]. split; [vm_compute; reflexivity|].
  split; [left; vm_compute; tauto|]. split; [right; left; vm_compute; tauto|].
  assert (F : (nV (rmesh octa) + nF (rmesh octa) < 2 ^ 64)%Z) by (vm_compute; reflexivity).
  destruct (C42_uniform_pf _ _ new_filter (rmesh octa) V De eq_refl F) as [f1 [m [cen [[_ [n1 E1]] [_ [N1 [N2 [VD _]]]]]]]].
  destruct VD as [Vm Dm]; [vm_compute; discriminate|].
  destruct (run_exists3 new_filter m Vm Dm) as [n2 [f2 [out E2]]].
  { split; [intros i []|]. split; [constructor|]. rewrite N1, N2. vm_compute. reflexivity. }
  exists n1, f1, m, n2, f2, out. split; [apply E1; apply le_n|exact E2].
Qed.

(** C48 for the sqrt(3) filter: ids, edges, faces and the reported list depend on the connectivity of
    the input and the selection only. *)
Theorem C48_sqrt3 : forall (O1 O2 : Ops) (D1 D2 : Type) f (m1 : mesh O1 D1) (m2 : mesh O2 D2) n1 n2 f1' o1 f2' o2,
  valid m1 -> dense m1 -> ready3 f m1 -> valid m2 -> same_connectivity m1 m2 ->
  update (CellF CSqrt3) n1 f m1 = Ok (f1', o1) -> update (CellF CSqrt3) n2 f m2 = Ok (f2', o2) ->
  same_connectivity o1 o2 /\ csel f1' = csel f2'.
Proof. exact C48_sqrt3_pf. Qed.
Print Assumptions C48_sqrt3.

Example C48_sqrt3_ex : forall (M : nat -> nat -> R) (t : nat -> R),
  let m1 := octa in let m2 : mesh (RO 2) N := affine_mesh M t (rmesh octa) in
  valid m1 /\ dense m1 /\ ready3 (sel [1; 6; 2]) m1 /\ valid m2 /\ same_connectivity m1 m2 /\
  (exists fuel f' out, update (CellF CSqrt3) fuel (sel [1; 6; 2]) m1 = Ok (f', out)) /\
  (exists fuel f' out, update (CellF CSqrt3) fuel (sel [1; 6; 2]) m2 = Ok (f', out)).
Proof.
  intros M t m1 m2. unfold m1, m2. ex_start. split; [ex_valid|]. split; [vm_compute; repeat split; reflexivity|]. split; ex_real.
Qed.

(** C21 for the sqrt(3) filter: affine invariance, no condition on fans. *)
Theorem C21_sqrt3 : forall (d1 d2 : nat) (D1 D2 : Type) f (m1 : mesh (RO d1) D1) (m2 : mesh (RO d2) D2) M t n1 n2 f1 o1 f2 o2,
  valid m1 -> dense m1 -> ready3 f m1 -> valid m2 -> same_connectivity m1 m2 -> affine_image M t m1 m2 ->
  update (CellF CSqrt3) n1 f m1 = Ok (f1, o1) -> update (CellF CSqrt3) n2 f m2 = Ok (f2, o2) ->
  same_connectivity o1 o2 /\ affine_image M t o1 o2.
Proof. exact C21_sqrt3_pf. Qed.
Print Assumptions C21_sqrt3.

Example C21_sqrt3_ex : forall (M : nat -> nat -> R) (t : nat -> R),
  let m1 := rmesh fan4 in let m2 : mesh (RO 2) N := affine_mesh M t m1 in
  valid m1 /\ dense m1 /\ ready3 (sel [1; 2]) m1 /\ valid m2 /\ same_connectivity m1 m2 /\ affine_image M t m1 m2 /\
  (exists fuel f' out, update (CellF CSqrt3) fuel (sel [1; 2]) m1 = Ok (f', out)) /\
  (exists fuel f' out, update (CellF CSqrt3) fuel (sel [1; 2]) m2 = Ok (f', out)).
Proof.
  intros M t m1 m2. unfold m1, m2. ex_start. split; [ex_valid|]. split; [apply affine_mesh_same|]. split; [apply affine_mesh_image|]. split; ex_real.
Qed.

(** C22 for the sqrt(3) filter: the output stays in every half-space that contains the input. *)
Theorem C22_sqrt3 : forall (d : nat) (D : Type) f (inp : mesh (RO d) D) fuel f' out c h,
  valid inp -> dense inp -> ready3 f inp -> in_halfspace c h inp ->
  update (CellF CSqrt3) fuel f inp = Ok (f', out) -> in_halfspace c h out.
Proof. exact C22_sqrt3_pf. Qed.
Print Assumptions C22_sqrt3.

Example C22_sqrt3_ex :
  let m := rmesh fan4 in
  valid m /\ dense m /\ ready3 (sel [1; 2]) m /\ in_halfspace (fun i => if Nat.eqb i 2 then 1 else 0)%R 0%R m /\
  (exists fuel f' out, update (CellF CSqrt3) fuel (sel [1; 2]) m = Ok (f', out)).
Proof.
  cbv zeta. ex_start. split; [|ex_real].
  intros id Hid. unfold rsum. cbn [seq fold_right Nat.eqb]. rewrite !Rmult_0_l, !Rplus_0_l, Rplus_0_r, Rmult_1_l. apply Req_le.
  assert (E : pts fan4 = number [zpt (d := 3) [0; 0; 0]%Z; zpt (d := 3) [16; 0; 0]%Z; zpt (d := 3) [0; 16; 0]%Z; zpt (d := 3) [-16; 0; 0]%Z; zpt (d := 3) [0; -16; 0]%Z])
    by (vm_compute; reflexivity).
  unfold crd, ptof, rmesh. cbn [pts]. rewrite E. cbn -[N.eqb].
  repeat match goal with |- context [if ?k =? id then _ else _] => destruct (k =? id); [cbn; unfold Q2R; cbn; lra|] end.
  reflexivity.
Qed.
