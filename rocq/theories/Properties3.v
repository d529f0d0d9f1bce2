(** * Properties3: coordinates.

    Theorems only; proofs are in GeoProps.v.  [RO d]: exact real arithmetic in dimension d. *)
From Coq Require Import Reals Lra QArith.
From Verif Require Import Base Mesh Filters Drivers Samples Spec SpecSub SpecGeo Lists Check Geo GeoProps CheckGeo.

Open Scope N_scope.

(** C16, for any arithmetic whose addition commutes (IEEE double included): every new point of the
    Linear filters is (p + q) / 2, coordinate by coordinate, of the two end points of its edge. *)
Theorem C16_midpoint_any : forall (O : Ops) (D : Type) k f (inp : mesh O D) fuel f' out,
  (forall x y, kadd O x y = kadd O y x) -> k = CellF CLinear \/ k = EdgeF ELinear ->
  valid inp -> dense inp -> ready k f inp -> update k fuel f inp = Ok (f', out) ->
  exists mid Ls, subdivision inp out (to_split k f inp) mid Ls /\
    forall a b m, mid a b = Some m -> exists p q,
      oget a (pts inp) = Some p /\ oget b (pts inp) = Some q /\
      oget m (pts out) = Some (map2 (fun x y => kdiv O (kadd O x y) (kZ O 2)) p q).
Proof. exact C16_midpoint_any_pf. Qed.
Print Assumptions C16_midpoint_any.

Example C16_midpoint_any_ex :
  (forall x y, kadd Q3 x y = kadd Q3 y x) /\
  (valid mixed /\ dense mixed /\ ready (CellF CLinear) (sel [1]) mixed /\ tris mixed <> [] /\
  exists f' out, update (CellF CLinear) 100 (sel [1]) mixed = Ok (f', out) /\ nF out = 6%Z).
Proof.
  split; [intros x y; apply Qred_complete, Qplus_comm|]. ex_run.
Qed.

(** C16 with exact coordinates: every new point of the Linear filters is the midpoint. *)
Theorem C16_midpoint : forall (d : nat) (D : Type) k f (inp : mesh (RO d) D) fuel f' out,
  k = CellF CLinear \/ k = EdgeF ELinear ->
  valid inp -> dense inp -> ready k f inp -> update k fuel f inp = Ok (f', out) ->
  exists mid Ls, subdivision inp out (to_split k f inp) mid Ls /\
    forall a b m i, mid a b = Some m -> crd out i m = ((crd inp i a + crd inp i b) / 2)%R.
Proof. exact C16_midpoint_pf. Qed.
Print Assumptions C16_midpoint.

Example C16_midpoint_ex :
  valid (rmesh strip4) /\ dense (rmesh strip4) /\ ready (CellF CLinear) (sel [0; 2]) (rmesh strip4) /\ tris (rmesh strip4) <> [] /\
  (exists fuel f' out, update (CellF CLinear) fuel (sel [0; 2]) (rmesh strip4) = Ok (f', out)).
Proof.
  ex_good. apply run_exists; [apply validb_ok|apply denseb_ok|apply readyb_ok]; vm_compute; reflexivity.
Qed.

(** C17.  Loop filters, uniform or adaptive: a new point is 3/8, 3/8, 1/8, 1/8 on an interior edge
    and the midpoint on a border edge; every split edge is one or the other. *)
Theorem C17_edge_rule : forall (d : nat) (D : Type) k f (inp : mesh (RO d) D) fuel f' out,
  k = CellF CLoop \/ k = EdgeF ELoop ->
  valid inp -> dense inp -> ready k f inp -> update k fuel f inp = Ok (f', out) ->
  exists mid Ls, subdivision inp out (to_split k f inp) mid Ls /\
    forall a b m, mid a b = Some m ->
      (interior_edge inp a b \/ border_edge inp a b) /\
      (interior_edge inp a b -> exists c e, is_face inp a b c /\ is_face inp b a e) /\
      (forall c e i, is_face inp a b c -> is_face inp b a e ->
         crd out i m = (3 / 8 * crd inp i a + 3 / 8 * crd inp i b + 1 / 8 * crd inp i c + 1 / 8 * crd inp i e)%R) /\
      (border_edge inp a b -> forall i, crd out i m = ((crd inp i a + crd inp i b) / 2)%R).
Proof. exact C17_edge_rule_pf. Qed.
Print Assumptions C17_edge_rule.

Example C17_edge_rule_ex :
  valid (rmesh strip4) /\ dense (rmesh strip4) /\ ready (CellF CLoop) (sel [1]) (rmesh strip4) /\ tris (rmesh strip4) <> [] /\
  (exists fuel f' out, update (CellF CLoop) fuel (sel [1]) (rmesh strip4) = Ok (f', out)) /\
  is_face (rmesh strip4) 2 1 3 /\ is_face (rmesh strip4) 1 2 0 /\ border_edge (rmesh strip4) 2 3.
Proof.
  ex_good. split; [apply run_exists; [apply validb_ok|apply denseb_ok|apply readyb_ok]; vm_compute; reflexivity|].
  split; [apply is_faceb_ok; vm_compute; reflexivity|]. split; [apply is_faceb_ok; vm_compute; reflexivity|].
  apply borderb_edge; [apply validb_ok|]; vm_compute; reflexivity.
Qed.

(** C18.  Uniform Loop subdivision moves every input point: an interior point by Loop's weight, a
    border point by 3/4 and 1/8 of each neighbour along the border. *)
Theorem C18_vertex_rule : forall (d : nat) (D : Type) f (inp : mesh (RO d) D) fuel f' out v i,
  valid inp -> dense inp -> no_isolated inp -> csel f = [] -> uniform f = true ->
  update (CellF CLoop) fuel f inp = Ok (f', out) -> oget v (pts inp) <> None ->
  let n := length (ring inp v) in
  let beta := loop_weight (N.of_nat n) in
  (interior_vertex inp v ->
     crd out i v = ((1 - IZR (Z.of_nat n) * beta) * crd inp i v + beta * rsum (crd inp i) (ring inp v))%R) /\
  (forall B, border_neighbours inp v B -> B <> [] ->
     crd out i v = (3 / 4 * crd inp i v + 1 / 8 * rsum (crd inp i) B)%R).
Proof. exact C18_vertex_rule_pf. Qed.
Print Assumptions C18_vertex_rule.

Example C18_vertex_rule_ex :
  valid (rmesh fan4) /\ dense (rmesh fan4) /\ ready (CellF CLoop) new_filter (rmesh fan4) /\ tris (rmesh fan4) <> [] /\
  no_isolated (rmesh fan4) /\ csel new_filter = [] /\ uniform new_filter = true /\
  (exists fuel f' out, update (CellF CLoop) fuel new_filter (rmesh fan4) = Ok (f', out)) /\
  interior_vertex (rmesh fan4) 0 /\ length (ring (rmesh fan4) 0) = 4%nat /\
  border_neighbours (rmesh fan4) 1 [2; 4].
Proof.
  ex_good. split; [apply no_isolatedb_ok; vm_compute; reflexivity|]. split; [reflexivity|]. split; [reflexivity|].
  assert (V : valid (rmesh fan4)) by (apply validb_ok; vm_compute; reflexivity).
  split; [apply run_exists; [exact V|apply denseb_ok|apply readyb_ok]; vm_compute; reflexivity|].
  split.
  { split; [vm_compute; discriminate|]. intros w Hw. apply (borderb_ok _ 0 V) in Hw. vm_compute in Hw. exact Hw. }
  split; [reflexivity|].
  assert (B : borderb (rmesh fan4) 1 = [2; 4]) by (vm_compute; reflexivity). rewrite <- B. apply borderb_ok. exact V.
Qed.

(** C19.  Butterfly filters: on an edge whose two triangles and four further neighbours exist, the
    new point is 1/2, 1/2, 1/8, 1/8 and -1/16 four times. *)
Theorem C19_butterfly_stencil : forall (d : nat) (D : Type) k f (inp : mesh (RO d) D) fuel f' out,
  k = CellF CButterfly \/ k = EdgeF EButterfly ->
  valid inp -> dense inp -> ready k f inp -> update k fuel f inp = Ok (f', out) ->
  exists mid Ls, subdivision inp out (to_split k f inp) mid Ls /\
    forall a b m c e w1 w2 w3 w4 i, mid a b = Some m ->
      is_face inp a b c -> is_face inp b a e ->
      is_face inp c b w1 -> is_face inp a c w2 -> is_face inp b e w3 -> is_face inp e a w4 ->
      crd out i m = (1 / 2 * (crd inp i a + crd inp i b) + 1 / 8 * (crd inp i c + crd inp i e)
                     - 1 / 16 * (crd inp i w1 + crd inp i w2 + crd inp i w3 + crd inp i w4))%R.
Proof. exact C19_butterfly_stencil_pf. Qed.
Print Assumptions C19_butterfly_stencil.

Example C19_butterfly_stencil_ex :
  valid (rmesh torus7) /\ dense (rmesh torus7) /\ ready (CellF CButterfly) new_filter (rmesh torus7) /\ tris (rmesh torus7) <> [] /\
  (exists fuel f' out, update (CellF CButterfly) fuel new_filter (rmesh torus7) = Ok (f', out)) /\
  is_face (rmesh torus7) 0 1 3 /\ is_face (rmesh torus7) 1 0 5 /\ is_face (rmesh torus7) 3 1 4 /\
  is_face (rmesh torus7) 0 3 2 /\ is_face (rmesh torus7) 1 5 6 /\ is_face (rmesh torus7) 5 0 4.
Proof.
  ex_good. split; [apply run_exists; [apply validb_ok|apply denseb_ok|apply readyb_ok]; vm_compute; reflexivity|].
  repeat split; apply is_faceb_ok; vm_compute; reflexivity.
Qed.

(** C21.  For every face-split filter, uniform or adaptive, and every affine map between spaces of
    any dimensions: subdividing the image of a mesh gives the image of the subdivided mesh.  For the
    Loop cell filter every point must have at most one fan of triangles (see
    [C21_several_fans_refuted]). *)
Theorem C21_affine : forall (d1 d2 : nat) (D1 D2 : Type) k f (m1 : mesh (RO d1) D1) (m2 : mesh (RO d2) D2)
    M t n1 n2 f1 o1 f2 o2,
  valid m1 -> dense m1 -> ready k f m1 -> valid m2 -> same_connectivity m1 m2 ->
  (k = CellF CLoop -> forall v, one_fan m1 v) ->
  affine_image M t m1 m2 ->
  update k n1 f m1 = Ok (f1, o1) -> update k n2 f m2 = Ok (f2, o2) ->
  same_connectivity o1 o2 /\ affine_image M t o1 o2.
Proof. exact C21_affine_pf. Qed.
Print Assumptions C21_affine.

Example C21_affine_ex : forall (M : nat -> nat -> R) (t : nat -> R),
  let m1 := rmesh fan4 in let m2 : mesh (RO 2) N := affine_mesh M t m1 in
  valid m1 /\ dense m1 /\ ready (CellF CLoop) new_filter m1 /\ tris m1 <> [] /\ valid m2 /\
  same_connectivity m1 m2 /\ (forall v, one_fan m1 v) /\ affine_image M t m1 m2 /\
  (exists fuel f' out, update (CellF CLoop) fuel new_filter m1 = Ok (f', out)) /\
  (exists fuel f' out, update (CellF CLoop) fuel new_filter m2 = Ok (f', out)).
Proof.
  intros M t m1 m2.
  assert (V1 : valid m1) by (apply validb_ok; vm_compute; reflexivity).
  assert (V2 : valid m2) by (apply validb_ok; vm_compute; reflexivity).
  split; [exact V1|]. split; [apply denseb_ok; vm_compute; reflexivity|].
  split; [apply readyb_ok; vm_compute; reflexivity|]. split; [vm_compute; discriminate|]. split; [exact V2|].
  split; [apply affine_mesh_same|]. split; [apply one_fansb_ok; [exact V1|vm_compute; reflexivity]|].
  split; [apply affine_mesh_image|].
  split; apply run_exists; try assumption; try (apply denseb_ok; vm_compute; reflexivity); apply readyb_ok; vm_compute; reflexivity.
Qed.

(** Two triangles that meet in one point, far from the origin. *)
Definition bowtie_far : mesh Q3 N :=
  build (number [zpt [1000; 0; 0]%Z; zpt [1016; 0; 0]%Z; zpt [1000; 16; 0]%Z; zpt [984; 0; 0]%Z; zpt [1000; -16; 0]%Z])
        [[0; 1; 2]; [0; 3; 4]].

(** C21, refuted without the restriction to one fan: the border rule of Loop adds all border
    neighbours; with two fans the weights add up to 5/4, so that moving the mesh by (1000,0,0) moves
    the shared point by (1250,0,0). *)
Theorem C21_several_fans_refuted : exists m1 m2 : mesh Q3 N,
  valid m1 /\ dense m1 /\ ready (CellF CLoop) new_filter m1 /\ valid m2 /\ same_connectivity m1 m2 /\
  (forall id p, oget id (pts m1) = Some p -> exists q, oget id (pts m2) = Some q /\ map2 (ksub Q3) q p = zpt [1000; 0; 0]%Z) /\
  exists f1 o1 f2 o2 p q, update (CellF CLoop) 100 new_filter m1 = Ok (f1, o1) /\
    update (CellF CLoop) 100 new_filter m2 = Ok (f2, o2) /\
    oget 0 (pts o1) = Some p /\ oget 0 (pts o2) = Some q /\ map2 (ksub Q3) q p = zpt [1250; 0; 0]%Z.
Proof.
  exists bowtie, bowtie_far.
  split; [apply validb_ok; vm_compute; reflexivity|]. split; [apply denseb_ok; vm_compute; reflexivity|].
  split; [apply readyb_ok; vm_compute; reflexivity|]. split; [apply validb_ok; vm_compute; reflexivity|].
  split; [vm_compute; auto|].
  split.
  { assert (E : pts bowtie = number [zpt (d := 3) [0; 0; 0]%Z; zpt (d := 3) [16; 0; 0]%Z; zpt (d := 3) [0; 16; 0]%Z; zpt (d := 3) [-16; 0; 0]%Z; zpt (d := 3) [0; -16; 0]%Z])
      by (vm_compute; reflexivity).
    intros id p H. rewrite E in H. cbn -[N.eqb] in H.
    repeat match type of H with context [if ?k =? id then _ else _] => destruct (N.eqb_spec k id); [subst id; inversion H; subst p; eexists; split; vm_compute; reflexivity|] end.
    discriminate. }
  assert (R : forall m : mesh Q3 N, forall p, match update (CellF CLoop) 100 new_filter m with Ok (_, o) => oget 0 (pts o) = Some p | _ => False end ->
            exists f1 o, update (CellF CLoop) 100 new_filter m = Ok (f1, o) /\ oget 0 (pts o) = Some p).
  { intros m p. destruct (update (CellF CLoop) 100 new_filter m) as [[f o]| | |]; try tauto. intros H. exists f, o. auto. }
  destruct (R bowtie (zpt [0; 0; 0]%Z)) as [f1 [o1 [E1 P1]]]; [vm_compute; reflexivity|].
  destruct (R bowtie_far (zpt [1250; 0; 0]%Z)) as [f2 [o2 [E2 P2]]]; [vm_compute; reflexivity|].
  exists f1, o1, f2, o2, (zpt [0; 0; 0]%Z), (zpt [1250; 0; 0]%Z). repeat split; auto.
Qed.
Print Assumptions C21_several_fans_refuted.

(** C22.  Linear and Loop filters stay in the convex hull: every half-space that contains the points
    of the input contains the points of the output.  (Loop: at most one fan per point.) *)
Theorem C22_convex : forall (d : nat) (D : Type) k f (inp : mesh (RO d) D) fuel f' out c h,
  k <> CellF CButterfly -> k <> EdgeF EButterfly ->
  valid inp -> dense inp -> ready k f inp -> (k = CellF CLoop -> forall v, one_fan inp v) ->
  in_halfspace c h inp -> update k fuel f inp = Ok (f', out) -> in_halfspace c h out.
Proof. exact C22_convex_pf. Qed.
Print Assumptions C22_convex.

Example C22_convex_ex :
  let m := rmesh fan4 in
  valid m /\ dense m /\ ready (CellF CLoop) new_filter m /\ tris m <> [] /\ (forall v, one_fan m v) /\
  in_halfspace (fun i => if Nat.eqb i 2 then 1 else 0)%R 0%R m /\
  (exists fuel f' out, update (CellF CLoop) fuel new_filter m = Ok (f', out)).
Proof.
  cbv zeta. ex_good.
  assert (V : valid (rmesh fan4)) by (apply validb_ok; vm_compute; reflexivity).
  split; [apply one_fansb_ok; [exact V|vm_compute; reflexivity]|].
  split; [|apply run_exists; [exact V|apply denseb_ok|apply readyb_ok]; vm_compute; reflexivity].
  intros id Hid. unfold rsum. cbn [seq fold_right Nat.eqb]. rewrite !Rmult_0_l, !Rplus_0_l, Rplus_0_r, Rmult_1_l. apply Req_le.
  assert (E : pts fan4 = number [zpt (d := 3) [0; 0; 0]%Z; zpt (d := 3) [16; 0; 0]%Z; zpt (d := 3) [0; 16; 0]%Z; zpt (d := 3) [-16; 0; 0]%Z; zpt (d := 3) [0; -16; 0]%Z])
    by (vm_compute; reflexivity).
  unfold crd, ptof, rmesh. cbn [pts]. rewrite E. cbn -[N.eqb].
  repeat match goal with |- context [if ?k =? id then _ else _] => destruct (k =? id); [cbn; unfold Q2R; cbn; lra|] end.
  reflexivity.
Qed.

(** C22, refuted without the restriction to one fan: all input points have x <= 1016, the shared
    point of the two triangles moves to x = 1250. *)
Theorem C22_several_fans_refuted : exists m : mesh Q3 N,
  valid m /\ dense m /\ ready (CellF CLoop) new_filter m /\
  (forall id p, In (id, p) (pts m) -> Qle (nth 0 p 0%Q) 1016) /\
  exists f' out p, update (CellF CLoop) 100 new_filter m = Ok (f', out) /\ oget 0 (pts out) = Some p /\ nth 0 p 0%Q = 1250%Q.
Proof.
  exists bowtie_far.
  split; [apply validb_ok; vm_compute; reflexivity|]. split; [apply denseb_ok; vm_compute; reflexivity|].
  split; [apply readyb_ok; vm_compute; reflexivity|].
  split.
  { assert (E : pts bowtie_far = number [zpt (d := 3) [1000; 0; 0]%Z; zpt (d := 3) [1016; 0; 0]%Z; zpt (d := 3) [1000; 16; 0]%Z; zpt (d := 3) [984; 0; 0]%Z; zpt (d := 3) [1000; -16; 0]%Z])
      by (vm_compute; reflexivity).
    intros id p H. rewrite E in H. cbn in H.
    repeat (destruct H as [H|H]; [inversion H; subst; vm_compute; discriminate|]). destruct H. }
  assert (R : forall m : mesh Q3 N, forall p, match update (CellF CLoop) 100 new_filter m with Ok (_, o) => oget 0 (pts o) = Some p | _ => False end ->
            exists f1 o, update (CellF CLoop) 100 new_filter m = Ok (f1, o) /\ oget 0 (pts o) = Some p).
  { intros m p. destruct (update (CellF CLoop) 100 new_filter m) as [[f o]| | |]; try tauto. intros H. exists f, o. auto. }
  destruct (R bowtie_far (zpt [1250; 0; 0]%Z)) as [f2 [o2 [E2 P2]]]; [vm_compute; reflexivity|].
  exists f2, o2, (zpt [1250; 0; 0]%Z). repeat split; auto.
Qed.
Print Assumptions C22_several_fans_refuted.

(** C22, the weights: for every number of neighbours Loop's weights are positive and the point keeps
    between 25/64 and 49/64 of its own position. *)
Theorem C22_weight_bounds : forall n : N, 1 <= n ->
  (0 < loop_weight n /\ 15 / 64 <= IZR (Z.of_N n) * loop_weight n <= 39 / 64)%R.
Proof. exact C22_weight_bounds_pf. Qed.
Print Assumptions C22_weight_bounds.

Example C22_weight_bounds_ex : loop_weight 3 = (3 / 16)%R.
Proof. unfold loop_weight. cbn [Z.of_N]. rewrite cos_third. lra. Qed.

(** C23.  For any arithmetic and any input data: what Loop does along the border depends only on the
    border points, so that two meshes that agree there still agree, bit by bit, on the old and new
    border points of the result. *)
Theorem C23_border : forall (O : Ops) (D1 D2 : Type) f (m1 : mesh O D1) (m2 : mesh O D2) n1 n2 f1 o1 f2 o2,
  valid m1 -> dense m1 -> ready (CellF CLoop) f m1 -> valid m2 -> same_connectivity m1 m2 ->
  (forall v w, border_edge m1 v w -> oget v (pts m1) = oget v (pts m2)) ->
  update (CellF CLoop) n1 f m1 = Ok (f1, o1) -> update (CellF CLoop) n2 f m2 = Ok (f2, o2) ->
  (forall v w, border_edge m1 v w -> oget v (pts o1) = oget v (pts o2)) /\
  exists mid Ls, subdivision m1 o1 (to_split (CellF CLoop) f m1) mid Ls /\
    forall a b m, border_edge m1 a b -> mid a b = Some m -> oget m (pts o1) = oget m (pts o2).
Proof. exact C23_border_pf. Qed.
Print Assumptions C23_border.

Example C23_border_ex :
  let m1 := fan4 in let m2 := set_point fan4 0 (zpt [3; 5; 40]%Z) in
  valid m1 /\ dense m1 /\ ready (CellF CLoop) new_filter m1 /\ tris m1 <> [] /\ valid m2 /\ same_connectivity m1 m2 /\
  (forall v w, border_edge m1 v w -> oget v (pts m1) = oget v (pts m2)) /\ oget 0 (pts m1) <> oget 0 (pts m2) /\
  border_edge m1 1 2 /\
  (exists fuel f' out, update (CellF CLoop) fuel new_filter m1 = Ok (f', out)) /\
  (exists fuel f' out, update (CellF CLoop) fuel new_filter m2 = Ok (f', out)).
Proof.
  cbv zeta. ex_good.
  assert (V : valid fan4) by (apply validb_ok; vm_compute; reflexivity).
  split; [apply validb_ok; vm_compute; reflexivity|]. split; [vm_compute; auto|].
  split.
  { intros v w H. destruct (N.eq_dec v 0) as [->|Hn].
    - exfalso. apply (borderb_ok fan4 0 V) in H. vm_compute in H. exact H.
    - symmetry. apply oget_oset_other. congruence. }
  split; [vm_compute; discriminate|]. split; [apply borderb_edge; [exact V|vm_compute; reflexivity]|].
  split; (apply run_exists; [apply validb_ok|apply denseb_ok|apply readyb_ok]; vm_compute; reflexivity).
Qed.

(** C25, refuted: for three neighbours the documented weight is 1/16, Loop's (the implemented one) 3/16. *)
Theorem C25_refuted : exists n : N, documented_weight n = (1 / 16)%R /\ loop_weight n = (3 / 16)%R.
Proof. exact C25_refuted_pf. Qed.
Print Assumptions C25_refuted.

(** C25: the documented weight is too small for every number of neighbours. *)
Theorem C25_weights_differ : forall n : N, 1 <= n -> (documented_weight n < loop_weight n)%R.
Proof. exact C25_weights_differ_pf. Qed.
Print Assumptions C25_weights_differ.

Example C25_weights_differ_ex : exists n : N, 1 <= n. Proof. exists 6. lia. Qed.

(** C25: in uniform Loop subdivision the documented rule gives the right coordinate of an interior
    point exactly if the point already is the mean of its neighbours in that coordinate. *)
Theorem C25_documented_rule : forall (d : nat) (D : Type) f (inp : mesh (RO d) D) fuel f' out v i,
  valid inp -> dense inp -> no_isolated inp -> csel f = [] -> uniform f = true ->
  update (CellF CLoop) fuel f inp = Ok (f', out) -> oget v (pts inp) <> None -> interior_vertex inp v ->
  let n := length (ring inp v) in
  let beta := documented_weight (N.of_nat n) in
  crd out i v = ((1 - IZR (Z.of_nat n) * beta) * crd inp i v + beta * rsum (crd inp i) (ring inp v))%R <->
  (IZR (Z.of_nat n) * crd inp i v)%R = rsum (crd inp i) (ring inp v).
Proof. exact C25_documented_rule_pf. Qed.
Print Assumptions C25_documented_rule.

Example C25_documented_rule_ex :
  valid (rmesh fan4) /\ dense (rmesh fan4) /\ no_isolated (rmesh fan4) /\ csel new_filter = [] /\ uniform new_filter = true /\
  (exists fuel f' out, update (CellF CLoop) fuel new_filter (rmesh fan4) = Ok (f', out)) /\
  oget 0 (pts (rmesh fan4)) <> None /\ interior_vertex (rmesh fan4) 0.
Proof.
  assert (V : valid (rmesh fan4)) by (apply validb_ok; vm_compute; reflexivity).
  split; [exact V|]. split; [apply denseb_ok; vm_compute; reflexivity|].
  split; [apply no_isolatedb_ok; vm_compute; reflexivity|]. split; [reflexivity|]. split; [reflexivity|].
  split; [apply run_exists; [exact V|apply denseb_ok|apply readyb_ok]; vm_compute; reflexivity|].
  split; [vm_compute; discriminate|].
  split; [vm_compute; discriminate|]. intros w Hw. apply (borderb_ok _ 0 V) in Hw. vm_compute in Hw. exact Hw.
Qed.
