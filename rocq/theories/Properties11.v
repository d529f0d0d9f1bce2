(** * Properties11: theorems without conditions on ids or selections (C04, C21, C22, C38, C48, C83),
    the outside of an adaptive iterative run (C33), sqrt(3) with repeated ids beside a wire edge (C47).

    Theorems only; proofs are in SimProps.v, Reach.v and More.v. *)
From Coq Require Import Sorted Reals Lra QArith.
From Verif Require Import Base Mesh Filters Drivers Samples Spec SpecSub SpecGeo SpecDrive SpecRoot3 Lists Check CheckGeo CheckDrive
  DriveProps SimProps Reach More.

Open Scope N_scope.

Ltac ex_valid := apply validb_ok; vm_compute; reflexivity.
Ltac ex_dense := apply denseb_ok; vm_compute; reflexivity.
(** Two triangles, the ids not contiguous: 0, 1, 2, 100. *)
Definition gaps : mesh Q3 N :=
  build [(0, zpt [0; 0; 0]%Z); (1, zpt [16; 0; 0]%Z); (2, zpt [0; 16; 0]%Z); (100, zpt [16; 16; 0]%Z)] [[0; 1; 2]; [2; 1; 100]].
(** The same point list and cells without any edges: not a mesh ITK would build. *)
Definition broken : mesh Q3 N := Mesh (O := Q3) (pts tri2) [] (cells tri2) None None.

(** A run over the rationals has a counterpart over the reals. *)
Lemma rmesh_same (m : mesh Q3 N) : same_connectivity m (rmesh m).
Proof. unfold same_connectivity, rmesh. cbn. split; [|auto]. unfold okeys. rewrite map_map. reflexivity. Qed.
Lemma run_real k fuel f (m : mesh Q3 N) {O D} (m2 : mesh O D) : NoDup (okeys (pts m)) -> same_connectivity m m2 ->
  match update k fuel f m with Ok _ => True | _ => False end -> exists f' out, update k fuel f m2 = Ok (f', out).
Proof.
  intros Hn Hs H. pose proof (C48_any_pf Q3 O N D k f m m2 fuel Hs (fun _ => Hn)) as G.
  destruct (update k fuel f m) as [[f1 o1]| | |]; try tauto.
  destruct (update k fuel f m2) as [[f2 o2]| | |]; try tauto. eauto.
Qed.
Ltac ex_nodup := vm_compute; repeat constructor; cbn; intuition discriminate.

(** C04.  Whatever the input and the selection (unknown ids, repeated ids, gaps between point ids,
    twin faces, inconsistent containers): if Update() completes, every cell of the output is a triangle
    on three different existing points. *)
Theorem C04_any : forall (O : Ops) (D : Type) k f (inp : mesh O D) fuel f' out, update k fuel f inp = Ok (f', out) ->
  forall cs id c, cells out = Some cs -> In (id, c) cs ->
  exists x y z, c = Some (Poly [x; y; z]) /\ x <> y /\ y <> z /\ z <> x /\
    oget x (pts out) <> None /\ oget y (pts out) <> None /\ oget z (pts out) <> None.
Proof. exact C04_any_pf. Qed.
Print Assumptions C04_any.

Example C04_any_ex :
  match update (CellF CLinear) 100 (sel [1; 0; 1]) gaps with
  | Ok (_, out) => exists cs, cells out = Some cs /\ (length cs = 8)%nat | _ => False end /\
  match update (CellF CSqrt3) 100 (sel [0; 0]) pillow with
  | Ok (_, out) => exists cs, cells out = Some cs /\ cs <> [] | _ => False end.
Proof. split; vm_compute; eexists; (split; [reflexivity|]); [reflexivity|discriminate]. Qed.

(** C83.  Whatever the input and the selection: if Update() completes, the cells of the output have the
    ids 0, 1, 2, ... without gaps, and no oriented edge belongs to two of them. *)
Theorem C83_any : forall (O : Ops) (D : Type) k f (inp : mesh O D) fuel f' out, update k fuel f inp = Ok (f', out) ->
  map fst (faces out) = map N.of_nat (seq 0 (length (faces out))) /\ nF out = Z.of_nat (length (faces out)) /\
  NoDup (dirs (tris out)) /\
  forall a b t u, In t (tris out) -> In u (tris out) -> In (a, b) (tdirs t) -> In (a, b) (tdirs u) -> t = u.
Proof. exact C83_any_pf. Qed.
Print Assumptions C83_any.

Example C83_any_ex :
  match update (CellF CLinear) 100 (sel [1; 0; 1]) gaps with
  | Ok (_, out) => map fst (faces out) = [0; 1; 2; 3; 4; 5; 6; 7] | _ => False end /\
  match update (CellF CSqrt3) 100 new_filter (build (number [zpt (d := 3) [0; 0; 0]%Z; zpt (d := 3) [16; 0; 0]%Z; zpt (d := 3) [0; 16; 0]%Z]) [[0; 1; 2]; [0; 2; 1]]) with
  | Ok (_, out) => faces out <> [] | _ => False end.
Proof. split; vm_compute; [reflexivity|discriminate]. Qed.

(** C21.  All seven filters, every selection, every valid mesh with or without gaps between ids: on a mesh
    and on its affine image Update() has the same outcome, and the outputs are affine images of each
    other with the same connectivity. *)
Theorem C21_all : forall (d1 d2 : nat) (D1 D2 : Type) k f (m1 : mesh (RO d1) D1) (m2 : mesh (RO d2) D2) M t fuel,
  valid m1 -> valid m2 -> same_connectivity m1 m2 -> (k = CellF CLoop -> forall v, one_fan m1 v) -> affine_image M t m1 m2 ->
  match update k fuel f m1, update k fuel f m2 with
  | Ok (f1, o1), Ok (f2, o2) => f1 = f2 /\ same_connectivity o1 o2 /\ affine_image M t o1 o2
  | Throw e1, Throw e2 => e1 = e2
  | Undef u1, Undef u2 => u1 = u2
  | OutOfFuel, OutOfFuel => True
  | _, _ => False
  end.
Proof. exact C21_all_pf. Qed.
Print Assumptions C21_all.

Example C21_all_ex : forall (M : nat -> nat -> R) (t : nat -> R),
  let m1 := rmesh gaps in let m2 : mesh (RO 2) N := affine_mesh M t m1 in
  valid m1 /\ valid m2 /\ same_connectivity m1 m2 /\ (forall v, one_fan m1 v) /\ affine_image M t m1 m2 /\
  (exists f' out, update (CellF CLoop) 100 (sel [1; 0; 1]) m1 = Ok (f', out)) /\
  (exists f' out, update (CellF CLoop) 100 (sel [1; 0; 1]) m2 = Ok (f', out)).
Proof.
  intros M t. cbv zeta. assert (V : valid (rmesh gaps)) by ex_valid.
  split; [exact V|]. split; [ex_valid|]. split; [apply affine_mesh_same|].
  split; [apply one_fansb_ok; [exact V|vm_compute; reflexivity]|]. split; [apply affine_mesh_image|].
  split; (apply (run_real _ _ _ gaps); [ex_nodup| |vm_compute; exact I]); [apply rmesh_same|vm_compute; repeat split].
Qed.

(** C22.  The five filters without Butterfly masks, every selection, every valid mesh with or without gaps
    between ids: a half-space that contains the points of the input contains those of the output. *)
Theorem C22_all : forall (d : nat) (D : Type) k f (inp : mesh (RO d) D) fuel f' out c h,
  k <> CellF CButterfly -> k <> EdgeF EButterfly -> valid inp -> (k = CellF CLoop -> forall v, one_fan inp v) ->
  in_halfspace c h inp -> update k fuel f inp = Ok (f', out) -> in_halfspace c h out.
Proof. exact C22_all_pf. Qed.
Print Assumptions C22_all.

Example C22_all_ex :
  let m := rmesh gaps in
  valid m /\ (forall v, one_fan m v) /\ in_halfspace (fun i => if Nat.eqb i 2 then 1 else 0)%R 0%R m /\
  (exists f' out, update (CellF CLoop) 100 (sel [1; 0; 1]) m = Ok (f', out)).
Proof.
  cbv zeta. assert (V : valid (rmesh gaps)) by ex_valid. split; [exact V|].
  split; [apply one_fansb_ok; [exact V|vm_compute; reflexivity]|].
  split; [|apply (run_real _ _ _ gaps); [ex_nodup|apply rmesh_same|vm_compute; exact I]].
  intros id Hid. unfold rsum. cbn [seq fold_right Nat.eqb]. rewrite !Rmult_0_l, !Rplus_0_l, Rplus_0_r, Rmult_1_l. apply Req_le.
  assert (E : pts gaps = [(0, zpt (d := 3) [0; 0; 0]%Z); (1, zpt (d := 3) [16; 0; 0]%Z); (2, zpt (d := 3) [0; 16; 0]%Z); (100, zpt (d := 3) [16; 16; 0]%Z)])
    by (vm_compute; reflexivity).
  unfold crd, ptof, rmesh. cbn [pts]. rewrite E. cbn -[N.eqb].
  repeat match goal with |- context [if ?k =? id then _ else _] => destruct (k =? id); [cbn; unfold Q2R; cbn; lra|] end.
  reflexivity.
Qed.

(** C48.  Coordinates never influence the outcome: over any two arithmetics, on any two inputs that differ
    only in coordinates and cell data, valid or not, Update() completes, throws, or runs into undefined
    behaviour alike, and completed runs give the same ids, cells, edges and reported lists. *)
Theorem C48_any : forall (O1 O2 : Ops) (D1 D2 : Type) k f (m1 : mesh O1 D1) (m2 : mesh O2 D2) fuel,
  same_connectivity m1 m2 -> (k = CellF CLoop -> NoDup (okeys (pts m1))) ->
  match update k fuel f m1, update k fuel f m2 with
  | Ok (f1, o1), Ok (f2, o2) => f1 = f2 /\ same_connectivity o1 o2
  | Throw e1, Throw e2 => e1 = e2
  | Undef u1, Undef u2 => u1 = u2
  | OutOfFuel, OutOfFuel => True
  | _, _ => False
  end.
Proof. exact C48_any_pf. Qed.
Print Assumptions C48_any.

Example C48_any_ex : same_connectivity gaps (rmesh gaps) /\ NoDup (okeys (pts gaps)) /\
  match update (CellF CLoop) 100 (sel [1; 0; 1]) gaps with Ok (_, out) => nF out = 8%Z | _ => False end /\
  same_connectivity broken (rmesh broken) /\ NoDup (okeys (pts broken)) /\
  update (CellF CLoop) 100 (sel [0]) broken = Undef NullDeref.
Proof.
  split; [apply rmesh_same|]. split; [ex_nodup|]. split; [vm_compute; reflexivity|].
  split; [apply rmesh_same|]. split; [ex_nodup|vm_compute; reflexivity].
Qed.

(** C38.  The edge-length criterion on any mesh whose listed edges have both end points: whatever the list
    held, it is filled with exactly the listed edges above the bound, in ascending edge id order and once
    for each entry. *)
Theorem C38_edge_any : forall (d : nat) (D : Type) (maxlen : R) (m : mesh (RO d) D) old fuel,
  wf_points m -> ecells m <> None ->
  (forall id a b, In (id, Some (a, b)) (edges_of m) -> oget a (pts m) <> None /\ oget b (pts m) <> None) ->
  edge_length_criterion (O := RO d) maxlen fuel m old =
    Ok (SelEdges (map snd (filter (fun io => match snd io with
                                             | Some (a, b) => if Rlt_dec maxlen (seg_length m a b) then true else false
                                             | None => false end) (edges_of m)))).
Proof. exact C38_edge_any_pf. Qed.
Print Assumptions C38_edge_any.

Example C38_edge_any_ex : wf_points (rmesh gaps) /\ ecells (rmesh gaps) <> None /\
  (forall id a b, In (id, Some (a, b)) (edges_of (rmesh gaps)) -> oget a (pts (rmesh gaps)) <> None /\ oget b (pts (rmesh gaps)) <> None) /\
  exists id, In (id, Some (1, 2)) (edges_of (rmesh gaps)) /\ (20 < seg_length (rmesh gaps) 1 2)%R.
Proof.
  assert (V : valid (rmesh gaps)) by ex_valid. split; [apply valid_wf; exact V|]. split; [vm_compute; discriminate|].
  split.
  { intros id a b H. vm_compute in H. repeat (destruct H as [H|H]; [injection H as _ <- <-; vm_compute; split; discriminate|]). destruct H. }
  exists 1. split; [vm_compute; auto|].
  apply (Rle_lt_trans _ (Q2R (20#1))); [unfold Q2R; cbn; lra|apply length_gt; vm_compute; reflexivity].
Qed.

(** C33.  Adaptive iterative runs: a triangle that shares no edge with a selected triangle is still a
    triangle of the output, after any number of levels. *)
Theorem C33_outside : forall (O : Ops) (D : Type) (s : cscheme) (k : nat) (sel : list N) (inp : mesh O D) fuel f out,
  valid inp -> dense inp -> s <> CSqrt3 -> (s = CLoop -> no_isolated inp /\ ((2 <= k)%nat -> no_wire inp)) ->
  sel <> [] -> existing inp sel -> iterative_update s k fuel sel inp = Ok (f, out) ->
  forall t, In t (tris inp) ->
    (forall i u a b, In i sel -> In (i, u) (faces inp) -> edge_of u a b -> ~ edge_of t a b) -> In t (tris out).
Proof. exact C33_outside_pf. Qed.
Print Assumptions C33_outside.

Example C33_outside_ex :
  valid strip4 /\ dense strip4 /\ no_isolated strip4 /\ no_wire strip4 /\ existing strip4 [0] /\
  match iterative_update CLoop 3 100 [0] strip4 with Ok (_, out) => In (3, 4, 5) (tris out) /\ (20 < nF out)%Z | _ => False end /\
  forall i u a b, In i [0] -> In (i, u) (faces strip4) -> edge_of u a b -> ~ edge_of (3, 4, 5) a b.
Proof.
  split; [ex_valid|]. split; [ex_dense|]. split; [apply no_isolatedb_ok; vm_compute; reflexivity|].
  split; [apply no_wireb_ok; vm_compute; reflexivity|]. split; [apply existingb_ok; vm_compute; reflexivity|].
  split; [vm_compute; intuition|].
  intros i u a b Hi Hu He. cbn in Hi. destruct Hi as [<-|[]]. vm_compute in Hu.
  repeat (destruct Hu as [Hu|Hu]; [first [discriminate Hu|injection Hu as <-]|]); [|destruct Hu].
  unfold edge_of in *. cbn in *. intuition congruence.
Qed.

(** C47.  The sqrt(3) filter with any selection of existing cells, repetitions included: an edge without
    faces does not disturb the run and is absent from the output. *)
Theorem C47_sqrt3_repeated : forall (O : Ops) (D : Type) f (inp : mesh O D) a b,
  valid inp -> dense inp -> existing inp (csel f) ->
  (nV inp + nF inp + Z.of_nat (length (csel f)) < 2 ^ 64)%Z -> wire_edge inp a b ->
  exists f' out, completes (fun fuel => update (CellF CSqrt3) fuel f inp) (Ok (f', out)) /\ ~ joined out a b.
Proof. exact C47_sqrt3_repeated_pf. Qed.
Print Assumptions C47_sqrt3_repeated.

Example C47_sqrt3_repeated_ex : wire_edge mixed 3 5 /\ valid mixed /\ dense mixed /\ existing mixed (csel (sel [0; 0])) /\
  (nV mixed + nF mixed + 2 < 2 ^ 64)%Z /\
  match update (CellF CSqrt3) 100 (sel [0; 0]) mixed with Ok (_, out) => nF out = 4%Z | _ => False end.
Proof.
  split.
  { assert (E : dirs (tris mixed) = [(0, 1); (1, 2); (2, 0); (2, 1); (1, 3); (3, 2)]) by (vm_compute; reflexivity).
    split; [vm_compute; auto|]. rewrite E. cbn. split; intuition discriminate. }
  split; [ex_valid|]. split; [ex_dense|]. split; [apply existingb_ok; vm_compute; reflexivity|].
  split; vm_compute; reflexivity.
Qed.
