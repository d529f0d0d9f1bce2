(** * Properties22: the conditional filter around the Loop filter need not end (C109).

    Theorems only; proofs are in EndlessLoop.v, EndlessLoopReal.v and EndlessLoop64.v. *)
From Coq Require Import Reals Lra.
From Flocq Require Import Core BinarySingleNaN.
From Verif Require Import Base Mesh Filters Drivers Samples Spec SpecSub SpecGeo SpecFlt SpecDrive SpecEndless Check CheckGeo Stuck64 EndlessLoopReal EndlessLoop64 Properties12.
Open Scope R_scope.

(** C109.  In any mesh, of any dimension, with a triangle in these surroundings whose number is not the identifier of
    a point: if the maximal area is k/6 of its area and no other triangle is larger than that, then the conditional filter
    around the Loop filter runs for ever, unless the first run is one that smooths all points. *)
Theorem C109_local : forall (d : nat) (D : Type) (t k xi : R) (inp : mesh (RO d) D) v z q c z' x l1 l2,
  valid inp -> dense inp -> no_wire inp -> no_isolated inp -> knife_edge inp k xi v z q c z' x l1 l2 ->
  4 <= k < 6 -> 3 / 7 <= xi <= 5 / 8 -> 0 < t -> t = k / 6 * tri_area inp (c, v, q) ->
  (forall u, In u (tris inp) -> u = (c, v, q) \/ tri_area inp u <= t) ->
  forall old f, uniform f = false -> diverges (fun fuel => conditional_update fuel (CellF CLoop) (Some (cell_area_criterion (O := RO d) t)) old f inp).
Proof. exact @C109_local_pf. Qed.
Print Assumptions C109_local.

Example C109_local_ex : let m := kmesh 3 in valid m /\ dense m /\ no_wire m /\ no_isolated m /\
  knife_edge m 5 (3 / 7) 0 1 2 3 4 7 (removelast ktris) [] /\ 420 = 5 / 6 * tri_area m (3, 0, 2)%N /\
  (forall u, In u (tris m) -> u = (3, 0, 2)%N \/ tri_area m u <= 420).
Proof.
  intros m. destruct (kmesh_good 3) as [V [Dn [W I]]]. split; [exact V|]. split; [exact Dn|]. split; [exact W|]. split; [exact I|]. split; [exact (kmesh_edge 3)|].
  split; [unfold m; rewrite (kmesh_large 3) by lra; lra|]. intros u Hu. unfold m in *. rewrite kmesh_tris in Hu.
  destruct (kmesh_split u Hu) as [U| ->]; [right|left; reflexivity]. pose proof (kmesh_small 3 u ltac:(lra) U). lra.
Qed.

(** C109.  Every positive maximal area has such a mesh: 28 triangles, none degenerate. *)
Theorem C109_every : forall t : R, 0 < t -> exists inp : mesh (RO 3) N, valid inp /\ dense inp /\ no_wire inp /\ no_isolated inp /\
  (forall u, In u (tris inp) -> 0 < tri_area inp u) /\ nF inp = 28%Z /\
  forall old f, uniform f = false -> diverges (fun fuel => conditional_update fuel (CellF CLoop) (Some (cell_area_criterion (O := RO 3) t)) old f inp).
Proof. exact C109_every_pf. Qed.
Print Assumptions C109_every.

(** C109.  In binary64, with integer coordinates up to 69, whatever the cosine function: no triangle of the mesh is
    larger than the maximal area 56, and the filter runs for ever, also when the object is new. *)
Theorem C109_binary64 : forall cosf : N -> binary_float 53 1024, exists inp : mesh (BO 53 1024 P53 E1024 cosf 3) N,
  valid inp /\ dense inp /\ no_wire inp /\ no_isolated inp /\ nF inp = 28%Z /\
  (forall u, In u (tris inp) -> 0 < tri_area (exact_mesh 53 1024 P53 E1024 inp) u <= 56) /\
  is_finite t56 = true /\ B2R t56 = 56 /\
  forall old f, diverges (fun fuel => conditional_update fuel (CellF CLoop) (Some (cell_area_criterion (O := BO 53 1024 P53 E1024 cosf 3) t56)) old f inp).
Proof. exact C109_binary64_pf. Qed.
Print Assumptions C109_binary64.

Example C109_new_object : forall cosf old, diverges (fun fuel => conditional_update fuel (CellF CLoop) (Some (cell_area_criterion (O := BO 53 1024 P53 E1024 cosf 3) t56)) old new_filter (lmesh cosf)).
Proof. intros cosf old. exact (loop_endless64 cosf old new_filter). Qed.
