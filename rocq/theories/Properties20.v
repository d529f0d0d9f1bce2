(** * Properties20: the conditional filter around the Butterfly filter need not end (C107).

    Theorems only; proofs are in Endless.v, EndlessReal.v and Endless64.v. *)
From Coq Require Import Reals Lra.
From Flocq Require Import Core BinarySingleNaN.
From Verif Require Import Base Mesh Filters Drivers Samples Spec SpecSub SpecGeo SpecFlt SpecDrive SpecEndless Check CheckGeo EndlessReal Endless64 Properties12.
Open Scope R_scope.

(** C107.  In any mesh, of any dimension, with a triangle in these surroundings: if no other triangle is larger than
    the maximal area, and the maximal area is between half the area of this triangle and its area, then the
    conditional filter around the Butterfly filter runs for ever. *)
Theorem C107_local : forall (d : nat) (D : Type) (t : R) (inp : mesh (RO d) D) v z q c z' y y' x w1 w2 w3 w4,
  valid inp -> dense inp -> recurring inp v z q c z' y y' x w1 w2 w3 w4 ->
  tri_area inp (v, q, c) / 2 <= t < tri_area inp (v, q, c) ->
  (forall a b e, In (a, b, e) (tris inp) -> In (a, b, e) [(v, q, c); (q, c, v); (c, v, q)] \/ tri_area inp (a, b, e) <= t) ->
  forall old f, diverges (fun fuel => conditional_update fuel (CellF CButterfly) (Some (cell_area_criterion (O := RO d) t)) old f inp).
Proof. exact @C107_local_pf. Qed.
Print Assumptions C107_local.

Example C107_local_ex : let m := emesh 1 in valid m /\ dense m /\ recurring m 0 2 3 4 5 1 6 7 8 9 10 11 /\
  tri_area m (0, 3, 4)%N / 2 <= 15 < tri_area m (0, 3, 4)%N /\
  (forall a b e, In (a, b, e) (tris m) -> In (a, b, e) [(0, 3, 4); (3, 4, 0); (4, 0, 3)]%N \/ tri_area m (a, b, e) <= 15).
Proof.
  intros m. destruct (emesh_valid 1) as [V [Dn _]]. split; [exact V|]. split; [exact Dn|]. split; [exact (emesh_recurring 1)|].
  pose proof (emesh_area 1) as E. split; [unfold m; lra|]. intros a b e He.
  destruct (tri_or (a, b, e) (0, 3, 4)%N) as [U|U]; [left; left; symmetry; exact U|right]. pose proof (emesh_others 1 _ He U ltac:(lra)). unfold m. lra.
Qed.

(** C107.  Every positive maximal area has such a mesh: ten triangles, none degenerate. *)
Theorem C107_every : forall t : R, 0 < t -> exists inp : mesh (RO 3) N, valid inp /\ dense inp /\ no_wire inp /\ no_isolated inp /\
  (forall u, In u (tris inp) -> 0 < tri_area inp u) /\ nF inp = 10%Z /\
  forall old f, diverges (fun fuel => conditional_update fuel (CellF CButterfly) (Some (cell_area_criterion (O := RO 3) t)) old f inp).
Proof. exact C107_every_pf. Qed.
Print Assumptions C107_every.

(** C107.  In binary64, with integer coordinates up to 28, for every threshold from 11 to 19. *)
Theorem C107_binary64 : exists inp : mesh B64 N, valid inp /\ dense inp /\ nF inp = 10%Z /\
  forall t old f, is_finite t = true -> 11 <= B2R t <= 19 ->
    diverges (fun fuel => conditional_update fuel (CellF CButterfly) (Some (cell_area_criterion (O := B64) t)) old f inp).
Proof. exact C107_binary64_ex. Qed.
Print Assumptions C107_binary64.

Example C107_binary64_threshold : exists t : binary_float 53 1024, is_finite t = true /\ 11 <= B2R t <= 19.
Proof. exact sixteen_ok. Qed.
