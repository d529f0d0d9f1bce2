(** * Refuted5: only the Linear filters keep the orientation of a planar mesh (C95). *)
From Coq Require Import QArith.
From Verif Require Import Base Mesh Filters Drivers Samples Spec SpecSub SpecRenum SpecRoot3 Check CheckRoot3 Refuted.
Open Scope N_scope.

(** Coordinate [i] of a point, and twice the signed area of a triangle in the plane of the first two coordinates. *)
Definition qcrd (m : mesh Q3 N) (i : nat) (id : N) : Q := match oget id (pts m) with Some p => nth i p 0%Q | None => 0%Q end.
Definition signed2 (m : mesh Q3 N) (t : tri) : Q :=
  let '(a, b, c) := t in
  ((qcrd m 0 b - qcrd m 0 a) * (qcrd m 1 c - qcrd m 1 a) - (qcrd m 1 b - qcrd m 1 a) * (qcrd m 0 c - qcrd m 0 a))%Q.

(** A strip of three triangles in the plane, all counterclockwise. *)
Definition bent : mesh Q3 N :=
  build (number [zpt [18; 8; 0]%Z; zpt [-14; 6; 0]%Z; zpt [-10; -13; 0]%Z; zpt [-19; 13; 0]%Z; zpt [6; -20; 0]%Z])
        [[0; 1; 2]; [2; 1; 3]; [3; 1; 4]].

(** C95, other schemes.  All five turn a triangle over. *)
Theorem C95_flips : exists m : mesh Q3 N, valid m /\ dense m /\
  (forall id p, In (id, p) (pts m) -> nth 2 p 1%Q = 0%Q) /\ (forall t, In t (tris m) -> (0 < signed2 m t)%Q) /\
  forall k, In k [CellF CLoop; CellF CButterfly; CellF CSqrt3; EdgeF ELoop; EdgeF EButterfly] ->
    ready_any k new_filter m /\
    exists f out u, update k 100 new_filter m = Ok (f, out) /\ In u (tris out) /\ (signed2 out u < 0)%Q.
Proof.
  exists bent. split; [by_valid|]. split; [by_dense|].
  split; [intros id p H; vm_compute in H; repeat (destruct H as [H|H]; [injection H as _ <-; reflexivity|]); destruct H|].
  split; [intros t H; vm_compute in H; repeat (destruct H as [<-|H]; [vm_compute; reflexivity|]); destruct H|].
  assert (G : forall k, match update k 100 new_filter bent with Ok (_, o) => existsb (fun u => negb (Qle_bool 0 (signed2 o u))) (tris o) | _ => false end = true ->
    exists f out u, update k 100 new_filter bent = Ok (f, out) /\ In u (tris out) /\ (signed2 out u < 0)%Q).
  { intros k H. destruct (update k 100 new_filter bent) as [[f o]| | |]; try discriminate. apply existsb_exists in H. destruct H as [u [Hu H]].
    exists f, o, u. split; [reflexivity|]. split; [exact Hu|]. apply Qnot_le_lt. intros Hle. apply Qle_bool_iff in Hle. rewrite Hle in H. discriminate. }
  intros k Hk. repeat (destruct Hk as [<-|Hk]; [split; [apply ready_anyb_ok; vm_compute; reflexivity|apply G; vm_compute; reflexivity]|]). destruct Hk.
Qed.
Print Assumptions C95_flips.
