(** * CheckSame: examples of the same surface with other ids, for the examples of C119. *)
From Coq Require Import Reals QArith.
From Verif Require Import Base Mesh Filters Drivers Samples Spec SpecSub SpecGeo SpecDrive SpecConv SpecSame Lists Check CheckGeo CheckDrive Drive DriveProps Iter Root3Props Conv.

Open Scope N_scope.

(** The octahedron with its points in the opposite order and its triangles in another order, each started with another point. *)
Definition octa' : mesh Q3 N :=
  build (number [zpt [0; 0; -16]%Z; zpt [0; -16; 0]%Z; zpt [-16; 0; 0]%Z; zpt [0; 16; 0]%Z; zpt [16; 0; 0]%Z; zpt [0; 0; 16]%Z])
        [[4; 1; 0]; [4; 3; 5]; [3; 4; 0]; [5; 3; 2]; [1; 5; 2]; [0; 2; 3]; [1; 2; 0]; [1; 4; 5]].
(** The strip with its points and triangles in the opposite order, each started with the same point. *)
Definition strip4' : mesh Q3 N :=
  build (number [zpt [32; 16; 4]%Z; zpt [32; 0; 0]%Z; zpt [16; 16; 0]%Z; zpt [0; 16; 0]%Z; zpt [16; 0; 0]%Z; zpt [0; 0; 0]%Z])
        [[2; 1; 0]; [2; 4; 1]; [3; 4; 2]; [5; 4; 3]].
Definition flip5 (x : N) : N := 5 - x.

Lemma rmesh_pt (m : mesh Q3 N) x : oget x (pts (rmesh m)) = option_map (map Q2R) (oget x (pts m)).
Proof. unfold rmesh. cbn [pts]. induction (pts m) as [|[k p] l IH]; [reflexivity|]. cbn. destruct (k =? x); [reflexivity|exact IH]. Qed.
Lemma rmesh_surface r r' (m1 m2 : mesh Q3 N) : same_surface r r' m1 m2 -> same_surface r r' (rmesh m1) (rmesh m2).
Proof.
  intros [H1 H2 H3 H4]. constructor; [| |exact H3|exact H4].
  - intros x p. rewrite !rmesh_pt. destruct (oget x (pts m1)) as [p0|] eqn:E; [|discriminate]. intros X. injection X as <-.
    destruct (H1 _ _ E) as [E1 E2]. rewrite E1. auto.
  - intros x p. rewrite !rmesh_pt. destruct (oget x (pts m2)) as [p0|] eqn:E; [|discriminate]. intros X. injection X as <-.
    destruct (H2 _ _ E) as [E1 E2]. rewrite E1. auto.
Qed.
Lemma oget_list {A} x (l : omap A) p : oget x l = Some p -> In (x, p) l.
Proof.
  induction l as [|[k v] l IH]; cbn; [discriminate|]. destruct (N.eqb_spec k x) as [->|_]; [intros E; injection E as ->; auto|auto].
Qed.
Ltac each_case H := vm_compute in H; repeat (destruct H as [H|H]; [inversion H; subst; clear H|]); try contradiction.
Ltac by_cases := constructor;
  [intros x p H; apply oget_list in H; each_case H; vm_compute; auto
  |intros x p H; apply oget_list in H; each_case H; vm_compute; auto
  |intros a b c [H|[H|H]]; each_case H; vm_compute; tauto
  |intros a b c [H|[H|H]]; each_case H; vm_compute; tauto].
Lemma octa_same : same_surface flip5 flip5 octa octa'.
Proof. by_cases. Qed.
Lemma strip_same : same_surface flip5 flip5 strip4 strip4'.
Proof. by_cases. Qed.

Lemma uniform_after (m : mesh Q3 N) : valid (rmesh m) -> dense (rmesh m) -> tris (rmesh m) <> [] -> no_isolated (rmesh m) -> no_wire (rmesh m) -> fits CSqrt3 4 (rmesh m) ->
  forall s, exists out, after s 4 (rmesh m) out.
Proof.
  intros V Dn T I W Fi s. assert (Hs : s = CSqrt3 \/ s <> CSqrt3) by (destruct s; auto; right; discriminate). destruct Hs as [->|Hs].
  - destruct (C58_iterative_uniform_pf (RO 3) N 4 _ V Dn T (Fi eq_refl)) as [f [out [[_ [q Hq]] _]]]. exists out, q, f. apply Hq. apply le_n.
  - destruct (C32_uniform_pf (RO 3) N s 4 _ V Dn T Hs) as [f [out [[_ [q Hq]] _]]]; [intros _; split; [exact I|intros _; exact W]|].
    exists out, q, f. apply Hq. apply le_n.
Qed.

(** One selected cell. *)
Lemma selected_one {O : Ops} {D : Type} (m : mesh O D) i t0 : (forall t, In (i, t) (faces m) <-> t = t0) -> forall t, selected m [i] t <-> t = t0.
Proof.
  intros H t. unfold selected. split.
  - intros [[E _]|[j [[<-|[]] Hj]]]; [discriminate|apply H; exact Hj].
  - intros E. right. exists i. split; [left; reflexivity|]. apply H. exact E.
Qed.
Ltac one_cell := intros t; split; [intros H; each_case H; reflexivity|intros ->; vm_compute; tauto].

(** A square cut by a diagonal, its two triangles listed in either order. *)
Definition square1 : mesh Q3 N := build (number (map zpt [[0; 0; 0]; [4; 0; 0]; [4; 4; 0]; [0; 4; 0]]%Z)) [[0; 1; 2]; [0; 2; 3]].
Definition square2 : mesh Q3 N := build (number (map zpt [[0; 0; 0]; [4; 0; 0]; [4; 4; 0]; [0; 4; 0]]%Z)) [[0; 2; 3]; [0; 1; 2]].
(** One triangle, started with another point than [tri1]. *)
Definition tri1' : mesh Q3 N := build (number [zpt [0; 0; 0]%Z; zpt [16; 0; 0]%Z; zpt [0; 16; 0]%Z]) [[1; 2; 0]].
Lemma square_same : same_surface (fun x => x) (fun x => x) square1 square2.
Proof. by_cases. Qed.
Lemma tri1_same : same_surface (fun x => x) (fun x => x) tri1 tri1'.
Proof. by_cases. Qed.

(** A run on a concrete mesh: its points and triangles. *)
Definition got (r : res (fstate * mesh Q3 N)) : mesh Q3 N := match r with Ok (_, o) => o | _ => empty_mesh end.
Lemma got_run (r : res (fstate * mesh Q3 N)) P T : match r with Ok (_, o) => pts o = P /\ tris o = T | _ => False end ->
  exists g o, r = Ok (g, o) /\ pts o = P /\ tris o = T.
Proof. destruct r as [[f o]| | |]; intros H; [exists f, o; auto|contradiction..]. Qed.
Ltac run_of r := let P := eval vm_compute in (pts (got r)) in let T := eval vm_compute in (tris (got r)) in
  assert (exists g o, r = Ok (g, o) /\ pts o = P /\ tris o = T) by (apply got_run; vm_compute; split; reflexivity).
