(** * CheckAny: sample meshes with binary64 coordinates for C124. *)
From Coq Require Import QArith.
From Flocq Require Import Core BinarySingleNaN.
From Verif Require Import Base Mesh Filters Drivers Samples Spec SpecSub SpecGeo SpecRenum SpecFlt SpecDrive SpecSame Lists Check CheckGeo Drive CheckSame Properties12 Stuck64.

Open Scope N_scope.

Lemma fmesh_surface r r' (m1 m2 : mesh Q3 N) : same_surface r r' m1 m2 -> same_surface r r' (fmesh m1) (fmesh m2).
Proof.
  assert (E : forall x (m : mesh Q3 N), oget x (pts (fmesh m)) = match oget x (pts m) with Some p => Some (map (fun y : Q => kZ B64 (Qnum y)) p) | None => None end).
  { intros x m. unfold fmesh. cbn [pts]. induction (pts m) as [|[k v] l IH]; [reflexivity|]. cbn [map oget fst snd]. destruct (k =? x); [reflexivity|exact IH]. }
  intros [H1 H2 H3 H4]. constructor; [| |exact H3|exact H4].
  - intros x p. rewrite !E. destruct (oget x (pts m1)) as [p0|] eqn:E0; [|discriminate]. intros X. injection X as <-.
    destruct (H1 _ _ E0) as [E1 E2]. rewrite E1. auto.
  - intros x p. rewrite !E. destruct (oget x (pts m2)) as [p0|] eqn:E0; [|discriminate]. intros X. injection X as <-.
    destruct (H2 _ _ E0) as [E1 E2]. rewrite E1. auto.
Qed.

(** A triangle with the points (1, 0, 0), (2^-53, 1, 0), (2^-53, 0, 1), started with one point and with another. *)
Definition tri64 (start : list N) : mesh B64 N :=
  let o := b64 0 0 in let i := b64 1 0 in let e := b64 1 (-53) in build (O := B64) (number [[i; o; o]; [e; i; o]; [e; o; i]]) [start].
(** Two triangles with a common edge, in one order and in the other. *)
Definition two64 (cs : list (list N)) : mesh B64 N :=
  let o := b64 0 0 in let i := b64 1 0 in let h := b64 8 0 in let w := b64 5 (-50) in build (O := B64) (number [[h; o; o]; [h; i; o]; [o; o; i]; [w; i; i]]) cs.

(** A closed mesh, an octahedron with uneven points, its cells in one order and in another. *)
Definition oct64 (cs : list (list N)) : mesh B64 N :=
  let c x := b64 x 0 in let w x := b64 x (-50) in
  build (O := B64) (number [[c 1; c 0; c 0]; [c 8; c 1; c 0]; [w 5; c 0; c 1]; [c 24; c (-1); c 0]; [w 7; c 0; c (-1)]; [w 3; c 2; c 2]]%Z) cs.
Definition oct_cells : list (list N) := [[0; 1; 2]; [0; 2; 3]; [0; 3; 4]; [0; 4; 1]; [5; 2; 1]; [5; 3; 2]; [5; 4; 3]; [5; 1; 4]].

(** Equality of coordinates, decided. *)
Definition sf_eqb (x y : SpecFloat.spec_float) : bool :=
  match x, y with
  | SpecFloat.S754_zero s, SpecFloat.S754_zero t | SpecFloat.S754_infinity s, SpecFloat.S754_infinity t => Bool.eqb s t
  | SpecFloat.S754_nan, SpecFloat.S754_nan => true
  | SpecFloat.S754_finite s m e, SpecFloat.S754_finite t n f => Bool.eqb s t && Pos.eqb m n && Z.eqb e f
  | _, _ => false
  end.
Lemma sf_refl x : sf_eqb x x = true.
Proof. destruct x; cbn; try apply Bool.eqb_reflx; try reflexivity. rewrite Bool.eqb_reflx, Pos.eqb_refl, Z.eqb_refl. reflexivity. Qed.
Definition first_eqb (p q : list (binary_float 53 1024)) : bool :=
  match p, q with x :: _, y :: _ => sf_eqb (B2SF x) (B2SF y) | [], [] => true | _, _ => false end.
Lemma first_refl p : first_eqb p p = true.
Proof. destruct p; [reflexivity|apply sf_refl]. Qed.
(** Point [x] of the first result is not a point of the second. *)
Definition missing {A} (r1 r2 : res (A * mesh B64 N)) (x : N) : bool :=
  match r1, r2 with
  | Ok (_, m1), Ok (_, m2) => match oget x (pts m1) with Some p => forallb (fun kv => negb (first_eqb p (snd kv))) (pts m2) | None => false end
  | _, _ => false
  end.
Lemma missing_ok {A} (r1 r2 : res (A * mesh B64 N)) x : missing r1 r2 x = true ->
  exists g1 g2 out1 out2, r1 = Ok (g1, out1) /\ r2 = Ok (g2, out2) /\ ~ exists q q', same_surface q q' out1 out2.
Proof.
  unfold missing. destruct r1 as [[g1 m1]| | |]; try discriminate. destruct r2 as [[g2 m2]| | |]; try discriminate.
  destruct (oget x (pts m1)) as [p|] eqn:E; [|discriminate]. intros H. exists g1, g2, m1, m2. split; [reflexivity|]. split; [reflexivity|].
  intros [q [q' HS]]. destruct (ss_pts _ _ _ _ HS x p E) as [E2 _]. apply oget_list in E2. rewrite forallb_forall in H. specialize (H _ E2). cbn in H.
  rewrite first_refl in H. discriminate.
Qed.
(** The same points, and the same cells up to the point they start with. *)
Lemma same_id (m1 m2 : mesh B64 N) : pts m1 = pts m2 -> (forall a b c, is_face m1 a b c <-> is_face m2 a b c) -> same_surface (fun x => x) (fun x => x) m1 m2.
Proof.
  intros E H. constructor.
  - intros x p Hp. rewrite <- E. auto.
  - intros x p Hp. rewrite E. auto.
  - intros a b c F. apply H. exact F.
  - intros a b c F. apply H. exact F.
Qed.
Lemma tri64_same : same_surface (fun x => x) (fun x => x) (tri64 [0; 1; 2]) (tri64 [1; 2; 0]).
Proof. apply same_id; [reflexivity|]. intros a b c. unfold is_face. change (tris (tri64 [0; 1; 2])) with [(0, 1, 2)]. change (tris (tri64 [1; 2; 0])) with [(1, 2, 0)]. cbn [In]. intuition congruence. Qed.
Lemma two64_same : same_surface (fun x => x) (fun x => x) (two64 [[1; 2; 0]; [2; 1; 3]]) (two64 [[2; 1; 3]; [1; 2; 0]]).
Proof.
  apply same_id; [reflexivity|]. intros a b c. unfold is_face. change (tris (two64 [[1; 2; 0]; [2; 1; 3]])) with [(1, 2, 0); (2, 1, 3)].
  change (tris (two64 [[2; 1; 3]; [1; 2; 0]])) with [(2, 1, 3); (1, 2, 0)]. cbn [In]. tauto.
Qed.
Lemma oct64_same : same_surface (fun x => x) (fun x => x) (oct64 oct_cells) (oct64 (rev oct_cells)).
Proof.
  assert (E : tris (oct64 (rev oct_cells)) = rev (tris (oct64 oct_cells))) by (vm_compute; reflexivity).
  apply same_id; [reflexivity|]. intros a b c. unfold is_face. rewrite E, <- !in_rev. tauto.
Qed.
(** A run that ends. *)
Definition ended {A} (r : res (A * mesh B64 N)) : bool := match r with Ok _ => true | _ => false end.
Lemma ended_ok {A} (r : res (A * mesh B64 N)) : ended r = true -> exists g out, r = Ok (g, out).
Proof. destruct r as [[g m]| | |]; try discriminate. eauto. Qed.
