(** * CheckTurnAny: surfaces with binary64 coordinates turned inside out, for the examples of C125. *)
From Coq Require Import QArith.
From Flocq Require Import Core BinarySingleNaN.
From Verif Require Import Base Mesh Filters Drivers Samples Spec SpecSub SpecGeo SpecRenum SpecFlt SpecDrive SpecSame SpecTurn Lists Check CheckGeo Drive CheckSame Properties12 Stuck64 CheckAny.

Open Scope N_scope.

Lemma fmesh_turned r r' (m1 m2 : mesh Q3 N) : turned r r' m1 m2 -> turned r r' (fmesh m1) (fmesh m2).
Proof.
  assert (E : forall x (m : mesh Q3 N), oget x (pts (fmesh m)) = match oget x (pts m) with Some p => Some (map (fun y : Q => kZ B64 (Qnum y)) p) | None => None end).
  { intros x m. unfold fmesh. cbn [pts]. induction (pts m) as [|[k v] l IH]; [reflexivity|]. cbn [map oget fst snd]. destruct (k =? x); [reflexivity|exact IH]. }
  intros [H1 H2 H3 H4]. constructor; [| |exact H3|exact H4].
  - intros x p. rewrite !E. destruct (oget x (pts m1)) as [p0|] eqn:E0; [|discriminate]. intros X. injection X as <-.
    destruct (H1 _ _ E0) as [E1 E2]. rewrite E1. auto.
  - intros x p. rewrite !E. destruct (oget x (pts m2)) as [p0|] eqn:E0; [|discriminate]. intros X. injection X as <-.
    destruct (H2 _ _ E0) as [E1 E2]. rewrite E1. auto.
Qed.
Lemma missing_turned {A} (r1 r2 : res (A * mesh B64 N)) x : missing r1 r2 x = true ->
  exists g1 g2 out1 out2, r1 = Ok (g1, out1) /\ r2 = Ok (g2, out2) /\ ~ exists q q', turned q q' out1 out2.
Proof.
  unfold missing. destruct r1 as [[g1 m1]| | |]; try discriminate. destruct r2 as [[g2 m2]| | |]; try discriminate.
  destruct (oget x (pts m1)) as [p|] eqn:E; [|discriminate]. intros H. exists g1, g2, m1, m2. split; [reflexivity|]. split; [reflexivity|].
  intros [q [q' HS]]. destruct (tu_pts _ _ _ _ HS x p E) as [E2 _]. apply oget_list in E2. rewrite forallb_forall in H. specialize (H _ E2). cbn in H.
  rewrite first_refl in H. discriminate.
Qed.
Lemma tri64_turned : turned (fun x => x) (fun x => x) (tri64 [1; 2; 0]) (tri64 [0; 2; 1]).
Proof.
  assert (E : pts (tri64 [1; 2; 0]) = pts (tri64 [0; 2; 1])) by reflexivity.
  assert (H : forall a b c, is_face (tri64 [1; 2; 0]) a b c <-> is_face (tri64 [0; 2; 1]) a c b).
  { intros a b c. unfold is_face. change (tris (tri64 [1; 2; 0])) with [(1, 2, 0)]. change (tris (tri64 [0; 2; 1])) with [(0, 2, 1)]. cbn [In]. intuition congruence. }
  constructor.
  - intros x p Hp. rewrite <- E. auto.
  - intros x p Hp. rewrite E. auto.
  - intros a b c F. apply H. exact F.
  - intros a b c F. apply H. exact F.
Qed.
