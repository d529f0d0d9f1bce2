(** * Properties9: meshes with two faces on the same three points (C43).

    Theorems only; proofs are in Twins.v.  [sound] (Spec.v) is [valid] without the clause that forbids
    two faces on the same points. *)
From Coq Require Import Sorted.
From Verif Require Import Base Mesh Filters Drivers Samples Spec SpecSub SpecRoot3 Lists Check Twins.

Open Scope N_scope.

Ltac ex_sound := apply soundb_ok; vm_compute; reflexivity.
Ltac ex_dense := apply denseb_ok; vm_compute; reflexivity.

(** A triangle covered on both sides and another triangle. *)
Definition pillow3 : mesh Q3 N :=
  build (number [zpt [0; 0; 0]%Z; zpt [16; 0; 0]%Z; zpt [0; 16; 0]%Z; zpt [-16; 0; 0]%Z; zpt [0; -16; 0]%Z; zpt [-16; -16; 0]%Z])
        [[0; 1; 2]; [0; 2; 1]; [3; 5; 4]].
Lemma pillow3_twins : twins pillow3 (0, 1, 2) (0, 2, 1).
Proof.
  split; [vm_compute; auto|]. split; [vm_compute; auto|]. split; [discriminate|].
  intros x. cbn. tauto.
Qed.

(** C43.  A uniform run of a Linear, Loop or Butterfly filter on a mesh with two faces on the same three
    points ends normally and loses a triangle: fewer than four per face. *)
Theorem C43_twins_uniform : forall (O : Ops) (D : Type) k f (inp : mesh O D) t u,
  sound inp -> dense inp -> ready k f inp ->
  (match k with CellF _ => csel f = [] | EdgeF _ => esel f = [] end) -> twins inp t u ->
  exists n f' out, (forall fuel, (n <= fuel)%nat -> update k fuel f inp = Ok (f', out)) /\
    (nF out < 4 * nF inp)%Z.
Proof. exact C43_twins_uniform_pf. Qed.
Print Assumptions C43_twins_uniform.

Example C43_twins_uniform_ex :
  sound pillow3 /\ dense pillow3 /\ twins pillow3 (0, 1, 2) (0, 2, 1) /\
  (forall k, k <> CellF CSqrt3 -> ready k new_filter pillow3 /\
     match update k 100 new_filter pillow3 with Ok (_, out) => nF out = 8%Z /\ nF pillow3 = 3%Z | _ => False end).
Proof.
  split; [ex_sound|]. split; [ex_dense|]. split; [exact pillow3_twins|].
  intros k Hk. split; [apply readyb_ok|]; destruct k as [s|s]; destruct s; try (exfalso; apply Hk; reflexivity); vm_compute; auto.
Qed.

(** C43.  An adaptive run that splits all three edges of such a pair dereferences a null pointer. *)
Theorem C43_twins_adaptive : forall (O : Ops) (D : Type) k f (inp : mesh O D) t u,
  sound inp -> dense inp -> ready k f inp ->
  (match k with CellF _ => csel f <> [] | EdgeF _ => esel f <> [] end) -> twins inp t u ->
  (forall e, In e (tdirs t) -> to_split k f inp (fst e) (snd e)) ->
  exists n, forall fuel, (n <= fuel)%nat -> update k fuel f inp = Undef NullDeref.
Proof. exact C43_twins_adaptive_pf. Qed.
Print Assumptions C43_twins_adaptive.

Example C43_twins_adaptive_ex :
  sound pillow3 /\ dense pillow3 /\ twins pillow3 (0, 1, 2) (0, 2, 1) /\
  ready (CellF CLoop) (sel [0]) pillow3 /\
  (forall e, In e (tdirs (0, 1, 2)) -> to_split (CellF CLoop) (sel [0]) pillow3 (fst e) (snd e)) /\
  update (CellF CLoop) 100 (sel [0]) pillow3 = Undef NullDeref.
Proof.
  split; [ex_sound|]. split; [ex_dense|]. split; [exact pillow3_twins|].
  split; [apply readyb_ok; vm_compute; reflexivity|]. split; [|vm_compute; reflexivity].
  intros [a b] He. exists (0, 1, 2). split; [right; exists 0; split; [cbn; auto|vm_compute; auto]|left; exact He].
Qed.

(** C43.  The same for the sqrt(3) filter: fewer than three triangles per face. *)
Theorem C43_twins_sqrt3 : forall (O : Ops) (D : Type) f (inp : mesh O D) t u,
  sound inp -> dense inp -> ready3 f inp -> csel f = [] -> twins inp t u ->
  exists n f' out, (forall fuel, (n <= fuel)%nat -> update (CellF CSqrt3) fuel f inp = Ok (f', out)) /\
    (nF out < 3 * nF inp)%Z.
Proof. exact C43_twins_sqrt3_pf. Qed.
Print Assumptions C43_twins_sqrt3.

Example C43_twins_sqrt3_ex :
  sound pillow3 /\ dense pillow3 /\ twins pillow3 (0, 1, 2) (0, 2, 1) /\ ready3 new_filter pillow3 /\
  match update (CellF CSqrt3) 100 new_filter pillow3 with Ok (_, out) => nF out = 5%Z /\ nF pillow3 = 3%Z | _ => False end.
Proof.
  split; [ex_sound|]. split; [ex_dense|]. split; [exact pillow3_twins|].
  split; [|vm_compute; auto]. split; [intros i []|]. split; [constructor|vm_compute; reflexivity].
Qed.

(** C43.  The sqrt(3) filter with both faces of such a pair selected dereferences a null pointer. *)
Theorem C43_twins_sqrt3_adaptive : forall (O : Ops) (D : Type) f (inp : mesh O D) t u,
  sound inp -> dense inp -> ready3 f inp -> csel f <> [] ->
  twins inp t u -> selected inp (csel f) t -> selected inp (csel f) u ->
  exists n, forall fuel, (n <= fuel)%nat -> update (CellF CSqrt3) fuel f inp = Undef NullDeref.
Proof. exact C43_twins_sqrt3_adaptive_pf. Qed.
Print Assumptions C43_twins_sqrt3_adaptive.

Example C43_twins_sqrt3_adaptive_ex :
  sound pillow3 /\ dense pillow3 /\ twins pillow3 (0, 1, 2) (0, 2, 1) /\ ready3 (sel [1; 0]) pillow3 /\
  selected pillow3 [1; 0] (0, 1, 2) /\ selected pillow3 [1; 0] (0, 2, 1) /\
  update (CellF CSqrt3) 100 (sel [1; 0]) pillow3 = Undef NullDeref.
Proof.
  split; [ex_sound|]. split; [ex_dense|]. split; [exact pillow3_twins|].
  split; [split; [apply existingb_ok; vm_compute; reflexivity|split; [repeat constructor; cbn; intuition discriminate|vm_compute; reflexivity]]|].
  split; [right; exists 0; split; [cbn; auto|vm_compute; auto]|].
  split; [right; exists 1; split; [cbn; auto|vm_compute; auto]|]. vm_compute. reflexivity.
Qed.
