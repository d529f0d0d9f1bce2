(** * CheckGeo: concrete meshes over the reals, for the examples beside the theorems. *)
From Coq Require Import Reals Lra QArith Qreals.
From Verif Require Import Base Mesh Filters Samples Spec SpecSub SpecGeo Lists Valid Face Check Geo GeoProps.

Open Scope N_scope.

(** The same mesh over the reals. *)
Definition rmesh {d : nat} (m : mesh (QO d) N) : mesh (RO d) N :=
  Mesh (O := RO d) (map (fun kp => (fst kp, map Q2R (snd kp))) (pts m)) (rings m) (cells m) (ecells m) (cdata m).

(** The image of a mesh under x |-> M x + t. *)
Definition affine_mesh {d1 d2 : nat} (M : nat -> nat -> R) (t : nat -> R) (m : mesh (RO d1) N) : mesh (RO d2) N :=
  Mesh (O := RO d2)
    (map (fun kp => (fst kp, map (fun j => (t j + rsum (fun i => M j i * nth i (snd kp) 0) (seq 0 d1))%R) (seq 0 d2))) (pts m))
    (rings m) (cells m) (ecells m) (cdata m).

Lemma oget_map_pts {A B} (g : A -> B) id (l : omap A) :
  oget id (map (fun kp => (fst kp, g (snd kp))) l) = option_map g (oget id l).
Proof. induction l as [|[k v] l IH]; cbn; [reflexivity|]. destruct (N.eqb k id); auto. Qed.

Lemma nth_map_seq (g : nat -> R) d j : (j < d)%nat -> nth j (map g (seq 0 d)) 0%R = g j.
Proof.
  intros H. rewrite (nth_indep (map g (seq 0 d)) 0%R (g 0%nat)) by (rewrite map_length, seq_length; exact H).
  rewrite (map_nth g), seq_nth by exact H. reflexivity.
Qed.

Lemma affine_mesh_image {d1 d2} M t (m : mesh (RO d1) N) : affine_image M t m (affine_mesh (d2 := d2) M t m).
Proof.
  intros id j Hid Hj. unfold crd, ptof, affine_mesh. cbn [pts].
  rewrite (oget_map_pts (fun p => map (fun j => (t j + rsum (fun i => M j i * nth i p 0) (seq 0 d1))%R) (seq 0 d2))).
  assert (G : forall o : option (list R), o <> None ->
    nth j match option_map (fun p => map (fun j => (t j + rsum (fun i => M j i * nth i p 0) (seq 0 d1))%R) (seq 0 d2)) o with
          | Some p => p | None => repeat 0%R d2 end 0%R
    = (t j + rsum (fun i => M j i * nth i match o with Some p => p | None => repeat 0%R d1 end 0) (seq 0 d1))%R).
  { intros [p|] Ho; [|congruence]. cbn [option_map].
    exact (nth_map_seq (fun j => (t j + rsum (fun i => M j i * nth i p 0) (seq 0 d1))%R) d2 j Hj). }
  exact (G _ Hid).
Qed.
Lemma affine_mesh_same {d1 d2} M t (m : mesh (RO d1) N) : same_connectivity m (affine_mesh (d2 := d2) M t m).
Proof.
  unfold same_connectivity, affine_mesh. cbn. split; [|auto]. unfold okeys. rewrite map_map. reflexivity.
Qed.

Section CHECKGEO.
Context {O : Ops} {D : Type}.
Notation mesh := (mesh O D).

Lemma run_exists k f (m : mesh) : valid m -> dense m -> ready k f m ->
  exists fuel f' out, update k fuel f m = Ok (f', out).
Proof.
  intros Hv Hd Hr. destruct (face_completes k f m Hv Hd Hr) as [f' [out [_ [n Hn]]]].
  exists n, f', out. apply Hn. lia.
Qed.

Definition is_faceb (m : mesh) (a b c : N) : bool :=
  existsb (fun t => eqb_tri (a, b, c) t || eqb_tri (b, c, a) t || eqb_tri (c, a, b) t) (tris m).
Lemma is_faceb_ok m a b c : is_faceb m a b c = true -> is_face m a b c.
Proof.
  unfold is_faceb, is_face. rewrite existsb_exists. intros [t [Ht H]].
  apply orb_prop in H. destruct H as [H|H]; [apply orb_prop in H; destruct H as [H|H]|];
  apply eqb_tri_eq in H; subst; auto.
Qed.

Definition borderb (m : mesh) (v : N) : list N := filter (fun w => is_at_border m (v, w)) (ring m v).
Lemma borderb_ok m v : valid m -> border_neighbours m v (borderb m v).
Proof. intros Hv. apply filter_border. exact Hv. Qed.
Lemma borderb_edge m v w : valid m -> memN w (borderb m v) = true -> border_edge m v w.
Proof. intros Hv H. apply memN_In in H. apply (borderb_ok m v Hv). exact H. Qed.

Definition one_fansb (m : mesh) : bool :=
  forallb (fun kr => match borderb m (fst kr) with [] => true | [_; _] => true | _ => false end) (rings m).
Lemma one_fansb_ok m : valid m -> one_fansb m = true -> forall v, one_fan m v.
Proof.
  intros Hv H v B [HB1 HB2]. unfold one_fansb in H. rewrite forallb_forall in H.
  assert (Hl : length B = length (borderb m v)).
  { apply Permutation.Permutation_length. apply Permutation.NoDup_Permutation; [exact HB1|apply borderb_ok; exact Hv|].
    intros w. rewrite HB2. symmetry. apply borderb_ok. exact Hv. }
  destruct (ring_In m v) as [Hr|Hr].
  - left. assert (Hz : borderb m v = []) by (unfold borderb; rewrite Hr; reflexivity).
    rewrite Hz in Hl. destruct B; [reflexivity|discriminate].
  - specialize (H _ Hr). cbn [fst] in H.
    destruct (borderb m v) as [|x [|y [|z l]]]; try discriminate; [left|right; exact Hl].
    destruct B; [reflexivity|discriminate].
Qed.
End CHECKGEO.
