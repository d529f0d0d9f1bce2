(** * Endless64: the recurring triangle in binary64, all coordinates integers (C107). *)
From Coq Require Import Reals Lra.
From Flocq Require Import Core BinarySingleNaN.
From Verif Require Import Base Mesh Filters Drivers Samples Spec SpecSub SpecGeo SpecFlt SpecDrive Lists Check CheckGeo GeoProps Drive Cond Endless Stuck64 Properties12.
Open Scope R_scope.

Definition p64 (x y : Z) : list (binary_float 53 1024) := [b64 x 0; b64 y 0; b64 0 0].
Definition emesh64 : mesh B64 N :=
  build (O := B64) (number (map (fun xy => p64 (fst xy) (snd xy))
    [(0, 0); (-28, -24); (9, 7); (5, 4); (-5, 4); (-9, 7); (28, -24); (0, 5); (5, 2); (-5, 2); (3, 6); (-3, 6)]%Z))
  [[0; 1; 2]; [0; 2; 3]; [0; 3; 4]; [0; 4; 5]; [0; 5; 6]; [3; 2; 8]; [4; 3; 7]; [5; 4; 9]; [7; 3; 10]; [4; 7; 11]]%N.

Definition below (x : binary_float 53 1024) : bool := is_nan x || (is_finite x && Bltb x (b64 11 0)).
Definition above (x : binary_float 53 1024) : bool := is_finite x && Bltb (b64 19 0) x.
Lemma below_ok x t : below x = true -> is_finite t = true -> 11 <= B2R t -> kgtb B64 x t = false.
Proof.
  intros H Ft Ht. cbn. destruct (b64_value 11 0) as [F E]; [reflexivity|lia|]. change (bpow radix2 0) with 1 in E. rewrite Rmult_1_r in E.
  unfold below in H. destruct (is_nan x) eqn:N0.
  - destruct x; try discriminate. destruct t; reflexivity.
  - apply andb_prop in H. destruct H as [Fx H]. rewrite Bltb_correct in H |- * by assumption. rewrite E in H.
    apply Rlt_bool_false. destruct (Rlt_bool_spec (B2R x) 11) as [L|L]; [lra|discriminate].
Qed.
Lemma above_ok x t : above x = true -> is_finite t = true -> B2R t <= 19 -> kgtb B64 x t = true.
Proof.
  intros H Ft Ht. cbn. destruct (b64_value 19 0) as [F E]; [reflexivity|lia|]. change (bpow radix2 0) with 1 in E. rewrite Rmult_1_r in E.
  unfold above in H. apply andb_prop in H. destruct H as [Fx H]. rewrite Bltb_correct in H |- * by assumption. rewrite E in H.
  apply Rlt_bool_true. destruct (Rlt_bool_spec 19 (B2R x)) as [L|L]; [lra|discriminate].
Qed.
Lemma same_SF (l l' : list (binary_float 53 1024)) : map B2SF l = map B2SF l' -> l = l'.
Proof.
  revert l'. induction l as [|x l IH]; intros [|y l'] H; try discriminate; [reflexivity|].
  cbn in H. injection H as H1 H2. f_equal; [apply B2SF_inj; exact H1|apply IH; exact H2].
Qed.

Lemma C107_binary64_pf : valid emesh64 /\ dense emesh64 /\
  forall t old f, is_finite t = true -> 11 <= B2R t <= 19 ->
    diverges (fun fuel => conditional_update fuel (CellF CButterfly) (Some (cell_area_criterion (O := B64) t)) old f emesh64).
Proof.
  assert (V : valid emesh64) by (apply validb_ok; vm_compute; reflexivity). assert (Dn : dense emesh64) by (apply denseb_ok; vm_compute; reflexivity).
  split; [exact V|]. split; [exact Dn|]. intros t old f Ft [T1 T2].
  assert (SM : forall a b e, below (@area B64 a b e) && below (@area B64 b e a) && below (@area B64 e a b) = true -> small (O := B64) t a b e).
  { intros a b e H. apply andb_prop in H. destruct H as [H H3]. apply andb_prop in H. destruct H as [H1 H2].
    split; [|split]; apply below_ok; assumption. }
  assert (BT : forall a b c e w1 w2 w3 w4 r, map B2SF (@stencil B64 a b c e w1 w2 w3 w4) = map B2SF r -> map B2SF (@stencil B64 b a e c w4 w3 w2 w1) = map B2SF r ->
     both (O := B64) a b c e w1 w2 w3 w4 r) by (intros; split; apply same_SF; assumption).
  refine (endless (O := B64) (p64 0 0) (p64 9 7) (p64 5 4) (p64 (-5) 4) (p64 (-9) 7) (p64 (-28) (-24)) (p64 28 (-24)) (p64 0 3) t _ _ _ _ _ _ _ _ _ old f
    emesh64 0 2 3 4 5 1 6 7 8 9 10 11 (p64 0 5) (p64 5 2) (p64 (-5) 2) (p64 3 6) (p64 (-3) 6) V Dn _ _ _).
  - split; [|split]; (apply above_ok; [vm_compute; reflexivity|exact Ft|exact T2]).
  - apply SM; vm_compute; reflexivity.
  - apply SM; vm_compute; reflexivity.
  - apply SM; vm_compute; reflexivity.
  - apply SM; vm_compute; reflexivity.
  - apply SM; vm_compute; reflexivity.
  - apply SM; vm_compute; reflexivity.
  - apply SM; vm_compute; reflexivity.
  - constructor; [apply BT; vm_compute; reflexivity|apply BT; vm_compute; reflexivity|apply BT; vm_compute; reflexivity|apply SM; vm_compute; reflexivity|apply SM; vm_compute; reflexivity].
  - constructor; [apply BT; vm_compute; reflexivity|apply BT; vm_compute; reflexivity|apply BT; vm_compute; reflexivity|apply SM; vm_compute; reflexivity|apply SM; vm_compute; reflexivity].
  - constructor; first [apply is_faceb_ok; vm_compute; reflexivity|discriminate|reflexivity].
  - assert (E : tris emesh64 = [(0, 1, 2); (0, 2, 3); (0, 3, 4); (0, 4, 5); (0, 5, 6); (3, 2, 8); (4, 3, 7); (5, 4, 9); (7, 3, 10); (4, 7, 11)]%N) by (vm_compute; reflexivity).
    intros a b e He. rewrite E in He. clear E. cbn [In] in He.
    assert (G : forall x y z A B E0, oget x (pts emesh64) = Some A -> oget y (pts emesh64) = Some B -> oget z (pts emesh64) = Some E0 ->
       below (@area B64 A B E0) && below (@area B64 B E0 A) && below (@area B64 E0 A B) = true -> exists A B E, tri_pts emesh64 x y z A B E /\ small (O := B64) t A B E).
    { intros x y z A B E0 HA HB HE Hs. exists A, B, E0. split; [split; [exact HA|split; [exact HB|exact HE]]|apply SM; exact Hs]. }
    destruct He as [He|[He|[He|[He|[He|[He|[He|[He|[He|[He|[]]]]]]]]]]]; injection He as <- <- <-.
    + right. apply (G 0%N 1%N 2%N (p64 0 0) (p64 (-28) (-24)) (p64 9 7)); [reflexivity|reflexivity|reflexivity|vm_compute; reflexivity].
    + right. apply (G 0%N 2%N 3%N (p64 0 0) (p64 9 7) (p64 5 4)); [reflexivity|reflexivity|reflexivity|vm_compute; reflexivity].
    + left. left. reflexivity.
    + right. apply (G 0%N 4%N 5%N (p64 0 0) (p64 (-5) 4) (p64 (-9) 7)); [reflexivity|reflexivity|reflexivity|vm_compute; reflexivity].
    + right. apply (G 0%N 5%N 6%N (p64 0 0) (p64 (-9) 7) (p64 28 (-24))); [reflexivity|reflexivity|reflexivity|vm_compute; reflexivity].
    + right. apply (G 3%N 2%N 8%N (p64 5 4) (p64 9 7) (p64 5 2)); [reflexivity|reflexivity|reflexivity|vm_compute; reflexivity].
    + right. apply (G 4%N 3%N 7%N (p64 (-5) 4) (p64 5 4) (p64 0 5)); [reflexivity|reflexivity|reflexivity|vm_compute; reflexivity].
    + right. apply (G 5%N 4%N 9%N (p64 (-9) 7) (p64 (-5) 4) (p64 (-5) 2)); [reflexivity|reflexivity|reflexivity|vm_compute; reflexivity].
    + right. apply (G 7%N 3%N 10%N (p64 0 5) (p64 5 4) (p64 3 6)); [reflexivity|reflexivity|reflexivity|vm_compute; reflexivity].
    + right. apply (G 4%N 7%N 11%N (p64 (-5) 4) (p64 0 5) (p64 (-3) 6)); [reflexivity|reflexivity|reflexivity|vm_compute; reflexivity].
Qed.
Lemma C107_binary64_ex : exists inp : mesh B64 N, valid inp /\ dense inp /\ nF inp = 10%Z /\
  forall t old f, is_finite t = true -> 11 <= B2R t <= 19 ->
    diverges (fun fuel => conditional_update fuel (CellF CButterfly) (Some (cell_area_criterion (O := B64) t)) old f inp).
Proof. destruct C107_binary64_pf as [V [Dn H]]. exists emesh64. split; [exact V|]. split; [exact Dn|]. split; [vm_compute; reflexivity|exact H]. Qed.
Lemma sixteen_ok : exists t : binary_float 53 1024, is_finite t = true /\ 11 <= B2R t <= 19.
Proof.
  exists (b64 16 0). destruct (b64_value 16 0) as [F E]; [reflexivity|lia|]. change (bpow radix2 0) with 1 in E. split; [exact F|]. rewrite E. lra.
Qed.
