(** * Properties27: ids of new points and new cells (C114).

    Theorems only; the proofs are in NumProps.v. *)
From Verif Require Import Base Mesh Filters Drivers Samples Spec SpecSub SpecRoot3 SpecNum Lists Check CheckRoot3 NumProps.

(** C114.  The six face-split filters: new points are numbered in the order in which their edges are first met along
    [walk], new cells triangle by triangle, the children of one triangle in the order of [children]. *)
Theorem C114 : forall (O : Ops) (D : Type) (k : kind) (f : fstate) (inp : mesh O D) fuel f' out,
  valid inp -> dense inp -> ready k f inp -> update k fuel f inp = Ok (f', out) ->
  exists mid Ls, subdivision inp out (to_split k f inp) mid Ls /\
    (forall a b, mid a b <> None <-> exists n, first_at (walk k f inp) n a b) /\
    (forall a b c d x y n n', mid a b = Some x -> mid c d = Some y ->
       first_at (walk k f inp) n a b -> first_at (walk k f inp) n' c d -> (x < y <-> (n < n')%nat)) /\
    (forall x, (exists a b, mid a b = Some x) <-> osize (pts inp) <= x < osize (pts out)) /\
    tris out = concat Ls /\
    Forall2 (fun t L => let '(a, b, c) := t in L = children t (mid a b) (mid b c) (mid c a)) (tris inp) Ls /\
    (forall id u, In (id, u) (faces out) <-> nth_error (tris out) (N.to_nat id) = Some u).
Proof. exact C114_pf. Qed.
Print Assumptions C114.

(** Cell 2 and then cell 0 of the strip are listed: the new points 6, 7, 8 are those of cell 2, 9, 10, ... of cell 0; cell 1
    has two split edges, cell 3 one. *)
Example C114_ex :
  valid strip4 /\ dense strip4 /\ ready (CellF CLinear) (sel [2; 0]) strip4 /\ tris strip4 <> [] /\
  exists f' out, update (CellF CLinear) 100 (sel [2; 0]) strip4 = Ok (f', out) /\
    walk (CellF CLinear) (sel [2; 0]) strip4 = [(3, 1); (1, 4); (4, 3); (0, 1); (1, 2); (2, 0)] /\
    tris out = [(0, 9, 11); (9, 1, 10); (10, 2, 11); (9, 10, 11); (3, 2, 10); (3, 10, 6); (10, 1, 6);
      (3, 6, 8); (6, 1, 7); (7, 4, 8); (6, 7, 8); (8, 4, 5); (8, 5, 3)].
Proof. ex_run. Qed.

(** C114, no selection: cell 4 i + j is child j of the i-th cell; children 0, 1, 2 have its first, second, third
    point, child 3 is the middle one. *)
Theorem C114_uniform : forall (O : Ops) (D : Type) (s : cscheme) (f : fstate) (inp : mesh O D) fuel f' out,
  valid inp -> dense inp -> ready (CellF s) f inp -> csel f = [] -> update (CellF s) fuel f inp = Ok (f', out) ->
  exists mid Ls, subdivision inp out (to_split (CellF s) f inp) mid Ls /\
    forall i a b c, nth_error (tris inp) i = Some (a, b, c) -> exists x y z,
      mid a b = Some x /\ mid b c = Some y /\ mid c a = Some z /\
      let n := 4 * N.of_nat i in
      In (n, (a, x, z)) (faces out) /\ In (n + 1, (x, b, y)) (faces out) /\ In (n + 2, (y, c, z)) (faces out) /\ In (n + 3, (x, y, z)) (faces out).
Proof. exact C114_uniform_pf. Qed.
Print Assumptions C114_uniform.

Example C114_uniform_ex :
  valid octa /\ dense octa /\ ready (CellF CLoop) new_filter octa /\ tris octa <> [] /\
  exists f' out, update (CellF CLoop) 100 new_filter octa = Ok (f', out) /\
    nth_error (tris octa) 1 = Some (0, 2, 3) /\ nth_error (tris out) 4 = Some (0, 8, 10).
Proof. ex_run. Qed.

(** C114, sqrt(3): centroids are numbered in the order of the list, or of all cells. *)
Theorem C114_sqrt3 : forall (O : Ops) (D : Type) (f : fstate) (inp : mesh O D) fuel f' out,
  valid inp -> dense inp -> ready3 f inp -> update (CellF CSqrt3) fuel f inp = Ok (f', out) ->
  exists cen, root3_subdivision inp out (selected inp (csel f)) cen /\
    (csel f = [] -> forall n t, nth_error (tris inp) n = Some t -> cen t = Some (osize (pts inp) + N.of_nat n)) /\
    (forall n i t, nth_error (csel f) n = Some i -> In (i, t) (faces inp) -> cen t = Some (osize (pts inp) + N.of_nat n)).
Proof. exact C114_sqrt3_pf. Qed.
Print Assumptions C114_sqrt3.

Example C114_sqrt3_ex :
  valid strip4 /\ dense strip4 /\ ready3 (sel [2; 1]) strip4 /\
  match update (CellF CSqrt3) 100 (sel [2; 1]) strip4 with
  | Ok (f', out) => In (1, 4, 6) (tris out) /\ In (2, (3, 1, 4)) (faces strip4)
  | _ => False end.
Proof. split; [apply validb_ok; vm_compute; reflexivity|]. split; [apply denseb_ok; vm_compute; reflexivity|]. split; [apply ready3b_ok; vm_compute; reflexivity|]. vm_compute. tauto. Qed.
