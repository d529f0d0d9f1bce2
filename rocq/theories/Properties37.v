(** * Properties37: turning the input of the linear filters inside out changes no bit of a coordinate (C125).

    Theorems only; the proofs are in TurnAny.v and AnyFlt.v.  [BO prec emax Hp Hm cosf d] is IEEE-754 arithmetic in dimension [d]. *)
From Coq Require Import QArith.
From Flocq Require Import Core BinarySingleNaN.
From Verif Require Import Base Mesh Filters Drivers Samples Spec SpecSub SpecGeo SpecRenum SpecFlt SpecDrive SpecSame SpecTurn Lists Check CheckGeo CheckDrive CheckRenum Drive Iter CheckSame CheckTurn
  AnyFlt TurnAny Properties12 Stuck64 CheckAny CheckTurnAny.

Open Scope N_scope.

(** C125.  [n] levels of the iterative filter around the linear filter, without a selection.  The second input has the points of the
    first, bit for bit, under other ids, and its triangles the other way round.  So have the outputs. *)
Theorem C125 : forall prec emax Hp Hm cosf d D n (m1 m2 : mesh (BO prec emax Hp Hm cosf d) D) n1 n2 f1 f2 out1 out2 r r',
  valid m1 -> valid m2 -> dense m1 -> dense m2 -> tris m1 <> [] -> turned r r' m1 m2 ->
  iterative_update CLinear n n1 [] m1 = Ok (f1, out1) -> iterative_update CLinear n n2 [] m2 = Ok (f2, out2) ->
  exists q q', turned q q' out1 out2 /\ (forall x, oget x (pts m1) <> None -> q x = r x).
Proof. exact (fun prec emax Hp Hm cosf d D => turn_levels (O := BO prec emax Hp Hm cosf d) (D := D) (flt_comm prec emax Hp Hm cosf d)). Qed.
Print Assumptions C125.

(** The octahedron and the octahedron inside out with other ids, three levels. *)
Example C125_ex : let m1 := fmesh octa in let m2 := fmesh octat in
  valid m1 /\ valid m2 /\ dense m1 /\ dense m2 /\ tris m1 <> [] /\ turned flip5 flip5 m1 m2 /\ ~ same_surface flip5 flip5 m1 m2 /\
  (exists n1 f1 out1, iterative_update CLinear 3 n1 [] m1 = Ok (f1, out1)) /\ (exists n2 f2 out2, iterative_update CLinear 3 n2 [] m2 = Ok (f2, out2)).
Proof.
  intros m1 m2. assert (V1 : valid m1) by ex_valid. assert (V2 : valid m2) by ex_valid. assert (D1 : dense m1) by ex_dense. assert (D2 : dense m2) by ex_dense.
  assert (T1 : tris m1 <> []) by (vm_compute; discriminate). assert (T2 : tris m2 <> []) by (vm_compute; discriminate).
  repeat (split; [assumption|]). split; [exact (fmesh_turned _ _ _ _ octa_turned)|]. split.
  { intros H. assert (F : is_face m1 0 1 2) by (vm_compute; tauto). apply (ss_faces _ _ _ _ H) in F. destruct F as [F|[F|F]]; each_case F. }
  assert (R : forall m : mesh B64 N, valid m -> dense m -> tris m <> [] -> exists n f out, iterative_update CLinear 3 n [] m = Ok (f, out)).
  { intros m Hv Hd Hn. destruct (C32_uniform_pf B64 N CLinear 3 m Hv Hd Hn) as [f [out [[_ [q Hq]] _]]]; try discriminate. exists q, f, out. apply Hq. apply le_n. }
  split; apply R; assumption.
Qed.

(** C125, one run of the linear edge filter without a selection. *)
Theorem C125_edges : forall prec emax Hp Hm cosf d D (m1 m2 : mesh (BO prec emax Hp Hm cosf d) D) f1 f2 g1 g2 out1 out2 r r' n1 n2,
  valid m1 -> valid m2 -> dense m1 -> dense m2 -> ready (EdgeF ELinear) f1 m1 -> ready (EdgeF ELinear) f2 m2 -> no_wire m1 -> no_wire m2 ->
  turned r r' m1 m2 -> esel f1 = [] -> esel f2 = [] ->
  update (EdgeF ELinear) n1 f1 m1 = Ok (g1, out1) -> update (EdgeF ELinear) n2 f2 m2 = Ok (g2, out2) ->
  exists q q', turned q q' out1 out2 /\ (forall x, oget x (pts m1) <> None -> q x = r x).
Proof. exact (fun prec emax Hp Hm cosf d D => turn_edges (O := BO prec emax Hp Hm cosf d) (D := D) (flt_comm prec emax Hp Hm cosf d)). Qed.
Print Assumptions C125_edges.

Example C125_edges_ex : let m1 := fmesh octa in let m2 := fmesh octat in let f := new_filter in
  valid m1 /\ valid m2 /\ dense m1 /\ dense m2 /\ ready (EdgeF ELinear) f m1 /\ ready (EdgeF ELinear) f m2 /\ no_wire m1 /\ no_wire m2 /\
  turned flip5 flip5 m1 m2 /\ esel f = [] /\
  (exists g1 out1, update (EdgeF ELinear) 100 f m1 = Ok (g1, out1)) /\ exists g2 out2, update (EdgeF ELinear) 100 f m2 = Ok (g2, out2).
Proof.
  intros m1 m2 f. destruct C125_ex as [V1 [V2 [D1 [D2 [_ [HS _]]]]]]. repeat (split; [assumption|]).
  split; [apply readyb_ok; vm_compute; reflexivity|]. split; [apply readyb_ok; vm_compute; reflexivity|].
  split; [apply no_wireb_ok; vm_compute; reflexivity|]. split; [apply no_wireb_ok; vm_compute; reflexivity|]. split; [exact HS|]. split; [reflexivity|].
  split; apply ended_ok; vm_compute; reflexivity.
Qed.

(** C125 for the sqrt(3) filter: in binary64 the last bit of the new point of a single triangle changes with its orientation. *)
Theorem C125_sqrt3_refuted : exists (m1 m2 : mesh B64 N) g1 g2 out1 out2,
  valid m1 /\ valid m2 /\ dense m1 /\ dense m2 /\ turned (fun x => x) (fun x => x) m1 m2 /\
  iterative_update CSqrt3 1 100 [] m1 = Ok (g1, out1) /\ iterative_update CSqrt3 1 100 [] m2 = Ok (g2, out2) /\
  ~ exists q q', turned q q' out1 out2.
Proof.
  exists (tri64 [1; 2; 0]), (tri64 [0; 2; 1]).
  destruct (missing_turned (iterative_update CSqrt3 1 100 [] (tri64 [1; 2; 0])) (iterative_update CSqrt3 1 100 [] (tri64 [0; 2; 1])) 3) as [g1 [g2 [o1 [o2 [R1 [R2 R3]]]]]]; [vm_compute; reflexivity|].
  exists g1, g2, o1, o2. split; [ex_valid|]. split; [ex_valid|]. split; [ex_dense|]. split; [ex_dense|]. split; [exact tri64_turned|]. auto.
Qed.
Print Assumptions C125_sqrt3_refuted.
