(** * SpecSession: sequences of calls on one filter object. *)
From Verif Require Import Base Mesh Filters Drivers Spec.

Section SESSION.
Context {O : Ops} {D : Type}.
Notation mesh := (mesh O D).
Notation state := (@state O D).

(** ** Cell-based filters *)
(** SetCellsToBeSubdivided(l), AddSubdividedCellId(i), SetInput(inp) with a completed Update() after which
    GetOutput() is [out] and GetCellsToBeSubdivided() is [reported]. *)
Inductive ccall :=
| CSet (l : list N)
| CAdd (i : N)
| CRun (inp out : mesh) (reported : list N).

(** The calls, the latest first, lead from a new object to the object [f]. *)
Inductive cells_session (s : cscheme) : list ccall -> fstate -> Prop :=
| cs_new : cells_session s [] new_filter
| cs_set c f l : cells_session s c f -> cells_session s (CSet l :: c) (set_cells_to_be_subdivided f l)
| cs_add c f i : cells_session s c f -> cells_session s (CAdd i :: c) (add_subdivided_cell_id f i)
| cs_run c f fuel inp f' out : cells_session s c f -> update (CellF s) fuel f inp = Ok (f', out) ->
    cells_session s (CRun inp out (csel f') :: c) f'.

(** The list that is in effect after these calls: the last one set or reported, and what was added since. *)
Fixpoint chosen (c : list ccall) : list N :=
  match c with
  | [] => []
  | CSet l :: _ => l
  | CAdd i :: c => chosen c ++ [i]
  | CRun _ _ r :: _ => r
  end.
(** Whether the last Update() was without a selection; true if there was none. *)
Fixpoint last_uniform (c : list ccall) : bool :=
  match c with
  | [] => true
  | CRun _ _ _ :: c => match chosen c with [] => true | _ => false end
  | _ :: c => last_uniform c
  end.

(** ** Edge-based filters *)
Inductive ecall :=
| ESet (l : list (option dedge))
| EAdd (e : option dedge)
| ERun (inp out : mesh).
Inductive edges_session (s : escheme) : list ecall -> fstate -> Prop :=
| es_new : edges_session s [] new_filter
| es_set c f l : edges_session s c f -> edges_session s (ESet l :: c) (set_edges_to_be_subdivided f l)
| es_add c f e : edges_session s c f -> edges_session s (EAdd e :: c) (add_subdivided_edge f e)
| es_run c f fuel inp f' out : edges_session s c f -> update (EdgeF s) fuel f inp = Ok (f', out) ->
    edges_session s (ERun inp out :: c) f'.
(** Here a run leaves the list alone. *)
Fixpoint chosen_edges (c : list ecall) : list (option dedge) :=
  match c with
  | [] => []
  | ESet l :: _ => l
  | EAdd e :: c => chosen_edges c ++ [e]
  | ERun _ _ :: c => chosen_edges c
  end.

(** ** The iterative filter *)
Inductive icall :=
| ILevels (n : nat)
| ISet (l : list N)
| IAdd (i : N)
| IRun (inp out : mesh).
Inductive iter_session (s : cscheme) : list icall -> iobject -> Prop :=
| is_new : iter_session s [] new_iterative
| is_levels c i n : iter_session s c i -> iter_session s (ILevels n :: c) (iterative_set_levels i n)
| is_set c i l : iter_session s c i -> iter_session s (ISet l :: c) (iterative_set_cells i l)
| is_add c i id : iter_session s c i -> iter_session s (IAdd id :: c) (iterative_add_cell i id)
| is_run c i fuel inp i' out : iter_session s c i -> iterative_run s fuel i inp = Ok (i', out) ->
    iter_session s (IRun inp out :: c) i'.
Fixpoint chosen_levels (c : list icall) : nat :=
  match c with [] => 1 | ILevels n :: _ => n | _ :: c => chosen_levels c end.
Fixpoint chosen_iter (c : list icall) : list N :=
  match c with [] => [] | ISet l :: _ => l | IAdd i :: c => chosen_iter c ++ [i] | _ :: c => chosen_iter c end.

(** What a run delivers, without the object. *)
Definition outcome {A} (r : res (A * mesh)) : res mesh := rbind r (fun st => Ok (snd st)).
End SESSION.
