(** * Samples: executable scalars over Q and small concrete meshes.

    Used by the Examples beside the theorems and as witnesses of the
    refutations.  Nothing here models code of /repo. *)
From Coq Require Import QArith Qreduction.
From Verif Require Import Base Mesh Filters Drivers.
Open Scope N_scope.

(** Rational arithmetic (always reduced).  [qsqrt] is exact on squares of
    rationals; [qcos] is exact for n = 1, 2, 3, 4, 6 and 0 otherwise. *)
Definition qadd (x y : Q) : Q := Qred (Qplus x y).
Definition qsub (x y : Q) : Q := Qred (Qminus x y).
Definition qmul (x y : Q) : Q := Qred (Qmult x y).
Definition qdiv (x y : Q) : Q := Qred (Qdiv x y).
Definition qsqrt (x : Q) : Q :=
  let r := Qred x in Qred (Qmake (Z.sqrt (Qnum r)) (Pos.sqrt (Qden r))).
Definition qcos (n : N) : Q :=
  match n with
  | 1 => 1%Q | 2 => (-1)%Q | 3 => (-1 # 2)%Q | 4 => 0%Q | 6 => (1 # 2)%Q | _ => 0%Q
  end.
Definition qgtb (x y : Q) : bool := negb (Qle_bool x y).

Definition QO (d : nat) : Ops :=
  mkOps Q d qadd qsub qmul qdiv (fun z => inject_Z z) qsqrt qcos qgtb.
Notation Q3 := (QO 3).
Notation Q2 := (QO 2).

Definition zpt {d} (l : list Z) : list (K (QO d)) := map inject_Z l.

(** A mesh built as a user would: SetPoint for every point, then AddFace. *)
Definition build {O : Ops} (ps : list (N * list (K O))) (fs : list (list N)) : mesh O N :=
  let m0 := fold_left (fun m kv => set_point m (fst kv) (snd kv)) ps empty_mesh in
  fold_left (fun m f => fst (add_face m f)) fs (set_cells m0 (Some [])).

Definition number {A} (l : list A) : list (N * A) :=
  combine (map N.of_nat (seq 0 (length l))) l.

(** One triangle. *)
Definition tri1 : mesh Q3 N :=
  build (number [zpt [0; 0; 0]%Z; zpt [16; 0; 0]%Z; zpt [0; 16; 0]%Z]) [[0; 1; 2]].
(** Two triangles sharing an edge. *)
Definition tri2 : mesh Q3 N :=
  build (number [zpt [0; 0; 0]%Z; zpt [16; 0; 0]%Z; zpt [0; 16; 0]%Z; zpt [16; 16; 0]%Z])
        [[0; 1; 2]; [2; 1; 3]].
(** Three triangles in a strip. *)
Definition tri3 : mesh Q3 N :=
  build (number [zpt [0; 0; 0]%Z; zpt [16; 0; 0]%Z; zpt [0; 16; 0]%Z; zpt [16; 16; 0]%Z; zpt [32; 0; 0]%Z])
        [[0; 1; 2]; [2; 1; 3]; [3; 1; 4]].
(** A tetrahedron. *)
Definition tetra : mesh Q3 N :=
  build (number [zpt [0; 0; 0]%Z; zpt [16; 0; 0]%Z; zpt [0; 16; 0]%Z; zpt [0; 0; 16]%Z])
        [[0; 2; 1]; [0; 1; 3]; [1; 2; 3]; [2; 0; 3]].
(** A doubly covered triangle (two faces on the same three points). *)
Definition pillow : mesh Q3 N :=
  build (number [zpt [0; 0; 0]%Z; zpt [16; 0; 0]%Z; zpt [0; 16; 0]%Z]) [[0; 1; 2]; [0; 2; 1]].
(** Two triangles meeting in one point. *)
Definition bowtie : mesh Q3 N :=
  build (number [zpt [0; 0; 0]%Z; zpt [16; 0; 0]%Z; zpt [0; 16; 0]%Z; zpt [-16; 0; 0]%Z; zpt [0; -16; 0]%Z])
        [[0; 1; 2]; [0; 3; 4]].
(** A fan of four triangles around an interior point. *)
Definition fan4 : mesh Q3 N :=
  build (number [zpt [0; 0; 0]%Z; zpt [16; 0; 0]%Z; zpt [0; 16; 0]%Z; zpt [-16; 0; 0]%Z; zpt [0; -16; 0]%Z])
        [[0; 1; 2]; [0; 2; 3]; [0; 3; 4]; [0; 4; 1]].
(** An octahedron. *)
Definition octa : mesh Q3 N :=
  build (number [zpt [0; 0; 16]%Z; zpt [16; 0; 0]%Z; zpt [0; 16; 0]%Z; zpt [-16; 0; 0]%Z; zpt [0; -16; 0]%Z; zpt [0; 0; -16]%Z])
        [[0; 1; 2]; [0; 2; 3]; [0; 3; 4]; [0; 4; 1]; [5; 2; 1]; [5; 3; 2]; [5; 4; 3]; [5; 1; 4]].
(** The seven-point torus (14 faces, closed, genus 1). *)
Definition torus7 : mesh Q3 N :=
  build (number [zpt [3; -3; 0]%Z; zpt [-3; 3; 0]%Z; zpt [-3; -3; 1]%Z; zpt [3; 3; 1]%Z; zpt [-1; -2; 3]%Z; zpt [1; 2; 3]%Z; zpt [0; 0; 15]%Z])
        (flat_map (fun i => [[i; (i + 1) mod 7; (i + 3) mod 7]; [i; (i + 3) mod 7; (i + 2) mod 7]]) [0; 1; 2; 3; 4; 5; 6]).
(** Two triangles with a border, an isolated point 4 and a wire edge 3 - 5; cell 1 has data 77. *)
Definition mixed : mesh Q3 N :=
  set_cell_data
    (fst (add_missing_edges
       (build (number [zpt [0; 0; 0]%Z; zpt [16; 0; 0]%Z; zpt [0; 16; 0]%Z; zpt [16; 16; 0]%Z; zpt [9; 9; 9]%Z; zpt [32; 32; 0]%Z])
              [[0; 1; 2]; [2; 1; 3]]) [(3, 5)])) 1 77.
(** A strip of four triangles with cell data on the first and the third. *)
Definition strip4 : mesh Q3 N :=
  set_cell_data (set_cell_data
    (build (number [zpt [0; 0; 0]%Z; zpt [16; 0; 0]%Z; zpt [0; 16; 0]%Z; zpt [16; 16; 0]%Z; zpt [32; 0; 0]%Z; zpt [32; 16; 4]%Z])
        [[0; 1; 2]; [2; 1; 3]; [3; 1; 4]; [3; 4; 5]]) 0 10) 2 12.

(** Filter objects: fresh, with selected cells, with selected edges. *)
Definition sel (l : list N) : fstate := set_cells_to_be_subdivided new_filter l.
Definition esl (l : list (option dedge)) : fstate := set_edges_to_be_subdivided new_filter l.
