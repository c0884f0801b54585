(** Model of [random_lhs] (/repo/src/limbo/tools/random_generator.hpp:158-186) and of the initialisation LHS
    (/repo/src/limbo/init/lhs.hpp:70-82) in binary64.  Products and sums are rounded one by one (no contraction to
    fused operations).  Matrices are functions row -> column -> value. *)
From Coq Require Import ZArith List Arith.
From Coq Require Import Floats.SpecFloat.
From Verif Require Import F64 LhsModel.
Import ListNotations.

(** line 160, Eigen's LinSpaced(n + 1, 0, 1) (linspaced_op: the last value is [high], the others are low + i * step) *)
Definition lhs_cutF (n i : nat) : F :=
  if (i =? n)%nat then f1 else fadd f0 (fmul (fofZ (Z.of_nat i)) (fdiv (fsub f1 f0) (fofZ (Z.of_nat n)))).

(** lines 167-173: u * (b - a) + a *)
Definition lhs_rdpointsF (n : nat) (u : nat -> nat -> F) (i j : nat) : F :=
  fadd (fmul (u i j) (fsub (lhs_cutF n (S i)) (lhs_cutF n i))) (lhs_cutF n i).

(** lines 175-183 *)
Definition random_lhsF (n : nat) (u : nat -> nat -> F) (perm : nat -> list nat) (row col : nat) : F :=
  scatter (perm col) 0 (fun i => lhs_rdpointsF n u i col) (fun _ => f0) row.

(** init/lhs.hpp:74-78: the rows of the matrix, in order *)
Definition lhs_points (dim n : nat) (u : nat -> nat -> F) (perm : nat -> list nat) : list vec :=
  map (fun row => map (fun col => random_lhsF n u perm row col) (seq 0 dim)) (seq 0 n).
