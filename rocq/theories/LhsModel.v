(** Model of [random_lhs] (/repo/src/limbo/tools/random_generator.hpp:158-186) over the real
    numbers (without the rounding of LinSpaced and of the affine map; with it: [LhsFModel]).
    Matrices are functions row -> column -> value. *)
From Coq Require Import List Reals Arith.
Import ListNotations.
Open Scope R_scope.

(** line 160: cut(i) = i/n, i = 0..n *)
Definition lhs_cut (n : nat) (i : nat) : R := INR i / INR n.

(** lines 167-173: rdpoints(i,j) = u(i,j) * (b(i) - a(i)) + a(i), a = cut.head(n), b = cut.tail(n) *)
Definition lhs_rdpoints (n : nat) (u : nat -> nat -> R) (i j : nat) : R :=
  u i j * (lhs_cut n (S i) - lhs_cut n i) + lhs_cut n i.

Definition upd {T} (f : nat -> T) (k : nat) (v : T) : nat -> T := fun i => if (i =? k)%nat then v else f i.

(** lines 177-183: [perm * M]: row indices[i] of the product is row i of M; column [j] only is
    kept.  [ind] = perm.indices() after std::shuffle, [H] starts as the zero matrix. *)
Fixpoint scatter {T} (ind : list nat) (i : nat) (col : nat -> T) (out : nat -> T) : nat -> T :=
  match ind with
  | [] => out
  | k :: r => scatter r (S i) col (upd out k (col i))
  end.

Definition random_lhs (n : nat) (u : nat -> nat -> R) (perm : nat -> list nat) (row col : nat) : R :=
  scatter (perm col) 0 (fun i => lhs_rdpoints n u i col) (fun _ => 0) row.
