(** The linear algebra that limbo takes from Eigen (not part of /repo), over the real numbers:
    sums, Cholesky factorisation, triangular solves.  Only the values matter here; matrices are
    functions on indices, their sizes are explicit arguments.  Rounding is not modelled. *)
From Coq Require Import Reals List Bool Lia.
Open Scope R_scope.

(** [f 0 + ... + f (n-1)] *)
Fixpoint rsum (n : nat) (f : nat -> R) : R :=
  match n with O => 0 | S k => rsum k f + f k end.

Definition upd (x : nat -> R) (i : nat) (v : R) : nat -> R := fun j => if (j =? i)%nat then v else x j.

(** Eigen's [LLT]: column by column, reading the lower triangle only; [None] when a pivot is not
    positive (Eigen then stops and leaves a partial factor behind, [info()] being ignored by limbo) *)
Fixpoint chol (k : nat) (K : nat -> nat -> R) : option (nat -> nat -> R) :=
  match k with
  | O => Some (fun _ _ => 0)
  | S c =>
      match chol c K with
      | None => None
      | Some L =>
          let x := K c c - rsum c (fun m => L c m * L c m) in
          if Rle_dec x 0 then None
          else Some (fun i j =>
            if (j =? c)%nat then
              if (i =? c)%nat then sqrt x
              else if (c <? i)%nat then (K i c - rsum c (fun m => L i m * L c m)) / sqrt x
              else 0
            else L i j)
      end
  end.

(** are all diagonal elements different from 0? *)
Fixpoint diag_ok (n : nat) (L : nat -> nat -> R) : bool :=
  match n with O => true | S k => diag_ok k L && (if Req_EM_T (L k k) 0 then false else true) end.

(** [triangularView<Lower>().solve(b)]: forward substitution, reading the lower triangle only *)
Fixpoint fwd (n : nat) (L : nat -> nat -> R) (b : nat -> R) : nat -> R :=
  match n with
  | O => fun _ => 0
  | S k => let x := fwd k L b in upd x k ((b k - rsum k (fun j => L k j * x j)) / L k k)
  end.

(** [triangularView<Lower>().adjoint().solve(b)] (or [transpose()]): backward substitution; [k] =
    number of unknowns already computed, from the last one *)
Fixpoint bwd_from (n k : nat) (L : nat -> nat -> R) (b : nat -> R) : nat -> R :=
  match k with
  | O => fun _ => 0
  | S c =>
      let x := bwd_from n c L b in
      let i := (n - 1 - c)%nat in
      upd x i ((b i - rsum n (fun j => if (i <? j)%nat then L j i * x j else 0)) / L i i)
  end.
Definition bwd (n : nat) (L : nat -> nat -> R) (b : nat -> R) : nat -> R := bwd_from n n L b.
