(** Specification side of the sparse Gaussian process with pseudo-inputs (Snelson and Ghahramani 2005): the squared exponential
    kernel, the prior covariance that the pseudo-inputs induce on the observations, and the posterior given the observations. *)
From Coq Require Import Reals List.
From Verif Require Import LinAlgModel LinAlg KernelModel GPModel GPSpec.
Import ListNotations.
Open Scope R_scope.

(** [c exp(-1/2 sum_k b_k (x_k - y_k)^2)] *)
Definition se (d : nat) (b : nat -> R) (c : R) (x y : nat -> R) : R :=
  c * exp (- (1 / 2) * rsum d (fun k => b k * ((x k - y k) * (x k - y k)))).

Section Fitc.
(** dimension; inverse squared length scales, signal variance, noise variance, jitter; pseudo-inputs; inputs; residuals *)
Variables (d : nat) (b : nat -> R) (c s del : R) (m : nat) (xb : nat -> nat -> R) (n : nat) (X : nat -> nat -> R) (r : nat -> R).
(** covariance of the pseudo-observations *)
Definition pseudo_cov (i j : nat) : R := se d b c (xb i) (xb j) + del * delta i j.
(** covariance that goes through the pseudo-inputs; [B]: inverse of [pseudo_cov] *)
Definition through (B : nat -> nat -> R) (x y : nat -> R) : R :=
  rsum m (fun p => rsum m (fun q => se d b c x (xb p) * B p q * se d b c (xb q) y)).
(** covariance of the observations: exact variances on the diagonal *)
Definition obs_cov (B : nat -> nat -> R) (i j : nat) : R :=
  through B (X i) (X j) + delta i j * (c - through B (X i) (X i) + s).
(** posterior of a new observation at [v]; [A]: inverse of [obs_cov] *)
Definition fitc_mean (B A : nat -> nat -> R) (v : nat -> R) : R :=
  rsum n (fun i => rsum n (fun j => through B v (X i) * A i j * r j)).
Definition fitc_var (B A : nat -> nat -> R) (v : nat -> R) : R :=
  c + s - rsum n (fun i => rsum n (fun j => through B v (X i) * A i j * through B v (X j))).
End Fitc.
