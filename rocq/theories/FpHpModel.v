(** Learning the hyper-parameters of the kernel in double precision (src/limbo/model/gp/kernel_lf_opt.hpp,
    src/limbo/model/gp.hpp), one output.

    The optimizer that picks the new hyper-parameters (kernel_lf_opt.hpp:62-65) is left open: the new
    values are any. *)
From Coq Require Import ZArith List Bool.
From Coq Require Import Floats.SpecFloat.
From Verif Require Import F64 FpModel FpKerModel Prop_FpKer FpMeanModel.
Import ListNotations.

(** what the kernel function holds (kernel.hpp:66-132, exp.hpp:113, matern_three_halves.hpp,
    matern_five_halves.hpp, squared_exp_ard.hpp): signal variance, noise and length scales *)
Record hyper := mkHyper { hy_sf2 : F; hy_noise : F; hy_p : kpar }.

(** kernel_lf_opt.hpp:66-67, "gp.kernel_function().set_h_params(params); gp.recompute(false)", with the new
    parameters [sf2], [noise], [p]; gp.hpp:241-253 [recompute(false, true)] keeps the samples, the
    observations and the mean vector, and computes the kernel matrix, its factor and alpha
    (gp.hpp:550-571, 605-611).  A factorisation that stops leaves an unspecified factor. *)
Definition gp_retrain (fexp : F -> F) (mk : nat) (sf2 noise : F) (p : kpar) (m : nat) (g g' : fgp) : Prop :=
  fg_xs g' = fg_xs g /\ fg_ys g' = fg_ys g /\ fg_mean g' = fg_mean g /\
  (exists kf, (forall i j, (j <= i < length (fg_xs g))%nat -> computes fexp mk sf2 noise p (ptsf (fg_xs g) i) (ptsf (fg_xs g) j) (i =? j)%nat (kf i j)) /\
     fg_A g' = kernel_full kf /\ (llt m (length (fg_xs g)) (fg_A g') (fg_L g') \/ llt_stops m (length (fg_xs g)) (fg_A g'))) /\
  alpha_of m (length (fg_xs g)) (fg_L g') (residual (fg_ys g) (fg_mean g)) (fg_a g').
