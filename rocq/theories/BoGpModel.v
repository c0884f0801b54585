(** Model of BOptimizer with the Gaussian process as its model: the operations that boptimizer.hpp
    (/repo/src/limbo/bayes_opt/boptimizer.hpp:136-170) asks of [model_t], for [model::GP<Params, K, M, HpOpt>]
    (/repo/src/limbo/model/gp.hpp).  The state is the outcome of all calls so far: after undefined behaviour
    or a failed factorisation nothing is known.  The GP works with real numbers: the values of the samples
    and observations, which are doubles; NaN and infinities make it [NotFinite]. *)
From Coq Require Import Reals List Bool ZArith.
From Verif Require Import F64 F64R KernelModel GPModel HpOptModel.
Import ListNotations.

(** the numbers held by a vector of doubles *)
Definition real_vec (v : F64.vec) : option KernelModel.vec := if is_nan_or_inf v then None else Some (map fval v).
Fixpoint real_vecs (l : list F64.vec) : option (list KernelModel.vec) :=
  match l with
  | [] => Some []
  | v :: r => match real_vec v, real_vecs r with Some a, Some b => Some (a :: b) | _, _ => None end
  end.

(** the fourth template parameter of GP: /repo/src/limbo/model/gp/{no,kernel,mean,kernel_mean}_lf_opt.hpp,
    kernel_loo_opt.hpp *)
Inductive hp_opt := NoLFOpt | KernelLFOpt | MeanLFOpt | KernelMeanLFOpt | KernelLooOpt.

Section BoGp.
Variables (K : Kern) (M : Mean).
Context {W : Type}.
Notation gm := (outcome (gp K M)).
(** StateFunction::dim_in(), StateFunction::dim_out() *)
Variables (din dout : nat).
Variable hpo : hp_opt.
(** the optimizer of the hyper-parameters; it may use the world, e.g. a random generator *)
Variable optimizer : W -> (KernelModel.vec -> outcome (R * KernelModel.vec)) -> KernelModel.vec -> outcome KernelModel.vec.
(** new coefficients of matrices that are resized (gp.hpp:145, 581) *)
Variables junk1 junk2 : W -> nat -> nat -> R.
Variable tick : W -> W.

(** boptimizer.hpp:146 [_model = model_t(dim_in, dim_out)] *)
Definition gm_fresh : gm := Done (gp_new K M din dout).
(** boptimizer.hpp:144 [_model.compute(_samples, _observations)] *)
Definition gm_compute (w : W) (m : gm) (xs ys : list F64.vec) : gm * W :=
  (bind m (fun g => match real_vecs xs, real_vecs ys with Some X, Some Y => compute K M g X Y true | _, _ => NotFinite end), w).
(** boptimizer.hpp:161 [_model.add_sample(_samples.back(), _observations.back())] *)
Definition gm_add (w : W) (m : gm) (x y : F64.vec) : gm * W :=
  (bind m (fun g => match real_vec x, real_vec y with Some a, Some b => add_sample K M (junk1 w) (junk2 w) g a b | _, _ => NotFinite end), tick w).
(** gp.hpp:119-122 [optimize_hyperparams]; no_lf_opt.hpp:58-62 asserts false *)
Definition optimize_hyperparams (w : W) (g : gp K M) : gm :=
  match hpo with
  | NoLFOpt => Undefined
  | KernelLFOpt => kernel_lf_opt K M (optimizer w) g
  | MeanLFOpt => mean_lf_opt K M (optimizer w) g
  | KernelMeanLFOpt => kernel_mean_lf_opt K M (optimizer w) g
  | KernelLooOpt => kernel_loo_opt K M (optimizer w) g
  end.
Definition gm_hp (w : W) (m : gm) : gm * W := (bind m (optimize_hyperparams w), tick w).
End BoGp.
