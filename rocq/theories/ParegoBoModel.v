(** Model of experimental::bayes_opt::Parego (/repo/src/limbo/experimental/bayes_opt/parego.hpp:61-91): the optimizer
    of [BOModel] with [GPParego] (/repo/src/limbo/experimental/model/gp_parego.hpp:73-121) around the Gaussian process
    as its model.  State and numbers as in [BoGpModel].  The draws of [tools::random_vector] and the orders of
    summation chosen by Eigen come from the world. *)
From Coq Require Import Reals List Bool ZArith.
From Verif Require Import F64 F64R KernelModel GPModel HpOptModel BoGpModel ParegoModel.
Import ListNotations.

Section ParegoBo.
Variables (K : Kern) (M : Mean) (rho : R).
Context {W : Type}.
Notation pm := (outcome (parego K M)).
(** StateFunction::dim_in() *)
Variable din : nat.
Variable hpo : hp_opt.
Variable optimizer : W -> (KernelModel.vec -> outcome (R * KernelModel.vec)) -> KernelModel.vec -> outcome KernelModel.vec.
(** gp_parego.hpp:105 [tools::random_vector(_nb_objs)] *)
Variable draw : W -> nat -> R.
(** orders of combination: sum of the draws, [maxCoeff], sum of the weighted values *)
Variables tw tm ts : W -> tree.
Variable tick : W -> W.

(** boptimizer.hpp:146 with gp_parego.hpp:82 [Model(dim_in, 1)]: one output whatever dim_out *)
Definition pm_fresh : pm := Done {| pg_gp := gp_new K M din 1; pg_raw := [] |}.
(** default construction of the optimizer, gp_parego.hpp:81 *)
Definition pm_default : pm := Done {| pg_gp := gp_default K M; pg_raw := [] |}.
(** boptimizer.hpp:144 [_model.compute(_samples, _observations)] *)
Definition pm_compute (w : W) (m : pm) (xs ys : list F64.vec) : pm * W :=
  (bind m (fun g => match real_vecs xs, real_vecs ys with
                    | Some X, Some Y => parego_compute K M rho (tw w) (tm w) (ts w) (draw w) g X Y
                    | _, _ => NotFinite end), tick w).
(** boptimizer.hpp:161 [_model.add_sample(_samples.back(), _observations.back())] *)
Definition pm_add (w : W) (m : pm) (x y : F64.vec) : pm * W :=
  (bind m (fun g => match real_vec x, real_vec y with
                    | Some a, Some b => parego_add K M rho (tw w) (tm w) (ts w) (draw w) g a b
                    | _, _ => NotFinite end), tick w).
(** boptimizer.hpp:163-164; [optimize_hyperparams] is inherited: it works on the base class *)
Definition pm_hp (w : W) (m : pm) : pm * W :=
  (bind m (fun g => bind (optimize_hyperparams K M hpo optimizer w (pg_gp K M g)) (fun g' =>
     Done {| pg_gp := g'; pg_raw := pg_raw K M g |})), tick w).
(** gp.hpp:476-511 [load], inherited as well: [_raw_observations] is not in the archive *)
Definition pm_load (m : pm) (a : archive) (recomp : bool) : pm :=
  bind m (fun g => bind (load K M (pg_gp K M g) a recomp) (fun g' => Done {| pg_gp := g'; pg_raw := pg_raw K M g |})).
End ParegoBo.
