(** Model of /repo/src/limbo/model/multi_gp/parallel_lf_opt.hpp over the real numbers.  [_called] and its
    warning (hp_opt.hpp) are left out. *)
From Coq Require Import Reals List.
From Verif Require Import LinAlgModel KernelModel GPModel MultiGPModel.

Section ParallelLFOpt.
Variables (K : Kern) (M : Mean).
(** [HyperParamsOptimizer]: applied to one inner GP; a new object in every iteration, hence no state *)
Variable hp_optimize : gp1 K -> outcome (gp1 K).
(** parallel_lf_opt.hpp:60-68; [order] is the order in which the iterations of the parallel loop run *)
Definition parallel_lf_opt (order : list nat) (g : mgp K M) : outcome (mgp K M) :=
  bind (par_each order (fun _ a => hp_optimize a) (mg_gps K M g)) (fun gps =>
  Done {| mg_gps := gps; mg_din := mg_din K M g; mg_dout := mg_dout K M g; mg_m := mg_m K M g; mg_obs := mg_obs K M g;
          mg_mean_obs := mg_mean_obs K M g |}).
End ParallelLFOpt.
