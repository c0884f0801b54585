(** Model of the statistics functors that read the model: /repo/src/limbo/stat/{gp,gp_acquisitions,gp_kernel_hparams,
    gp_mean_hparams,gp_prediction_differences,console_summary}.hpp.  Conventions as in [StatModel]: a file is the list
    of its lines, number formatting is not modelled, [stats_enabled()] is true.  gp_likelihood.hpp calls [get_lik()],
    a member no model has: the functor cannot be instantiated, and is left out. *)
From Coq Require Import ZArith List Bool.
From Verif Require Import F64 BOModel InitModel StatModel.
Import ListNotations.
Open Scope Z_scope.

(** what a functor reads: samples(), observations(), model(), total_iterations(), current_iteration() *)
Record call (M : Type) : Type := mkCall { c_xs : list vec; c_ys : list vec; c_m : M; c_tot : Z; c_cur : Z }.
Arguments mkCall {M}. Arguments c_xs {M}. Arguments c_ys {M}. Arguments c_m {M}. Arguments c_tot {M}. Arguments c_cur {M}.
(** the calls of the functors during a run (bo_base.hpp:269-273 [_update_stats]); current_iteration() is the value
    that was handed to the acquisition function of the same iteration (boptimizer.hpp:152): it changes only at the
    end of an iteration (line 167) and in [_init] *)
Fixpoint stat_calls {M E} (c : Z) (tr : list (event M E)) : list (call M) :=
  match tr with
  | [] => []
  | EvAcq _ _ _ c' _ :: r => stat_calls c' r
  | EvStat xs ys m t :: r => mkCall xs ys m t c :: stat_calls c r
  | _ :: r => stat_calls c r
  end.

Section Functors.
Context {M : Type}.
(** predictions: vectors [V]; numbers [A]; hyper-parameters [P] *)
Context {V A P : Type}.
(** const member functions of the model, and the acquisition function built from the model and the iteration *)
Variable mu : M -> vec -> V.
Variable sigma : M -> vec -> A.
Variable acqui : M -> Z -> vec -> A.
Variables (k_params m_params : M -> P).
(** the aggregator on predictions and on observations; [std::abs(a - b)] *)
Variable afun_mu : V -> A.
Variable afun : vec -> A.
Variable abs_diff : A -> A -> A.

Definition header {T} (tot : Z) : list (row T) := if tot =? 0 then [Header] else [].

(** gp_prediction_differences.hpp:60-74; [None]: [back()] of an empty vector *)
Definition stat_pred_diff (c : call M) : list (row (option (A * A * A))) :=
  match c_ys c with
  | [] => []
  | _ => header (c_tot c) ++
         [Row (c_tot c) (match back (c_xs c), back (c_ys c) with
                         | Some x, Some y => let p := afun_mu (mu (c_m c) x) in Some (p, afun y, abs_diff p (afun y))
                         | _, _ => None
                         end)]
  end.
(** gp_acquisitions.hpp:60-82 *)
Definition stat_acquisitions (c : call M) : list (row (A * A * A)) :=
  header (c_tot c) ++
  match back (c_xs c) with
  | None => []
  | Some x => [Row (c_tot c) (afun_mu (mu (c_m c) x), sigma (c_m c) x, acqui (c_m c) (c_cur c) x)]
  end.
(** gp_kernel_hparams.hpp:60-71, gp_mean_hparams.hpp:60-71 *)
Definition stat_params (params : M -> P) (c : call M) : list (row P) :=
  match c_ys c with [] => [] | _ => header (c_tot c) ++ [Row (c_tot c) (params (c_m c))] end.

(** console_summary.hpp:58-67, with boptimizer.hpp:174-180: iteration, last sample, its value, best value *)
Definition stat_console (afun : vec -> F) (c : call M) : list (Z * option (vec * F * F)) :=
  match c_ys c with
  | [] => []
  | _ => [(c_tot c, match back (c_xs c), back (c_ys c), nth_error (c_ys c) (max_element (map afun (c_ys c))) with
                    | Some x, Some y, Some b => Some (x, afun y, afun b)
                    | _, _, _ => None
                    end)]
  end.

(** gp.hpp:60-97: the file gp_<total_iterations>.dat: a line per point of the grid; [None]: dimension 0 (out of range) *)
Definition stat_gp (xs : list F) (dim : nat) (c : call M) : option (Z * list (vec * V * A * A)) :=
  match grid_sampling xs dim with
  | None => None
  | Some pts => Some (c_tot c, map (fun p => (p, mu (c_m c) p, sigma (c_m c) p, acqui (c_m c) (c_cur c) p)) pts)
  end.

Definition model_log {E T} (f : call M -> list T) (tr : list (event M E)) : list T := flat_map f (stat_calls 0 tr).
End Functors.
