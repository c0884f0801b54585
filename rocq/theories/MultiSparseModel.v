(** Model of MultiGP with [GPClass] = SparsifiedGP (/repo/src/limbo/model/multi_gp.hpp with
    /repo/src/limbo/model/sparsified_gp.hpp), on top of [MultiGPModel] and [SparseGPModel].  [query], [mu], [sigma],
    [nb_samples], [observations] are inherited: those of [MultiGPModel]. *)
From Coq Require Import Reals List Bool.
From Verif Require Import F64 SparseModel LinAlgModel KernelModel GPModel MultiGPModel SparseGPModel.
Import ListNotations.

Section MultiSparse.
Variables (K : Kern) (M : Mean).
Variable norm : list R -> list R -> F.
Variable max_points : nat.

(** What a call finds in uninitialised memory and how its parallel loops are scheduled: the order of the loop over
    the outputs and, for every output, the diagonal of the distance matrix, the schedules of the density loop and the
    new coefficients of the matrices of the GP *)
Record env := { e_order : list nat; e_diag : nat -> nat -> F; e_dense : nat -> nat -> list nat;
                e_junk1 : nat -> nat -> nat -> R; e_junk2 : nat -> nat -> nat -> R }.

(** multi_gp.hpp:80-127 calling sparsified_gp.hpp:84-101 *)
Definition ms_compute (e : env) : mgp K M -> list vec -> list vec -> bool -> outcome (mgp K M) :=
  mg_compute_by K M (fun i => sparse_compute K NullFunction norm max_points (e_diag e i) (e_dense e i)) (e_order e).
(** multi_gp.hpp:141-175 calling sparsified_gp.hpp:105-120 *)
Definition ms_add_sample (e : env) : mgp K M -> vec -> vec -> outcome (mgp K M) :=
  mg_add_sample_by K M (fun i => sparse_add_sample K NullFunction norm max_points (e_diag e i) (e_dense e i) (e_junk1 e i) (e_junk2 e i)) (e_order e).
(** multi_gp.hpp:254-266 *)
Definition ms_recompute (e : env) : mgp K M -> bool -> bool -> outcome (mgp K M) :=
  mg_recompute_by K M (fun i => sparse_compute K NullFunction norm max_points (e_diag e i) (e_dense e i)) (e_order e).
(** multi_gp.hpp:268-273 [samples()]: those of the first GP; [assert(_gp_models.size())] *)
Definition mg_samples (g : mgp K M) : outcome (list vec) :=
  match mg_gps K M g with [] => Undefined | a :: _ => Done (g_samples K NullFunction a) end.
(** multi_gp.hpp:247-251 [nb_samples()] *)
Definition mg_nb_samples (g : mgp K M) : nat := length (mg_obs K M g).
End MultiSparse.
