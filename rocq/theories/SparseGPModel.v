(** Model of SparsifiedGP (/repo/src/limbo/model/sparsified_gp.hpp:72-122) on top of the GP of [GPModel].
    Distances between samples are doubles given by an arbitrary function; see SparseModel. *)
From Coq Require Import Reals List Bool.
From Verif Require Import F64 SparseModel LinAlgModel KernelModel GPModel.
Import ListNotations.

Section SparseGP.
Variables (K : Kern) (M : Mean).
Variable norm : list R -> list R -> F.
Variable max_points : nat.

(** sparsified_gp.hpp:84-101 [compute]; [diag]: the uninitialised diagonal of the distance matrix,
    [order]: schedules of the density loop *)
Definition sparse_compute (diag : nat -> F) (order : nat -> list nat) (g : gp K M) (samples observations : list (list R))
    (compute_kernel : bool) : outcome (gp K M) :=
  match kept _ _ norm (@length R) max_points diag order samples observations with
  | Ok (samp, obs) => compute K M g samp obs compute_kernel
  | _ => Undefined
  end.

(** sparsified_gp.hpp:105-120 [add_sample] *)
Definition sparse_add_sample (diag : nat -> F) (order : nat -> list nat) (junk1 junk2 : nat -> nat -> R) (g : gp K M)
    (s o : list R) : outcome (gp K M) :=
  bind (add_sample K M junk1 junk2 g s o) (fun g' =>
    if (max_points <? length (g_samples K M g'))%nat then
      let Y := g_obs K M g' in
      let observations := map (fun i => vec_of (cols Y) (at_ Y i)) (seq 0 (length (g_samples K M g'))) in
      sparse_compute diag order g' (g_samples K M g') observations true
    else Done g').
End SparseGP.
