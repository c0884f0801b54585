(** The mean functions and the sample-by-sample life of model::GP in double precision
    (src/limbo/mean, src/limbo/model/gp.hpp), one output.

    Sums are evaluated in any order, as in FpModel.  The kernel and the mean function keep their
    parameters (no optimization of the hyper-parameters). *)
From Coq Require Import ZArith List Bool.
From Coq Require Import Floats.SpecFloat.
From Verif Require Import F64 FpModel FpKerModel Prop_FpKer Prop_FpAcq FpAcqModel.
Import ListNotations.

(** mean::NullFunction (null_function.hpp:57-61), mean::Constant (constant.hpp:70-74), mean::Data
    (data.hpp:58-62) *)
Inductive meanf := MNull | MConst (c : F) | MData.

(** the values the mean function may return when the observations are [ys].  For mean::Data it is
    [_mean_observation] (gp.hpp:111, 148), "_observations.colwise().mean()": Eigen divides the sum
    by the number of rows *)
Definition mean_val (m : nat) (mf : meanf) (ys : list F) (mv : F) : Prop :=
  match mf with
  | MNull => mv = f0
  | MConst c => mv = c
  | MData => exists s, sum_of m (map (fun o => (false, TNum o)) ys) s /\ mv = fdiv s (fofZ (Z.of_nat (length ys)))
  end.

(** gp.hpp:537-548, [_compute_obs_mean]: "_obs_mean = _observations - _mean_vector"; none of the
    three mean functions depends on the sample *)
Definition residual (ys : list F) (mv : F) : fvec := fun i => fsub (nth i ys f0) mv.

(** the members of a GP (gp.hpp:514-532) that the predictions depend on: [_samples], [_observations],
    the value of the mean function, [_kernel], [_matrixL], [_alpha] *)
Record fgp := mkFgp { fg_xs : list fpt; fg_ys : list F; fg_mean : F; fg_A : fmat; fg_L : fmat; fg_a : fvec }.
(** [_samples[i]]; an index out of range, that the code never uses, gives the first sample *)
Definition ptsf (xs : list fpt) : nat -> fpt := fun i => nth i xs (nth 0 xs []).

Section GP.
  Variables (fexp : F -> F) (mk : nat) (sf2 noise : F) (p : kpar) (m : nat) (mf : meanf).

  (** gp.hpp:605-611, [_compute_alpha], after [_compute_obs_mean] *)
  Definition centred (g : fgp) : Prop :=
    mean_val m mf (fg_ys g) (fg_mean g) /\ alpha_of m (length (fg_xs g)) (fg_L g) (residual (fg_ys g) (fg_mean g)) (fg_a g).

  (** gp.hpp:88-116 and 550-571, [compute(samples, observations)].  A factorisation that stops leaves an
      unspecified factor. *)
  Definition gp_compute (xs : list fpt) (ys : list F) (g : fgp) : Prop :=
    fg_xs g = xs /\ fg_ys g = ys /\
    (exists kf, (forall i j, (j <= i < length xs)%nat -> computes fexp mk sf2 noise p (ptsf xs i) (ptsf xs j) (i =? j)%nat (kf i j)) /\
       fg_A g = kernel_full kf /\ (llt m (length xs) (fg_A g) (fg_L g) \/ llt_stops m (length xs) (fg_A g))) /\
    centred g.

  (** gp.hpp:126-152 and 573-603, [add_sample(sample, observation)]; [k i] =
      [_kernel_function(_samples[i], _samples[n - 1], i, n - 1)] *)
  Definition gp_add (g : fgp) (x : fpt) (y : F) (g' : fgp) : Prop :=
    let n := length (fg_xs g) in
    fg_xs g' = fg_xs g ++ [x] /\ fg_ys g' = fg_ys g ++ [y] /\
    (exists k, (forall i, (i <= n)%nat -> computes fexp mk sf2 noise p (ptsf (fg_xs g') i) x (i =? n)%nat (k i)) /\
       (fg_A g' = fun i j => if (j =? n)%nat then k i else if (i =? n)%nat then k j else fg_A g i j) /\
       chol_row m n (fg_A g') (fg_L g) (fg_L g')) /\
    centred g'.

  (** gp.hpp:159-168, [query(v)] of a GP with samples *)
  Definition gp_query (g : fgp) (v : fpt) (mu sigma_sq : F) : Prop :=
    query_at fexp mk sf2 noise p (length (fg_xs g)) (ptsf (fg_xs g)) m (fg_L g) (fg_a g) (fg_mean g) v mu sigma_sq.
  (** gp.hpp:174-181, [mu(v)] *)
  Definition gp_mu (g : fgp) (v : fpt) (mu : F) : Prop :=
    mean_at fexp mk sf2 noise p (length (fg_xs g)) (ptsf (fg_xs g)) m (fg_a g) (fg_mean g) v mu.

  (** the states of a GP with the samples [xs] and the observations [ys]: newly constructed (gp.hpp:81-85),
      computed from data, or extended by one sample *)
  Inductive gp_life : list fpt -> list F -> fgp -> Prop :=
  | life_new g : fg_xs g = [] -> fg_ys g = [] -> gp_life [] [] g
  | life_compute xs ys g : xs <> [] -> length ys = length xs -> gp_compute xs ys g -> gp_life xs ys g
  | life_add xs ys g x y g' : gp_life xs ys g -> gp_add g x y g' -> gp_life (xs ++ [x]) (ys ++ [y]) g'.
End GP.
