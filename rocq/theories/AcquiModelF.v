(** Acquisition functions and the MaxPredictedValue criterion in binary64, and EI called from
    several threads.  /repo/src/limbo/acqui/{ucb,gp_ucb,ei}.hpp, /repo/src/limbo/stop/max_predicted_value.hpp *)
From Coq Require Import ZArith List Bool.
From Coq Require Import Floats.SpecFloat.
From Verif Require Import F64 BOModel.
Import ListNotations.
Open Scope Z_scope.

(** acqui/ucb.hpp:87 and acqui/gp_ucb.hpp:103, from the aggregated mean and the variance *)
Definition ucb_F (weight mu sigma : F) : F := fadd mu (fmul weight (fsqrt sigma)).

(** M_PI = 3.141592653589793116 *)
Definition M_PI : F := fofZe 7074237752028440 (-51).
Definition f2 : F := fofZ 2.
(** acqui/gp_ucb.hpp:84-90; [pow_], [log_]: std::pow, std::log *)
Definition gp_ucb_beta_F (pow_ : F -> F -> F) (log_ : F -> F) (delta : F) (dim iteration : Z) : F :=
  let nt := pow_ (fofZ iteration) (fadd (fdiv (fofZ dim) f2) f2) in
  let delta3 := fmul delta (fofZ 3) in
  let pi2 := fmul M_PI M_PI in
  fsqrt (fmul f2 (log_ (fdiv (fmul nt pi2) delta3))).

(** stop/max_predicted_value.hpp:76-97 as a criterion of the optimizer.  [start]: tools::random_vector,
    [inner]: the optimizer (given the objective and a start), [mu]: the model's prediction.
    The observations cannot become empty in between; [best_observation] is then defined. *)
Section MaxPredictedValue.
  Context {W M E : Type}.
  Variable start : W -> vec * W.
  Variable inner : (vec -> F) -> vec -> W -> vec * W.
  Variable mu : M -> vec -> vec.
  Variable afun : vec -> F.
  Variable ratio : F.
  Definition max_predicted_value : criterion (W := W) (M := M) (E := E) :=
    mkCrit unit tt (fun u w s =>
      match observations s with
      | [] => (false, u, w)
      | _ =>
          let '(x0, w1) := start w in
          let '(x, w2) := inner (fun x => afun (mu (model s) x)) x0 w1 in
          let val := afun (mu (model s) x) in
          (negb (fle (match best_observation afun s with Some o => afun o | None => fnan end) (fmul ratio val)), u, w2)
      end).
End MaxPredictedValue.

(** ** EI called by several threads on the same object (the acquisition function is captured by
    reference, boptimizer.hpp:154-156; opt/parallel_repeater.hpp runs the optimizers in parallel).
    Steps of lines 100-111 of acqui/ei.hpp, executed one at a time in any order (sequential
    consistency, weaker than what the C++ memory model allows for racing accesses).
    [n]: number of samples of the model, [f]: the incumbent; [V]: values. *)
Section Threads.
  Context {V : Type}.
  Variables (n : Z) (f : V).
  Inductive pc := Test | Compute | WriteF | ReadF | Got (x : option V).
  Record cfg := { c_nb : Z; c_fmax : option V; c_pc : nat -> pc }.
  Definition goto (c : cfg) (i : nat) (p : pc) : nat -> pc := fun j => if (j =? i)%nat then p else c_pc c j.
  Definition tick (c : cfg) (i : nat) : cfg :=
    match c_pc c i with
    | Test => {| c_nb := c_nb c; c_fmax := c_fmax c; c_pc := goto c i (if (c_nb c =? n)%Z then ReadF else Compute) |}
    | Compute => {| c_nb := n; c_fmax := c_fmax c; c_pc := goto c i WriteF |}
    | WriteF => {| c_nb := c_nb c; c_fmax := Some f; c_pc := goto c i ReadF |}
    | ReadF => {| c_nb := c_nb c; c_fmax := c_fmax c; c_pc := goto c i (Got (c_fmax c)) |}
    | Got _ => c
    end.
  Definition start_cfg (nb : Z) (fm : option V) : cfg := {| c_nb := nb; c_fmax := fm; c_pc := fun _ => Test |}.
  Definition run_threads (c : cfg) (sched : list nat) : cfg := fold_left tick sched c.
End Threads.
Arguments Got {V} _. Arguments c_pc {V} _ _. Arguments c_nb {V} _. Arguments c_fmax {V} _.
