(** The acquisition functions UCB and EI in double precision (src/limbo/acqui/ucb.hpp,
    src/limbo/acqui/ei.hpp), on a GP as in FpModel and FpKerModel.

    The aggregator is FirstElem on a model with one output (the default): [afun(mu)] is the number
    [mu].  std::exp, std::erfc and std::pow(., 2.0) are parameters; what is assumed of them is stated
    with the theorems.  A product and an addition of one expression may be fused. *)
From Coq Require Import ZArith List Bool.
From Coq Require Import Floats.SpecFloat.
From Verif Require Import F64 FpModel FpKerModel FpLikModel.
Import ListNotations.

(** [a * b + c], with or without fusion *)
Definition mul_add (a b c r : F) : Prop := r = fadd c (fmul a b) \/ r = ffma a b c.

(** ucb.hpp:87, "afun(mu) + Params::acqui_ucb::alpha() * sqrt(sigma)" (GP_UCB, gp_ucb.hpp:103, is the
    same with [_beta] for [alpha]) *)
Definition ucb_of (alpha mu sigma_sq r : F) : Prop := mul_add alpha (fsqrt sigma_sq) mu r.

(** std::max_element (ei.hpp:109): the first of the largest elements; on an empty range the iterator
    is end() and reading it is undefined ([None]) *)
Definition max_elem (l : list F) : option F :=
  match l with [] => None | x :: r => Some (fold_left (fun a b => if flt a b then b else a) r x) end.

(** the constant 1e-10 of ei.hpp:97: the double nearest to it *)
Definition cutoff : F := fofZe 7737125245533627 (-86).

Section EI.
  (** std::exp, std::erfc, and std::pow with exponent 2.0 *)
  Variables fexp ferfc fpow2 : F -> F.
  (** Params::acqui_ei::jitter() *)
  Variable jitter : F.

  (** ei.hpp:112-118; [X * Phi + sigma * phi] may be fused in two ways *)
  Definition ei_line (mu f_max sigma r : F) : Prop :=
    let X := fsub (fsub mu f_max) jitter in
    let Z := fdiv X sigma in
    let phi := fdiv (fexp (fmul mhalf (fpow2 Z))) (fsqrt (fmul ftwo fpi)) in
    let Phi := fmul fhalf (ferfc (fdiv (fopp Z) (fsqrt ftwo))) in
    r = fadd (fmul X Phi) (fmul sigma phi) \/ r = ffma X Phi (fmul sigma phi) \/ r = ffma sigma phi (fmul X Phi).

  (** ei.hpp:87-119; [rewards] = the predicted values at the samples (102-106), [mu], [sigma_sq] =
      the prediction at the point.  The cached incumbent is the one of these samples (C43 is about
      the cache). *)
  Definition ei_of (rewards : list F) (mu sigma_sq : F) (r : F) : Prop :=
    let sigma := fsqrt sigma_sq in
    if flt sigma cutoff || (length rewards <? 1)%nat then r = f0
    else exists f_max, max_elem rewards = Some f_max /\ ei_line mu f_max sigma r.
End EI.
