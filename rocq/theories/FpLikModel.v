(** [compute_log_lik] in double precision (src/limbo/model/gp.hpp:267-282).  As in FpModel, the order
    of Eigen's sums is left open.  The logarithm is a relation, because Eigen's
    "array().log()" and std::log need not give the same double. *)
From Coq Require Import ZArith List Bool Reals.
From Coq Require Import Floats.SpecFloat.
From Flocq Require Import Core.
From Verif Require Import F64 F64R FpModel.
Import ListNotations.

(** math.h M_PI, the double 0x400921fb54442d18 *)
Definition fpi : F := fofZe 7074237752028440 (-51).
Definition fhalf : F := fofZe 1 (-1).
Definition ftwo : F := fofZe 2 0.

Section Lik.
  (** [is_log x y]: [y] may be the computed logarithm of [x] *)
  Variable is_log : F -> F -> Prop.
  (** precision and least exponent of long double (64 and -16445 on x86; 113 and -16494, or those of
      double, elsewhere) *)
  Variables (lprec lemin : Z).

  (** one operation in long double: the exact result, rounded to nearest; numbers of this type are
      represented by their values.  Overflow of long double is left out. *)
  Definition wide (x : R) : R := round radix2 (FLT_exp lemin lprec) ZnearestE x.
  (** conversion of a long double to double; nothing is said about values out of the range of double *)
  Definition to_double (x : R) (r : F) : Prop :=
    fvalid r /\ ((Rabs (rnd x) < bpow radix2 1024)%R -> ffin r /\ fval r = rnd x).

  (** gp.hpp:274, "_matrixL.diagonal().array().log().sum()"; at most [m] operations *)
  Definition logsum (m n : nat) (L : fmat) (s : F) : Prop :=
    exists lg : fvec, (forall i, (i < n)%nat -> is_log (L i i) (lg i))
      /\ sum_of m (map (fun i => (false, TNum (lg i))) (seq 0 n)) s.
  (** gp.hpp:276-277, "(_obs_mean.transpose() * _alpha).trace()"; [y o], [x o] = columns [o] of
      [_obs_mean] and [_alpha] *)
  Definition trace_of (m n p : nat) (y x : nat -> fvec) (a : F) : Prop :=
    sum_of m (flat_map (fun o => map (fun i => (false, TMul (y o i) (x o i))) (seq 0 n)) (seq 0 p)) a.
  (** gp.hpp:267-282, [compute_log_lik]: "long double logdet = 2 * ..." (274) and
      "-0.5 * a - 0.5 * logdet - 0.5 * n * std::log(2 * M_PI)" (279), where the products without
      [logdet] are doubles *)
  Definition lik_of (m n p : nat) (L : fmat) (y x : nat -> fvec) (r : F) : Prop :=
    exists s a l2pi, logsum m n L s /\ trace_of m n p y x a /\ is_log (fmul ftwo fpi) l2pi /\
      let logdet := fval (fmul ftwo s) in
      to_double (wide (wide (fval (fmul (fopp fhalf) a) - wide (1 / 2 * logdet))
                       - fval (fmul (fmul fhalf (fofZ (Z.of_nat n))) l2pi)))%R r.
End Lik.
