(** The kernels of limbo (src/limbo/kernel) in double precision: [kernel(v1, v2)] of the four
    kernels and the noise added by [BaseKernel::operator()].

    Sums are evaluated in any order, as in FpModel.  [fexp] is std::exp (libm), a parameter; the
    contract assumed of it is stated with the theorems.  The parameters [_sf2], [_l], [_ell] and
    [_noise] are arbitrary doubles.  The ARD kernel is modelled without the factor [_A]
    (Params::kernel_squared_exp_ard::k() = 0, the default, squared_exp_ard.hpp:56). *)
From Coq Require Import ZArith List Bool.
From Coq Require Import Floats.SpecFloat.
From Verif Require Import F64 FpModel.
Import ListNotations.

Definition fpt : Type := list F.

(** [v1 - v2] *)
Definition fvsub (x y : fpt) : fpt := map (fun p => fsub (fst p) (snd p)) (combine x y).
(** [v.cwiseQuotient(e)] *)
Definition fvquot (v e : fpt) : fpt := map (fun p => fdiv (fst p) (snd p)) (combine v e).
(** [v.squaredNorm()] *)
Definition sqnorm (m : nat) (v : fpt) (r : F) : Prop := sum_of m (map (fun d => (false, TMul d d)) v) r.

Definition fof (z : Z) : F := fofZe z 0.
(** the constant -0.5 *)
Definition mhalf : F := fofZe (-1) (-1).

(** the last multiplication of a kernel, "a * b", is kept apart: the addition of the noise
    (kernel.hpp:83, inlined) may be fused with it *)
Definition prod2 : Type := (F * F)%type.

(** exp.hpp:94-99 *)
Definition exp_k (fexp : F -> F) (m : nat) (sf2 l : F) (x y : fpt) (k : prod2) : Prop :=
  exists s, sqnorm m (fvsub x y) s /\ k = (sf2, fexp (fmul mhalf (fdiv s (fmul l l)))).

(** matern_three_halves.hpp:102-108; [norm()] is the square root of [squaredNorm()] *)
Definition matern3_k (fexp : F -> F) (m : nat) (sf2 l : F) (x y : fpt) (k : prod2) : Prop :=
  exists s, sqnorm m (fvsub x y) s /\
    let term := fdiv (fmul (fsqrt (fof 3)) (fsqrt s)) l in
    k = (fmul sf2 (fadd f1 term), fexp (fopp term)).

(** matern_five_halves.hpp:104-113 *)
Definition matern5_k (fexp : F -> F) (m : nat) (sf2 l : F) (x y : fpt) (k : prod2) : Prop :=
  exists s, sqnorm m (fvsub x y) s /\
    let d := fsqrt s in
    let term1 := fdiv (fmul (fsqrt (fof 5)) d) l in
    let term2 := fdiv (fmul (fof 5) (fmul d d)) (fmul (fof 3) (fmul l l)) in
    k = (fmul sf2 (fadd (fadd f1 term1) term2), fexp (fopp term1)).

(** squared_exp_ard.hpp:138-151 without [_A] *)
Definition ard_k (fexp : F -> F) (m : nat) (sf2 : F) (ell : fpt) (x y : fpt) (k : prod2) : Prop :=
  exists z, sqnorm m (fvquot (fvsub x y) ell) z /\ k = (sf2, fexp (fmul mhalf z)).

(** the constant 1e-8 of kernel.hpp:83: the double nearest to it *)
Definition jit : F := fofZe 6044629098073146 (-79).

(** kernel.hpp:81-84, [operator()(v1, v2, i, j)]: the kernel plus the noise when [i == j]; with or
    without a fused multiplication *)
Definition kop_f (noise : F) (k : prod2) (same : bool) (r : F) : Prop :=
  let c := if same then fadd noise jit else f0 in
  r = fadd (fmul (fst k) (snd k)) c \/ r = ffma (fst k) (snd k) c.
