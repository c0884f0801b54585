(** Model of the benchmark functions, /repo/src/benchmarks/limbo/testfunctions.hpp (compiled without BAYES_OPT; the line
    numbers below are of that file), over the real numbers.  Rounding is not modelled, and [M_PI] is read as pi.  The
    functions read [x(i)] for i < dim_in(): they are meant for vectors of that length.  Hartmann3 and Hartmann6 (lines
    186-262) are not modelled. *)
From Coq Require Import Reals List Bool.
From Verif Require Import LinAlgModel KernelModel.
Import ListNotations.
Open Scope R_scope.

(** lines 67-74, 76-79, 81-86, 88-93, 95-100 *)
Definition sign (x : R) : R := if Rlt_dec x 0 then -1 else if Rlt_dec 0 x then 1 else 0.
Definition sqr (x : R) : R := x * x.
Definition hat (x : R) : R := if Req_EM_T x 0 then 0 else ln (Rabs x).
Definition c1 (x : R) : R := if Rlt_dec 0 x then 10 else 5.5.
Definition c2 (x : R) : R := if Rlt_dec 0 x then 7.9 else 3.1.
(** lines 102-108 [t_osz], one component *)
Definition t_osz (x : R) : R := sign x * exp (hat x + 0.049 * sin (c1 x * hat x) + sin (c2 x * hat x)).

(** A function object: [dim_in()], [operator()], [solutions()] (its rows) *)
Record bench := mkBench { b_dim : nat; b_f : vec -> R; b_sols : list vec }.

(** lines 110-132 *)
Definition sphere : bench := mkBench 2
  (fun x => sqr (vget x 0 - 0.5) + sqr (vget x 1 - 0.5))
  [[0.5; 0.5]].
(** lines 134-155; [dim_in() - 1.0 = 1], so [pow(10., i / (dim_in() - 1.0))] is [10 ^ i] *)
Definition ellipsoid : bench := mkBench 2
  (fun x => let z := fun i => t_osz (vget x i - 0.5) in
     rsum 2 (fun i => 10 ^ i * z i * z i + 1))
  [[0.5; 0.5]].
(** lines 157-183 *)
Definition rastrigin : bench := mkBench 4
  (fun xx => let x := fun i => 2 * vget xx i - 1 in
     10 * INR 4 + rsum 4 (fun i => x i * x i - 10 * cos (2 * PI * x i)))
  [[(0 + 1) / 2; (0 + 1) / 2; (0 + 1) / 2; (0 + 1) / 2]].
(** lines 266-296; [goldstein_r] is [r], the argument of the logarithm *)
Definition goldstein_r (x y : R) : R :=
  let fact1a := sqr (x + y + 1) in
  let fact1b := 19 - 14 * x + 3 * sqr x - 14 * y + 6 * x * y + 3 * sqr y in
  let fact1 := 1 + fact1a * fact1b in
  let fact2a := sqr (2 * x - 3 * y) in
  let fact2b := 18 - 32 * x + 12 * sqr x + 48 * y - 36 * x * y + 27 * sqr y in
  let fact2 := 30 + fact2a * fact2b in
  fact1 * fact2.
Definition goldstein_price : bench := mkBench 2
  (fun xx => (ln (goldstein_r (4 * vget xx 0 - 2) (4 * vget xx 1 - 2)) - 8.693) / 2.427)
  [[0.5; 0.25]].
(** lines 298-328 *)
Definition branin : bench := mkBench 2
  (fun x => let x1 := vget x 0 * 15 - 5 in let x2 := vget x 1 * 15 in
     let term1 := sqr (x2 - 5.1 * sqr x1 / (4 * sqr PI) + 5 * x1 / PI - 6) in
     let term2 := (10 - 10 / (8 * PI)) * cos x1 in
     (term1 + term2 - 44.81) / 51.95)
  [[(- PI + 5) / 15; 12.275 / 15]; [(PI + 5) / 15; 2.275 / 15]; [(9.42478 + 5) / 15; 2.475 / 15]].
(** lines 330-358 *)
Definition six_hump_camel : bench := mkBench 2
  (fun x => let x1 := -3 + 6 * vget x 0 in let x2 := -2 + 4 * vget x 1 in
     let x1_2 := sqr x1 in let x2_2 := sqr x2 in
     let tmp1 := (4 - 2.1 * x1_2 + sqr x1_2 / 3) * x1_2 in
     let tmp2 := x1 * x2 in
     let tmp3 := (-4 + 4 * x2_2) * x2_2 in
     tmp1 + tmp2 + tmp3)
  [[(0.0898 + 3) / 6; (-0.7126 + 2) / 4]; [(-0.0898 + 3) / 6; (0.7126 + 2) / 4]].

(** lines 367-372 [Benchmark::operator()]: limbo maximises; the single component of the result *)
Definition benchmark (b : bench) (x : vec) : R := - b_f b x.
(** lines 390-412 [Benchmark::accuracy]; [None]: [sols.row(0)] of a matrix without rows *)
Definition accuracy (b : bench) (v : R) : option R :=
  match b_sols b with
  | [] => None
  | s0 :: sols => Some (fold_left (fun min_diff s => let diff := Rabs (v + b_f b s) in if Rlt_dec diff min_diff then diff else min_diff) sols (Rabs (v + b_f b s0)))
  end.
