(** Model of limbo's kernels (/repo/src/limbo/kernel) over the real numbers.  Points and
    hyper-parameter vectors are lists of reals; rounding and overflow are not modelled. *)
From Coq Require Import Reals List Bool ZArith.
From Verif Require Import LinAlgModel.
Import ListNotations.
Open Scope R_scope.

Definition vec := list R.
Definition vget (v : vec) (i : nat) : R := nth i v 0.
Definition vec_of (n : nat) (f : nat -> R) : vec := map f (seq 0 n).

(** Eigen: [(v1 - v2).squaredNorm()] for two vectors of the same size *)
Definition sqdist (x y : vec) : R := rsum (length x) (fun i => (vget x i - vget y i) * (vget x i - vget y i)).
(** [(v1 - v2).norm()] *)
Definition dist (x y : vec) : R := sqrt (sqdist x y).

(** A kernel deriving from BaseKernel (kernel/kernel.hpp:74-146) seen from the GP: state, constructor,
    [operator()] without the noise, noise, hyper-parameters, gradient. *)
Record Kern := {
  kst : Type;
  k_new : nat -> kst;                        (* KernelFunction(dim_in) *)
  k_ker : kst -> vec -> vec -> R;            (* kernel(v1, v2) *)
  k_noise : kst -> R;                        (* noise() *)
  k_hsize : kst -> nat;                      (* h_params_size() *)
  k_hparams : kst -> vec;                    (* h_params() *)
  k_set : kst -> vec -> kst;                 (* set_h_params(p), p of the right size *)
  k_grad : kst -> vec -> vec -> Z -> Z -> vec (* grad(x1, x2, i, j) *)
}.

(** kernel/kernel.hpp:83, the constant 1e-8 *)
Definition jitter : R := / 100000000.

(** kernel/kernel.hpp:81-84 *)
Definition kop (K : Kern) (st : kst K) (v1 v2 : vec) (i j : Z) : R :=
  k_ker K st v1 v2 + (if (i =? j)%Z then k_noise K st + jitter else 0).
(** with the default indices -1 and -2 *)
Definition kop0 (K : Kern) (st : kst K) (v1 v2 : vec) : R := kop K st v1 v2 (-1) (-2).

(** The part each concrete kernel defines (the CRTP parameter [Kernel]). *)
Record CKern := {
  cst : Type;
  c_new : nat -> cst;
  c_ker : cst -> vec -> vec -> R;
  c_size : cst -> nat;                       (* params_size() *)
  c_params : cst -> vec;                     (* params() *)
  c_set : cst -> vec -> cst;                 (* set_params(p) *)
  c_gradient : cst -> vec -> vec -> vec      (* gradient(x1, x2) *)
}.

(** kernel/kernel.hpp:74-130: the concrete kernel plus [_noise], [_noise_p]; [noise0] and [opt] are
    Params::kernel::noise() and Params::kernel::optimize_noise(). *)
Record base_st (C : CKern) := { b_c : cst C; b_noise : R; b_noise_p : R }.
Arguments b_c {C}. Arguments b_noise {C}. Arguments b_noise_p {C}.

Definition BaseKernel (C : CKern) (noise0 : R) (opt : bool) : Kern := {|
  kst := base_st C;
  (* lines 76-79 *)
  k_new := fun dim => {| b_c := c_new C dim; b_noise := noise0; b_noise_p := ln (sqrt noise0) |};
  k_ker := fun st => c_ker C (b_c st);
  k_noise := b_noise;
  (* lines 99-102 *)
  k_hsize := fun st => (c_size C (b_c st) + (if opt then 1 else 0))%nat;
  (* lines 105-113 *)
  k_hparams := fun st => c_params C (b_c st) ++ (if opt then [b_noise_p st] else []);
  (* lines 116-123 *)
  k_set := fun st p =>
    let n := c_size C (b_c st) in
    if opt then {| b_c := c_set C (b_c st) (firstn n p); b_noise := exp (2 * vget p n); b_noise_p := vget p n |}
    else {| b_c := c_set C (b_c st) (firstn n p); b_noise := b_noise st; b_noise_p := b_noise_p st |};
  (* lines 86-96 *)
  k_grad := fun st x1 x2 i j =>
    c_gradient C (b_c st) x1 x2 ++ (if opt then [if (i =? j)%Z then 2 * b_noise st else 0] else [])
|}.

(** The state shared by the isotropic kernels: [_sf2], [_l], [_h_params]. *)
Record iso := { i_sf2 : R; i_l : R; i_h : vec }.
(** exp.hpp:75-79, matern_five_halves.hpp:85-89, matern_three_halves.hpp:83-87 *)
Definition iso_new (sf2 l : R) : iso := {| i_sf2 := sf2; i_l := l; i_h := [ln l; ln (sqrt sf2)] |}.
(** exp.hpp:87-92, matern_five_halves.hpp:97-102, matern_three_halves.hpp:95-100 *)
Definition iso_set (p : vec) : iso := {| i_sf2 := exp (2 * vget p 1); i_l := exp (vget p 0); i_h := p |}.

(** exp.hpp:94-99 *)
Definition exp_kernel (s : iso) (v1 v2 : vec) : R :=
  let l_sq := i_l s * i_l s in
  let r := sqdist v1 v2 / l_sq in
  i_sf2 s * exp (- (1 / 2) * r).
(** exp.hpp:101-111 *)
Definition exp_gradient (s : iso) (x1 x2 : vec) : vec :=
  let l_sq := i_l s * i_l s in
  let r := sqdist x1 x2 / l_sq in
  let k := i_sf2 s * exp (- (1 / 2) * r) in
  [r * k; 2 * k].
Definition Exp (sf2 l : R) : CKern := {|
  cst := iso; c_new := fun _ => iso_new sf2 l; c_ker := exp_kernel; c_size := fun _ => 2%nat;
  c_params := i_h; c_set := fun _ p => iso_set p; c_gradient := exp_gradient |}.

(** matern_three_halves.hpp:102-108 *)
Definition matern3_kernel (s : iso) (v1 v2 : vec) : R :=
  let d := dist v1 v2 in
  let term := sqrt 3 * d / i_l s in
  i_sf2 s * (1 + term) * exp (- term).
(** matern_three_halves.hpp:110-124 *)
Definition matern3_gradient (s : iso) (x1 x2 : vec) : vec :=
  let d := dist x1 x2 in
  let term := sqrt 3 * d / i_l s in
  let r := exp (- term) in
  [i_sf2 s * (- term * r + (1 + term) * term * r); 2 * i_sf2 s * (1 + term) * r].
Definition MaternThreeHalves (sf2 l : R) : CKern := {|
  cst := iso; c_new := fun _ => iso_new sf2 l; c_ker := matern3_kernel; c_size := fun _ => 2%nat;
  c_params := i_h; c_set := fun _ p => iso_set p; c_gradient := matern3_gradient |}.

(** matern_five_halves.hpp:104-113 *)
Definition matern5_kernel (s : iso) (v1 v2 : vec) : R :=
  let d := dist v1 v2 in
  let d_sq := d * d in
  let l_sq := i_l s * i_l s in
  let term1 := sqrt 5 * d / i_l s in
  let term2 := 5 * d_sq / (3 * l_sq) in
  i_sf2 s * (1 + term1 + term2) * exp (- term1).
(** matern_five_halves.hpp:115-134 *)
Definition matern5_gradient (s : iso) (x1 x2 : vec) : vec :=
  let d := dist x1 x2 in
  let d_sq := d * d in
  let l_sq := i_l s * i_l s in
  let term1 := sqrt 5 * d / i_l s in
  let term2 := 5 * d_sq / (3 * l_sq) in
  let r := exp (- term1) in
  [i_sf2 s * (r * term1 * (1 + term1 + term2) + (- term1 - 2 * term2) * r); 2 * i_sf2 s * (1 + term1 + term2) * r].
Definition MaternFiveHalves (sf2 l : R) : CKern := {|
  cst := iso; c_new := fun _ => iso_new sf2 l; c_ker := matern5_kernel; c_size := fun _ => 2%nat;
  c_params := i_h; c_set := fun _ p => iso_set p; c_gradient := matern5_gradient |}.

(** squared_exp_ard.hpp:83, 155-159: [_sf2], [_ell], [_A] (input_dim x k), [_input_dim], [_h_params];
    [k] = Params::kernel_squared_exp_ard::k() *)
Record ard := { a_sf2 : R; a_ell : nat -> R; a_A : nat -> nat -> R; a_dim : nat; a_h : vec }.

(** squared_exp_ard.hpp:90 *)
Definition ard_size (k : nat) (s : ard) : nat := (a_dim s + a_dim s * k + 1)%nat.
(** squared_exp_ard.hpp:96-105 *)
Definition ard_set (k dim : nat) (p : vec) : ard := {|
  a_sf2 := exp (2 * vget p (dim + dim * k + 1 - 1));
  a_ell := fun i => exp (vget p i);
  a_A := fun i j => vget p ((j + 1) * dim + i);
  a_dim := dim; a_h := p |}.
(** squared_exp_ard.hpp:83-88 *)
Definition ard_new (sigma_sq : R) (k dim : nat) : ard :=
  ard_set k dim (vec_of (dim + dim * k + 1) (fun i => if (i =? dim + dim * k)%nat then ln (sqrt sigma_sq) else 0)).

(** squared_exp_ard.hpp:111-113 and 143-145: [K = A A^T + diag(1/ell^2)], [z = (x1-x2)^T K (x1-x2)] *)
Definition ard_K (k : nat) (s : ard) (i j : nat) : R :=
  rsum k (fun m => a_A s i m * a_A s j m) + (if (i =? j)%nat then / a_ell s i * / a_ell s i else 0).
Definition ard_z (k : nat) (s : ard) (x1 x2 : vec) : R :=
  let D := fun i => vget x1 i - vget x2 i in
  if (0 <? k)%nat then
    rsum (a_dim s) (fun j => rsum (a_dim s) (fun i => D i * ard_K k s i j) * D j)
  else
    (* line 148 / line 130: cwiseQuotient and squared norm *)
    rsum (a_dim s) (fun i => (D i / a_ell s i) * (D i / a_ell s i)).
(** squared_exp_ard.hpp:138-151 *)
Definition ard_kernel (k : nat) (s : ard) (x1 x2 : vec) : R := a_sf2 s * exp (- (1 / 2) * ard_z k s x1 x2).
(** squared_exp_ard.hpp:107-136 *)
Definition ard_gradient (k : nat) (s : ard) (x1 x2 : vec) : vec :=
  let D := fun i => vget x1 i - vget x2 i in
  let kv := a_sf2 s * exp (- (1 / 2) * ard_z k s x1 x2) in
  vec_of (a_dim s) (fun i => (D i / a_ell s i) * (D i / a_ell s i) * kv)
  ++ flat_map (fun j => vec_of (a_dim s) (fun i => - rsum (a_dim s) (fun m => D m * a_A s m j) * D i * kv)) (seq 0 k)
  ++ [2 * kv].
Definition SquaredExpARD (sigma_sq : R) (k : nat) : CKern := {|
  cst := ard; c_new := ard_new sigma_sq k; c_ker := ard_kernel k; c_size := ard_size k;
  c_params := a_h; c_set := fun s p => ard_set k (a_dim s) p; c_gradient := ard_gradient k |}.
