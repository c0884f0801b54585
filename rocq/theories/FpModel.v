(** The linear algebra of model::GP in double precision (src/limbo/model/gp.hpp).

    limbo leaves every sum of products to Eigen ("L.block(..) * L.block(..).transpose()", LLT,
    triangularView().solve, dot): the order of the additions depends on the version of Eigen, on
    the size of the vector registers and on the blocking, and with -march=native (wscript:157) the
    compiler may contract a product and an addition into one fused operation.  The model therefore
    fixes no order: a sum of products may be computed by any expression tree whose leaves are the
    wanted terms (and exact zeros, the initial values of accumulators), each operation being the
    correctly rounded operation of binary64.  What is proved holds for all of them.

    Values of the kernel, of the mean function and the observations are arbitrary doubles.
    Matrices are functions on indices; their size is an argument. *)
From Coq Require Import ZArith List Bool Lia Permutation.
From Coq Require Import Floats.SpecFloat.
From Verif Require Import F64.
Import ListNotations.

(** fused multiply-add [a * b + c], one rounding (IEEE 754 fusedMultiplyAdd).  For finite operands:
    the exact value, an integer times a power of 2, rounded once.  A sum that is exactly 0 gets the
    sign the two-operation version gives it when both parts have that sign, + otherwise. *)
Definition sm (s : bool) (m : positive) : Z := if s then Zneg m else Zpos m.
Definition mant (x : F) : Z := match x with S754_finite s m _ => sm s m | _ => 0 end.
Definition expo (x : F) : Z := match x with S754_finite _ _ e => e | _ => 0 end.
Definition ffinb (x : F) : bool := match x with S754_finite _ _ _ | S754_zero _ => true | _ => false end.
Definition fsign (x : F) : bool := match x with S754_finite s _ _ | S754_zero s | S754_infinity s => s | S754_nan => false end.
Definition ffma (a b c : F) : F :=
  if ffinb a && ffinb b then
    if ffinb c then
      let e := Z.min (expo a + expo b) (expo c) in
      binary_normalize fprec femax
        (mant a * mant b * 2 ^ (expo a + expo b - e) + mant c * 2 ^ (expo c - e)) e
        (xorb (fsign a) (fsign b) && fsign c)
    else c
  else fadd (fmul a b) c.

(** an evaluation of a sum of products: the operations and their order *)
Inductive sumx : Type :=
| Num (x : F)                 (* a number in memory *)
| Mul (a b : F)               (* the rounded product of two numbers in memory *)
| Plus (s t : sumx)
| Minus (s t : sumx)
| Fma (a b : F) (s : sumx)    (* a * b + s, fused *)
| Fnma (a b : F) (s : sumx).  (* s - a * b, fused *)

Fixpoint feval (s : sumx) : F :=
  match s with
  | Num x => x
  | Mul a b => fmul a b
  | Plus s t => fadd (feval s) (feval t)
  | Minus s t => fsub (feval s) (feval t)
  | Fma a b s => ffma a b (feval s)
  | Fnma a b s => ffma (fopp a) b (feval s)
  end.

(** number of rounded operations *)
Fixpoint ops (s : sumx) : nat :=
  match s with
  | Num _ => 0
  | Mul _ _ => 1
  | Plus s t | Minus s t => S (ops s + ops t)
  | Fma _ _ s | Fnma _ _ s => S (ops s)
  end.

(** what is summed: numbers and products, with their signs ([true] = subtracted) *)
Inductive term : Type := TNum (x : F) | TMul (a b : F).
Fixpoint terms (neg : bool) (s : sumx) : list (bool * term) :=
  match s with
  | Num x => [(neg, TNum x)]
  | Mul a b => [(neg, TMul a b)]
  | Plus s t => terms neg s ++ terms neg t
  | Minus s t => terms neg s ++ terms (negb neg) t
  | Fma a b s => (neg, TMul a b) :: terms neg s
  | Fnma a b s => (negb neg, TMul a b) :: terms neg s
  end.

(** [r] may be the computed value of the sum of [ts], with at most [m] operations: the terms in any
    order and association, and any number of zeros (accumulators start at 0).  The two factors of
    a product may be exchanged without effect ([fmul] and [ffma] are commutative). *)
Definition sum_of (m : nat) (ts : list (bool * term)) (r : F) : Prop :=
  exists s zs, Permutation (terms false s) (ts ++ zs)
    /\ Forall (fun t => snd t = TNum f0) zs
    /\ (ops s <= m)%nat /\ r = feval s.

(** [c - sum of the products] *)
Definition minus_dot (m : nat) (c : F) (l : list (F * F)) (r : F) : Prop :=
  sum_of m ((false, TNum c) :: map (fun p => (true, TMul (fst p) (snd p))) l) r.
(** [c + sum of the products] *)
Definition plus_dot (m : nat) (c : F) (l : list (F * F)) (r : F) : Prop :=
  sum_of m ((false, TNum c) :: map (fun p => (false, TMul (fst p) (snd p))) l) r.

(** [s / b]; Eigen's blocked triangular solver multiplies by the reciprocal of the diagonal *)
Definition quot (s b y : F) : Prop := y = fdiv s b \/ y = fmul s (fdiv f1 b).

Definition fmat : Type := nat -> nat -> F.
Definition fvec : Type := nat -> F.

(** the products [f k * g k] for [k] in [from, from + len) *)
Definition prods (from len : nat) (f g : fvec) : list (F * F) := map (fun k => (f k, g k)) (seq from len).

(** one coefficient of the factor below the diagonal (Eigen's LLT, and gp.hpp:591-594:
    "L_j = _kernel(n - 1, j) - (row j * row n-1); _matrixL(n - 1, j) = L_j / _matrixL(j, j)") *)
Definition below (m : nat) (A L : fmat) (i j : nat) : Prop :=
  exists s, minus_dot m (A i j) (prods 0 j (L j) (L i)) s /\ quot s (L j j) (L i j).
(** the pivot, that is what the square root is taken of (Eigen's LLT, and gp.hpp:596) *)
Definition pivot (m : nat) (A L : fmat) (j : nat) (s : F) : Prop :=
  minus_dot m (A j j) (prods 0 j (L j) (L j)) s.

(** Eigen's LLT, column by column: the pivot must not satisfy "x <= 0" (a NaN does not), then the
    column below it is computed *)
Definition column (m n : nat) (A L : fmat) (j : nat) : Prop :=
  (exists s, pivot m A L j s /\ fle s f0 = false /\ L j j = fsqrt s)
  /\ forall i, (j < i < n)%nat -> below m A L i j.
(** gp.hpp:565, "_matrixL = Eigen::LLT<Eigen::MatrixXd>(_kernel).matrixL()", run to the end *)
Definition llt (m n : nat) (A L : fmat) : Prop := forall j, (j < n)%nat -> column m n A L j.
(** ... or stopped at a pivot that is <= 0: limbo does not look at [info()] and goes on with a
    factor whose last columns are those of the kernel matrix *)
Definition llt_stops (m n : nat) (A : fmat) : Prop :=
  exists L k s, (k < n)%nat /\ (forall j, (j < k)%nat -> column m n A L j) /\ pivot m A L k s /\ fle s f0 = true.

(** gp.hpp:573-603, [_compute_incremental_kernel]: the last row ([n] = new number of samples - 1).
    The argument of the square root (597) is not tested. *)
Definition chol_row (m n : nat) (A L L' : fmat) : Prop :=
  (forall i j, (i < n)%nat -> (j < n)%nat -> L' i j = L i j)
  /\ (forall j, (j < n)%nat -> below m A L' n j)
  /\ exists s, pivot m A L' n s /\ L' n n = fsqrt s.

(** gp.hpp:555-562, [_kernel] computed from scratch: the lower triangle, mirrored.  [kf i j] =
    [_kernel_function(_samples[i], _samples[j], i, j)] *)
Definition kernel_full (kf : fmat) : fmat := fun i j => if (j <=? i)%nat then kf i j else kf j i.
(** gp.hpp:581-587, one more row and column; [n] = index of the new sample *)
Definition kernel_add (kf : fmat) (n : nat) (A : fmat) : fmat := fun i j =>
  if (j =? n)%nat then kf i n else if (i =? n)%nat then kf j n else A i j.

(** all the ways a GP gets its kernel matrix and its factor: [_compute_full_kernel]
    (gp.hpp:550-571: compute, recompute, changes of the hyper-parameters), then any number of
    [_compute_incremental_kernel] (add_sample) *)
Inductive built (m : nat) (kf : fmat) : nat -> fmat -> fmat -> Prop :=
| built_full n L : llt m n (kernel_full kf) L -> built m kf n (kernel_full kf) L
| built_add n A L L' : built m kf n A L -> chol_row m n (kernel_add kf n A) L L' ->
    built m kf (S n) (kernel_add kf n A) L'.

(** "triangularView<Eigen::Lower>().solve(b)" (gp.hpp:609, 620) *)
Definition fsolve (m n : nat) (L : fmat) (b x : fvec) : Prop :=
  forall i, (i < n)%nat -> exists s, minus_dot m (b i) (prods 0 i (L i) x) s /\ quot s (L i i) (x i).
(** "triang.adjoint().solveInPlace(b)" (gp.hpp:610) *)
Definition bsolve (m n : nat) (L : fmat) (b x : fvec) : Prop :=
  forall i, (i < n)%nat -> exists s,
    minus_dot m (b i) (prods (S i) (n - S i) (fun k => L k i) x) s /\ quot s (L i i) (x i).

(** gp.hpp:605-611, [_compute_alpha], one column ([y] = that column of [_obs_mean]) *)
Definition alpha_of (m n : nat) (L : fmat) (y a : fvec) : Prop :=
  exists z, fsolve m n L y z /\ bsolve m n L z a.

(** gp.hpp:613-616, [_mu], one output; [k] = [_compute_k(v)], [mv] = value of the mean function *)
Definition mu_of (m n : nat) (k a : fvec) (mv r : F) : Prop := plus_dot m mv (prods 0 n k a) r.

(** std::numeric_limits<double>::epsilon() *)
Definition feps : F := fofZe 1 (-52).
(** gp.hpp:618-624, [_sigma]; [kvv] = [_kernel_function(v, v)] *)
Definition sigma_of (m n : nat) (L : fmat) (k : fvec) (kvv r : F) : Prop :=
  exists z res, fsolve m n L k z /\ minus_dot m kvv (prods 0 n z z) res
    /\ r = if fle res feps then f0 else res.
