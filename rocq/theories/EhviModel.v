(** Model over the real numbers of the two-dimensional expected hypervolume improvement:
    /repo/src/ehvi/{helper,ehvi_calculations}.cc ([ehvi2d]) and /repo/src/limbo/experimental/acqui/ehvi.hpp.
    [None] is NaN where a value can be one; rounding and overflow are not modelled. *)
From Coq Require Import Reals List Bool ZArith.
From Verif Require Import LinAlgModel KernelModel GPModel.
Import ListNotations.
Open Scope R_scope.

(** helper.h:8-10; the third objective is not used in two dimensions *)
Record individual := { f0 : R; f1 : R }.
(** deque::operator[] *)
Definition at_ (P : list individual) (i : nat) : outcome individual :=
  match nth_error P i with Some p => Done p | None => Undefined end.
(** an upper bound of a cell: a number or INFINITY (ehvi_calculations.cc:36, 44) *)
Inductive up := Fin (c : R) | Infinity.
(** the argument of the normal functions: a number, an infinity or NaN *)
Inductive arg := Num (z : R) | PInf | MInf | Nan.
(** [(c - mu) / s] *)
Definition scaled (c : up) (mu s : R) : arg :=
  match c with
  | Infinity => if Rlt_dec s 0 then MInf else PInf
  | Fin c => if Req_EM_T s 0 then (if Rlt_dec mu c then PInf else if Rlt_dec c mu then MInf else Nan) else Num ((c - mu) / s)
  end.
(** helper.cc, C++ arithmetic with NaN *)
Definition nadd (x y : option R) : option R := match x, y with Some x, Some y => Some (x + y) | _, _ => None end.
Definition nsub (x y : option R) : option R := match x, y with Some x, Some y => Some (x - y) | _, _ => None end.
Definition nmul (x y : option R) : option R := match x, y with Some x, Some y => Some (x * y) | _, _ => None end.

(** for-loops over the given indices *)
Fixpoint for_ {A St} (body : A -> St -> outcome St) (l : list A) (st : St) : outcome St :=
  match l with [] => Done st | i :: l' => bind (body i st) (for_ body l') end.

Section Helper.
(** std::erf; the constants of ehvi_consts.h:10-11 *)
Variable erf : R -> R.
Variables SQRT_TWO SQRT_TWOPI_NEG : R.

(** helper.cc:18 *)
Definition gausspdf (x : arg) : option R :=
  match x with Num x => Some (SQRT_TWOPI_NEG * exp (- (x * x) / 2)) | PInf | MInf => Some 0 | Nan => None end.
(** helper.cc:21; erf of an infinity is 1 or -1 *)
Definition gausscdf (x : arg) : option R :=
  match x with Num x => Some (1 / 2 * (1 + erf (x / SQRT_TWO))) | PInf => Some 1 | MInf => Some 0 | Nan => None end.
(** helper.cc:24-27 *)
Definition exipsi (fmax : R) (cellcorner : up) (mu s : R) : option R :=
  nadd (nmul (Some s) (gausspdf (scaled cellcorner mu s))) (nmul (Some (fmax - mu)) (gausscdf (scaled cellcorner mu s))).

(** ehvi_calculations.cc:31-77: one cell.  The state is ([answer], [Sminus], [Shorizontal]) *)
Definition cell (P : list individual) (r mu s : R * R) (i : nat) (Sstart : Z) (j : nat) (st : R * R * Z) : outcome (R * R * Z) :=
  let k := length P in
  let '(answer, Sminus, Shorizontal) := st in
  bind (if (j =? k)%nat then Done (snd r, Infinity) else bind (at_ P j) (fun p => Done (f1 p, Fin (f0 p)))) (fun '(fmax1, cu1) =>
  bind (if (i =? k)%nat then Done (fst r, Infinity) else bind (at_ P (k - i - 1)) (fun p => Done (f0 p, Fin (f1 p)))) (fun '(fmax0, cu2) =>
  bind (if (j =? 0)%nat then Done (fst r) else bind (at_ P (j - 1)) (fun p => Done (f0 p))) (fun cl1 =>
  bind (if (i =? 0)%nat then Done (snd r) else bind (at_ P (k - i)) (fun p => Done (f1 p))) (fun cl2 =>
  bind (if (Sstart <? Shorizontal)%Z
        then bind (if (Shorizontal <? 0)%Z then Undefined else at_ P (Z.to_nat Shorizontal)) (fun p =>
             Done (Sminus + (f0 p - fmax0) * (f1 p - fmax1)))
        else Done Sminus) (fun Sminus =>
  let psi1 := nsub (exipsi fmax0 (Fin cl1) (fst mu) (fst s)) (exipsi fmax0 cu1 (fst mu) (fst s)) in
  let psi2 := nsub (exipsi fmax1 (Fin cl2) (snd mu) (snd s)) (exipsi fmax1 cu2 (snd mu) (snd s)) in
  let gausscdf1 := nsub (gausscdf (scaled cu1 (fst mu) (fst s))) (gausscdf (scaled (Fin cl1) (fst mu) (fst s))) in
  let gausscdf2 := nsub (gausscdf (scaled cu2 (snd mu) (snd s))) (gausscdf (scaled (Fin cl2) (snd mu) (snd s))) in
  let sum := nsub (nmul psi1 psi2) (nmul (nmul (Some Sminus) gausscdf1) gausscdf2) in
  let answer := match sum with Some x => if Rlt_dec 0 x then answer + x else answer | None => answer end in
  Done (answer, Sminus, (Shorizontal + 1)%Z)))))).
(** ehvi_calculations.cc:16-80, after the sort; [Sstart] is k - 1 - i in row i *)
Definition ehvi2d_sorted (P : list individual) (r mu s : R * R) : outcome R :=
  let k := length P in
  for_ (fun i answer =>
    let Sstart := (Z.of_nat k - 1 - Z.of_nat i)%Z in
    bind (for_ (cell P r mu s i Sstart) (seq (k - i) (i + 1)) (answer, 0, Sstart)) (fun st => Done (fst (fst st))))
    (seq 0 (k + 1)) 0.
(** ehvi_calculations.cc:16-80; [sort] is std::sort with [xcomparator] (helper.cc:31) *)
Definition ehvi2d (sort : list individual -> list individual) (P : list individual) (r mu s : R * R) : outcome R :=
  ehvi2d_sorted (sort P) r mu s.

(** acqui/ehvi.hpp:70-79.  [mu_] and [sigma_] are the methods of the two models; the third
    components, which [ehvi2d] does not read, are left out *)
Definition acqui_ehvi (Md : Type) (mu_ : Md -> vec -> outcome vec) (sigma_ : Md -> vec -> outcome R)
    (sort : list individual -> list individual) (models : list Md) (pop : list individual) (ref_point : R * R) (afun : vec -> R) (v : vec) : outcome R :=
  match models with
  | [m0; m1] =>
      bind (mu_ m0 v) (fun u0 => bind (mu_ m1 v) (fun u1 =>
      bind (sigma_ m0 v) (fun s0 => bind (sigma_ m1 v) (fun s1 =>
      ehvi2d sort pop ref_point (afun u0, afun u1) (s0, s1)))))
  | _ => Undefined
  end.
End Helper.
(** ehvi_consts.h:10-11 *)
Definition SQRT_TWO_ : R := 141421356237 / 100000000000.
Definition SQRT_TWOPI_NEG_ : R := 3989422804 / 10000000000.
