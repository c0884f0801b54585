(** Model of /repo/src/limbo/experimental/acqui/{eci,ucb_imgpo}.hpp over the real numbers.
    [NotFinite] stands for NaN or an infinity; the flag [gradient] is false (asserted). *)
From Coq Require Import Reals List Bool ZArith.
From Verif Require Import LinAlgModel KernelModel GPModel AcquiModel.
Import ListNotations.
Open Scope R_scope.

Section Eci.
(** the model of the objective and the model of the constraint *)
Variables Md Cm : Type.
Variable query_ : Md -> vec -> outcome (vec * R).
Variable mu_of : Md -> vec -> outcome vec.
Variable samples_ : Md -> list vec.
Variable cquery_ : Cm -> vec -> outcome (vec * R).
Variable csamples_ : Cm -> list vec.
Variable erfc : R -> R.

(** eci.hpp:117-131 [_pf] *)
Definition pf (afun : vec -> R) (cm : Cm) (v : vec) : outcome R :=
  bind (cquery_ cm v) (fun q =>
  bind (xsqrt (snd q)) (fun sigma =>
  if (if Rlt_dec sigma (/ 10 ^ 10) then true else false) || (length (csamples_ cm) <? 1)%nat then Done 1
  else
    let Z := (afun (fst q) - 1) / sigma in
    let Phi := 1 / 2 * erfc (- Z / sqrt 2) in
    Done Phi)).
(** eci.hpp:72-107; the state is that of EI (eci.hpp:112-113) *)
Definition eci (jitter : R) (afun : vec -> R) (m : Md) (cm : Cm) (st : ei_state) (v : vec) : outcome (ei_state * R) :=
  bind (query_ m v) (fun q =>
  bind (xsqrt (snd q)) (fun sigma =>
  if (if Rlt_dec sigma (/ 10 ^ 10) then true else false) || (length (samples_ m) <? 1)%nat then Done (st, 0)
  else
    bind (if (e_nb st =? Z.of_nat (length (samples_ m)))%Z then Done st
          else bind (rewards Md mu_of afun m (samples_ m)) (fun l => bind (max_element l) (fun f =>
               Done {| e_nb := Z.of_nat (length (samples_ m)); e_fmax := Some f |}))) (fun st' =>
    match e_fmax st' with
    | None => Undefined
    | Some f =>
        let X := afun (fst q) - f - jitter in
        let Z := X / sigma in
        let phi := exp (- (1 / 2) * Z ^ 2) / sqrt (2 * PI) in
        let Phi := 1 / 2 * erfc (- Z / sqrt 2) in
        bind (pf afun cm v) (fun p => Done (st', p * (X * Phi + sigma * phi)))
    end))).

(** ucb_imgpo.hpp:79-80: the weight; [nu] is a positive parameter, [M] is converted to double *)
Definition imgpo_weight (nu : R) (M : nat) : outcome R :=
  bind (xlog (PI ^ 2 * INR M ^ 2 / (12 * nu))) (fun l => bind (xsqrt (2 * l)) (fun s => Done (s + 2 / 10))).
(** ucb_imgpo.hpp:71-82 *)
Definition ucb_imgpo (nu : R) (M : nat) (afun : vec -> R) (m : Md) (v : vec) : outcome R :=
  bind (query_ m v) (fun q =>
  bind (imgpo_weight nu M) (fun w =>
  bind (xsqrt (snd q)) (fun s => Done (afun (fst q) + w * s)))).
(** imgpo.hpp:279-285 and 318-324: the value IMGPO gives to a cell it does not evaluate *)
Definition imgpo_label (M : nat) (m : Md) (v : vec) : outcome vec :=
  bind (query_ m v) (fun q =>
  bind (imgpo_weight (5 / 100) M) (fun w =>
  bind (xsqrt (snd q)) (fun s => Done (map (fun u => u + w * s) (fst q))))).
End Eci.
