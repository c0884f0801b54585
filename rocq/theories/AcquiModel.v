(** Model of the acquisition functions over the real numbers: /repo/src/limbo/acqui/{ucb,gp_ucb,ei}.hpp.
    [NotFinite] stands for NaN or an infinity.  The flag [gradient] is false (asserted). *)
From Coq Require Import Reals List Bool ZArith.
From Verif Require Import LinAlgModel KernelModel GPModel.
Import ListNotations.
Open Scope R_scope.

(** What is used of the model (GP, MultiGP, ...): [query], [mu], [samples]; [nb_samples()] is the number of samples. *)
Section Acqui.
Variable Md : Type.
Variable query_ : Md -> vec -> outcome (vec * R).
Variable mu_of : Md -> vec -> outcome vec.
Variable samples_ : Md -> list vec.
Variable dim_in : Md -> nat.

(** std::sqrt *)
Definition xsqrt (x : R) : outcome R := if Rle_dec 0 x then Done (sqrt x) else NotFinite.

(** acqui/ucb.hpp:81-88 *)
Definition ucb (alpha : R) (afun : vec -> R) (m : Md) (v : vec) : outcome R :=
  bind (query_ m v) (fun q => bind (xsqrt (snd q)) (fun s => Done (afun (fst q) + alpha * s))).

(** std::pow(i, e) for an integer i and e > 0 *)
Definition xpow (i : Z) (e : R) : outcome R :=
  if (i =? 0)%Z then Done 0 else if (0 <? i)%Z then Done (Rpower (IZR i) e) else NotFinite.
(** std::log *)
Definition xlog (x : R) : outcome R := if Rlt_dec 0 x then Done (ln x) else NotFinite.
(** acqui/gp_ucb.hpp:84-90: [_beta] *)
Definition gp_ucb_beta (delta : R) (m : Md) (iteration : Z) : outcome R :=
  bind (xpow iteration (INR (dim_in m) / 2 + 2)) (fun nt =>
  bind (if Req_EM_T (delta * 3) 0 then NotFinite else Done (nt * (PI * PI) / (delta * 3))) (fun x =>
  bind (xlog x) (fun lg => xsqrt (2 * lg)))).
(** acqui/gp_ucb.hpp:96-104 *)
Definition gp_ucb (beta : R) (afun : vec -> R) (m : Md) (v : vec) : outcome R :=
  bind (query_ m v) (fun q => bind (xsqrt (snd q)) (fun s => Done (afun (fst q) + beta * s))).

(** acqui/ei.hpp:123-125: cached number of samples (-1 at construction) and incumbent (not initialised) *)
Record ei_state := { e_nb : Z; e_fmax : option R }.
Definition ei_new : ei_state := {| e_nb := -1; e_fmax := None |}.
Variable erfc : R -> R.
Fixpoint rewards (afun : vec -> R) (m : Md) (xs : list vec) : outcome (list R) :=
  match xs with
  | [] => Done []
  | x :: r => bind (mu_of m x) (fun u => bind (rewards afun m r) (fun l => Done (afun u :: l)))
  end.
(** *std::max_element; undefined on an empty range *)
Definition max_element (l : list R) : outcome R :=
  match l with [] => Undefined | x :: r => Done (fold_left (fun a b => if Rlt_dec a b then b else a) r x) end.
(** lines 112-117 *)
Definition ei_value (X sigma : R) : R :=
  let Z := X / sigma in
  let phi := exp (- (1 / 2) * Z ^ 2) / sqrt (2 * PI) in
  let Phi := 1 / 2 * erfc (- Z / sqrt 2) in
  X * Phi + sigma * phi.
(** lines 87-119 *)
Definition ei (jitter : R) (afun : vec -> R) (m : Md) (st : ei_state) (v : vec) : outcome (ei_state * R) :=
  bind (query_ m v) (fun q =>
  bind (xsqrt (snd q)) (fun sigma =>
  if (if Rlt_dec sigma (/ 10 ^ 10) then true else false) || (length (samples_ m) <? 1)%nat then Done (st, 0)
  else
    bind (if (e_nb st =? Z.of_nat (length (samples_ m)))%Z then Done st
          else bind (rewards afun m (samples_ m)) (fun l => bind (max_element l) (fun f =>
               Done {| e_nb := Z.of_nat (length (samples_ m)); e_fmax := Some f |}))) (fun st' =>
    match e_fmax st' with
    | None => Undefined
    | Some f => Done (st', ei_value (afun (fst q) - f - jitter) sigma)
    end))).
End Acqui.

(** the functions used with a GP *)
Section GPAcqui.
Variables (K : Kern) (M : Mean).
Definition gp_samples (g : gp K M) : list vec := g_samples K M g.
Definition ucb_gp := ucb (gp K M) (query K M).
Definition ei_gp := ei (gp K M) (query K M) (mu K M) gp_samples.
End GPAcqui.
