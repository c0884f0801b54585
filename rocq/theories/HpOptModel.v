(** Model of the optimisation of hyper-parameters, over the real numbers:
    /repo/src/limbo/opt/rprop.hpp (again, [OptModel.rprop] is the same code over binary64) and
    /repo/src/limbo/model/gp/{kernel_lf_opt,mean_lf_opt,kernel_mean_lf_opt,kernel_loo_opt}.hpp.
    Copies of the GP are values.  [_called] and its warning (hp_opt.hpp) are left out. *)
From Coq Require Import Reals List Bool ZArith.
From Verif Require Import LinAlgModel KernelModel GPModel.
Import ListNotations.
Open Scope R_scope.

Section RpropR.
(** objective with gradient *)
Variable f : vec -> outcome (R * vec).
Variable eps_stop : R.
(** tools/math.hpp:78-81 *)
Definition sgn (x : R) : R := (if Rlt_dec 0 x then 1 else 0) - (if Rlt_dec x 0 then 1 else 0).
(** rprop.hpp:121-130, not bounded; [go] = grad_old(j) * grad(j) *)
Definition rstep (go g delta p : R) : R * R * R :=
  let '(delta', g') :=
    if Rlt_dec 0 go then (Rmin (delta * (12 / 10)) 50, g)
    else if Rlt_dec go 0 then (Rmax (delta * (1 / 2)) (/ 1000000), 0)
    else (delta, g) in
  (delta', g', p + - sgn g' * delta').
Fixpoint rsteps (gold g delta p : vec) : vec * vec * vec :=
  match gold, g, delta, p with
  | go :: gold', gj :: g', d :: delta', pj :: p' =>
      let '(d1, g1, p1) := rstep (go * gj) gj d pj in
      let '(ds, gs, ps) := rsteps gold' g' delta' p' in
      (d1 :: ds, g1 :: gs, p1 :: ps)
  | _, _, _, _ => ([], [], [])
  end.
Definition norm2 (v : vec) : R := sqrt (rsum (length v) (fun i => vget v i * vget v i)).
(** rprop.hpp:111-139; [best] = None is log(0) = -infinity *)
Fixpoint rloop (k : nat) (gold delta p : vec) (best : option R) (best_p : vec) : outcome vec :=
  match k with
  | O => Done best_p
  | S k' =>
      bind (f p) (fun perf =>
        let '(lik, g0) := perf in
        check (length g0 =? length gold)%nat
          (let better := match best with None => true | Some b => if Rlt_dec b lik then true else false end in
           let best' := if better then Some lik else best in
           let best_p' := if better then p else best_p in
           let '(delta', g', p') := rsteps gold (map Ropp g0) delta p in
           if Rlt_dec (norm2 g') eps_stop then Done best_p'
           else rloop k' g' delta' p' best' best_p'))
  end.
(** rprop.hpp:84-143 with bounded = false; the assertion on eps_stop *)
Definition rprop_R (iterations : Z) (init : vec) : outcome vec :=
  check (if Rle_dec 0 eps_stop then true else false)
    (let n := length init in
     rloop (Z.to_nat iterations) (repeat 0 n) (repeat (1 / 10) n) init None init).
End RpropR.

Section HpOpt.
Variables (K : Kern) (M : Mean).
Notation gp := (gp K M).
(** the optimizer: objective, starting point |-> point; Rprop below *)
Variable optimizer : (vec -> outcome (R * vec)) -> vec -> outcome vec.

(** kernel_lf_opt.hpp:75-91 *)
Definition klf_objective (g : gp) (p : vec) : outcome (R * vec) :=
  bind (set_kernel_params K M g p) (fun g1 =>
  bind (recompute K M g1 false true) (fun g2 =>
  bind (compute_log_lik K M g2) (fun lik =>
  bind (compute_kernel_grad_log_lik K M g2) (fun r => Done (lik, snd r))))).
(** kernel_lf_opt.hpp:58-68 *)
Definition kernel_lf_opt (g : gp) : outcome gp :=
  bind (optimizer (klf_objective g) (k_hparams K (g_k K M g))) (fun p =>
  bind (set_kernel_params K M g p) (fun g1 =>
  bind (recompute K M g1 false true) (fun g2 =>
  bind (compute_log_lik K M g2) (fun _ => Done g2)))).

(** mean_lf_opt.hpp:72-75: the constructor copies the GP and computes the inverse of the copy *)
Definition mlf_objective (g : gp) (p : vec) : outcome (R * vec) :=
  bind (set_mean_params K M g p) (fun g1 =>
  bind (recompute K M g1 true false) (fun g2 =>
  bind (compute_log_lik K M g2) (fun lik =>
  bind (compute_mean_grad_log_lik K M g2) (fun r => Done (lik, snd r))))).
(** mean_lf_opt.hpp:58-68 *)
Definition mean_lf_opt (g : gp) : outcome gp :=
  bind (compute_inv_kernel K M g) (fun gc =>
  bind (optimizer (mlf_objective gc) (m_hparams M (g_m K M g))) (fun p =>
  bind (set_mean_params K M g p) (fun g1 =>
  bind (recompute K M g1 true false) (fun g2 =>
  bind (compute_log_lik K M g2) (fun _ => Done g2))))).

(** kernel_mean_lf_opt.hpp:86-106; [head(n)] and [tail(n)] assert n <= size *)
Definition head (p : vec) (n : nat) : vec := firstn n p.
Definition tail (p : vec) (n : nat) : vec := skipn (length p - n) p.
Definition set_both (g : gp) (p : vec) : outcome gp :=
  let ks := k_hsize K (g_k K M g) in let ms := m_hsize M (g_m K M g) in
  check ((ks <=? length p)%nat && (ms <=? length p)%nat)
    (bind (set_kernel_params K M g (head p ks)) (fun g1 => set_mean_params K M g1 (tail p ms))).
Definition kmlf_objective (g : gp) (p : vec) : outcome (R * vec) :=
  bind (set_both g p) (fun g1 =>
  bind (recompute K M g1 true true) (fun g2 =>
  bind (compute_log_lik K M g2) (fun lik =>
  bind (compute_kernel_grad_log_lik K M g2) (fun rk =>
  bind (compute_mean_grad_log_lik K M (fst rk)) (fun rm =>
  (* grad = Zero(params.size()); head(ks) and tail(ms) assigned; sizes asserted by Eigen *)
  check ((length (snd rk) + length (snd rm) =? length p)%nat) (Done (lik, snd rk ++ snd rm))))))).
(** kernel_mean_lf_opt.hpp:60-78 *)
Definition kernel_mean_lf_opt (g : gp) : outcome gp :=
  bind (optimizer (kmlf_objective g) (k_hparams K (g_k K M g) ++ m_hparams M (g_m K M g))) (fun p =>
  bind (set_both g p) (fun g1 =>
  bind (recompute K M g1 true true) (fun g2 =>
  bind (compute_log_lik K M g2) (fun _ => Done g2)))).

(** kernel_loo_opt.hpp:75-91, 58-68 *)
Definition kloo_objective (g : gp) (p : vec) : outcome (R * vec) :=
  bind (set_kernel_params K M g p) (fun g1 =>
  bind (recompute K M g1 false true) (fun g2 =>
  bind (compute_log_loo_cv K M g2) (fun r =>
  bind (compute_kernel_grad_log_loo_cv K M (fst r)) (fun r' => Done (snd r, snd r'))))).
Definition kernel_loo_opt (g : gp) : outcome gp :=
  bind (optimizer (kloo_objective g) (k_hparams K (g_k K M g))) (fun p =>
  bind (set_kernel_params K M g p) (fun g1 =>
  bind (recompute K M g1 false true) (fun g2 =>
  bind (compute_log_loo_cv K M g2) (fun r => Done (fst r))))).
End HpOpt.
