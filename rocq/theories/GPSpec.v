(** Specification side of the GP properties: what a Gaussian process with given data, kernel and
    mean predicts, and what a history of calls means, independently of matrices held by the code. *)
From Coq Require Import Reals List Bool ZArith.
From Verif Require Import LinAlgModel LinAlg KernelModel GPModel.
Import ListNotations.
Open Scope R_scope.

(** * Contracts of kernels and means *)
(** [kok d st]: [st] is a legitimate state of the kernel for points of dimension [d] *)
Record KernOK (K : Kern) := {
  kok : nat -> kst K -> Prop;
  kok_new : forall d, kok d (k_new K d);
  kok_set : forall d st p, kok d st -> length p = k_hsize K st -> kok d (k_set K st p);
  kok_sym : forall d st x y, kok d st -> length x = d -> length y = d -> k_ker K st x y = k_ker K st y x;
  kok_psd : forall d st n (pts : nat -> vec), kok d st -> (forall i, (i < n)%nat -> length (pts i) = d) ->
    psd n (fun i j => k_ker K st (pts i) (pts j));
  kok_noise : forall d st, kok d st -> 0 <= k_noise K st
}.
Arguments kok {K}. Arguments kok_new {K}. Arguments kok_set {K}. Arguments kok_sym {K}. Arguments kok_psd {K}.
Arguments kok_noise {K}.

(** [mok p st]: [st] is a legitimate state of the mean for outputs of dimension [p] *)
Record MeanOK (M : Mean) := {
  mok : nat -> mst M -> Prop;
  mok_new : forall p, mok p (m_new M p);
  mok_set : forall p st h, mok p st -> length h = m_hsize M st -> mok p (m_set M st h);
  mok_len : forall p st x mo, mok p st -> length mo = p -> length (m_val M st x mo) = p
}.
Arguments mok {M}. Arguments mok_new {M}. Arguments mok_set {M}. Arguments mok_len {M}.

(** * What is predicted *)
Section Posterior.
Variables (K : Kern) (M : Mean).
Variables (k : kst K) (m : mst M).
(** inputs, outputs, number of outputs *)
Variables (xs ys : list vec) (p : nat).

Definition x_ (i : nat) : vec := nth i xs [].
Definition y_ (i j : nat) : R := vget (nth i ys []) j.
Definition data_mean : vec := vec_of p (fun j => rsum (length ys) (fun i => y_ i j) / INR (length ys)).
Definition prior_mean (v : vec) (j : nat) : R := vget (m_val M m v data_mean) j.
(** the noisy kernel matrix *)
Definition gram (i j : nat) : R :=
  k_ker K k (x_ i) (x_ j) + (if (i =? j)%nat then k_noise K k + / 100000000 else 0).
Definition cov (v : vec) (i : nat) : R := k_ker K k (x_ i) v.
Definition resid (i j : nat) : R := y_ i j - prior_mean (x_ i) j.
(** textbook posterior, [B] being the inverse of the noisy kernel matrix *)
Definition post_mean (B : nat -> nat -> R) (v : vec) (j : nat) : R :=
  let n := length xs in
  prior_mean v j + rsum n (fun a => rsum n (fun b => cov v a * B a b * resid b j)).
Definition post_var (B : nat -> nat -> R) (v : vec) : R :=
  let n := length xs in
  k_ker K k v v - rsum n (fun a => rsum n (fun b => cov v a * B a b * cov v b)).
(** variances not above 2^-52 are replaced by 0 *)
Definition clamp (r : R) : R := if Rle_dec r (/ 2 ^ 52) then 0 else r.
End Posterior.

(** * Histories *)
Inductive op (K : Kern) (M : Mean) :=
| Compute (xs ys : list vec) (compute_kernel : bool)
| Add (junk1 junk2 : nat -> nat -> R) (x y : vec)
| SetK (p : vec)
| SetM (p : vec)
| Recompute (update_obs_mean update_full_kernel : bool)
| Inverse.
Arguments Compute {K M}. Arguments Add {K M}. Arguments SetK {K M}. Arguments SetM {K M}.
Arguments Recompute {K M}. Arguments Inverse {K M}.

Section Histories.
Variables (K : Kern) (M : Mean).
Definition exec (g : gp K M) (o : op K M) : outcome (gp K M) :=
  match o with
  | Compute xs ys b => compute K M g xs ys b
  | Add j1 j2 x y => add_sample K M j1 j2 g x y
  | SetK p => set_kernel_params K M g p
  | SetM p => set_mean_params K M g p
  | Recompute a b => recompute K M g a b
  | Inverse => compute_inv_kernel K M g
  end.
Fixpoint run (g : gp K M) (os : list (op K M)) : outcome (gp K M) :=
  match os with [] => Done g | o :: r => bind (exec g o) (fun g' => run g' r) end.

(** The meaning of a history: current data and parameters; [s_dk]: the kernel parameters or the data
    changed without the kernel matrix being recomputed, [s_dm]: the same for the mean *)
Record sp := {
  s_din : option nat; s_dout : option nat;
  s_k : kst K; s_m : mst M;
  s_xs : list vec; s_ys : list vec;
  s_dk : bool; s_dm : bool }.
Definition s_default : sp := {| s_din := None; s_dout := None; s_k := k_new K 1; s_m := m_new M 1; s_xs := []; s_ys := [];
  s_dk := false; s_dm := false |}.
Definition s_new (din dout : nat) : sp := {| s_din := Some din; s_dout := Some dout; s_k := k_new K din; s_m := m_new M dout;
  s_xs := []; s_ys := []; s_dk := false; s_dm := false |}.
Definition same (o : option nat) (n : nat) : bool := match o with Some a => (a =? n)%nat | None => false end.
Definition s_step (s : sp) (o : op K M) : sp :=
  match o with
  | Compute xs ys b =>
      let d := length (hd [] xs) in let p := length (hd [] ys) in
      {| s_din := Some d; s_dout := Some p;
         s_k := if same (s_din s) d then s_k s else k_new K d;
         s_m := if same (s_dout s) p then s_m s else m_new M p;
         s_xs := xs; s_ys := ys; s_dk := negb b; s_dm := false |}
  | Add _ _ x y =>
      match s_xs s with
      | [] =>
          let d := length x in let p := length y in
          {| s_din := Some d; s_dout := Some p;
             s_k := if same (s_din s) d then s_k s else k_new K d;
             s_m := if same (s_dout s) p then s_m s else m_new M p;
             s_xs := [x]; s_ys := [y]; s_dk := false; s_dm := false |}
      | _ =>
          {| s_din := s_din s; s_dout := s_dout s; s_k := s_k s; s_m := s_m s; s_xs := s_xs s ++ [x]; s_ys := s_ys s ++ [y];
             s_dk := s_dk s; s_dm := false |}
      end
  | SetK p => {| s_din := s_din s; s_dout := s_dout s; s_k := k_set K (s_k s) p; s_m := s_m s; s_xs := s_xs s; s_ys := s_ys s;
                 s_dk := true; s_dm := s_dm s |}
  | SetM p => {| s_din := s_din s; s_dout := s_dout s; s_k := s_k s; s_m := m_set M (s_m s) p; s_xs := s_xs s; s_ys := s_ys s;
                 s_dk := s_dk s; s_dm := true |}
  | Recompute a b => {| s_din := s_din s; s_dout := s_dout s; s_k := s_k s; s_m := s_m s; s_xs := s_xs s; s_ys := s_ys s;
                        s_dk := s_dk s && negb b; s_dm := s_dm s && negb a |}
  | Inverse => s
  end.
Definition meaning (s : sp) (os : list (op K M)) : sp := fold_left s_step os s.

(** what a caller has to respect: non-empty data of consistent positive dimensions, parameter vectors
    of the right size, no prediction-related call while the kernel matrix is out of date *)
Definition rect (d : nat) (l : list vec) : Prop := (0 < d)%nat /\ Forall (fun v => length v = d) l.
Definition valid (s : sp) (o : op K M) : Prop :=
  match o with
  | Compute xs ys _ => xs <> [] /\ length ys = length xs /\ rect (length (hd [] xs)) xs /\ rect (length (hd [] ys)) ys
  | Add _ _ x y => (0 < length x)%nat /\ (0 < length y)%nat /\
      (s_xs s <> [] -> s_din s = Some (length x) /\ s_dout s = Some (length y) /\ s_dk s = false)
  | SetK p => length p = k_hsize K (s_k s)
  | SetM p => length p = m_hsize M (s_m s)
  | Recompute _ b => s_xs s <> [] /\ (b = false -> s_dk s = false)
  | Inverse => s_xs s <> [] /\ s_dk s = false
  end.
Fixpoint valid_all (s : sp) (os : list (op K M)) : Prop :=
  match os with [] => True | o :: r => valid s o /\ valid_all (s_step s o) r end.

(** a GP object just constructed, and its meaning *)
Inductive fresh : gp K M -> sp -> Prop :=
| fresh_default : fresh (gp_default K M) s_default
| fresh_new : forall din dout, fresh (gp_new K M din dout) (s_new din dout).
End Histories.
