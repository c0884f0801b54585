(** Specification side of the MultiGP properties: histories of calls and their meaning. *)
From Coq Require Import Reals List Bool ZArith Permutation.
From Verif Require Import LinAlgModel LinAlg KernelModel GPModel GPSpec MultiGPModel.
Import ListNotations.
Open Scope R_scope.

(** a possible execution order of a parallel loop over [0, n) *)
Definition schedule (n : nat) (order : list nat) : Prop := Permutation (seq 0 n) order.

(** the mean functions of limbo that do not look at the observations *)
Inductive dataless : Mean -> Prop :=
| dl_null : dataless NullFunction
| dl_constant : forall c, dataless (Constant c)
| dl_ard : forall M, dataless M -> dataless (FunctionARD M).

Inductive mop :=
| MCompute (order : list nat) (xs ys : list vec) (compute_kernel : bool)
| MAdd (junk1 junk2 : nat -> nat -> nat -> R) (order : list nat) (x y : vec)
| MSetK (i : nat) (p : vec)
| MSetM (p : vec)
| MRecompute (order : list nat) (update_obs_mean update_full_kernel : bool).

Section Histories.
Variables (K : Kern) (M : Mean).
Definition mexec (g : mgp K M) (o : mop) : outcome (mgp K M) :=
  match o with
  | MCompute od xs ys b => mg_compute K M od g xs ys b
  | MAdd j1 j2 od x y => mg_add_sample K M j1 j2 od g x y
  | MSetK i p => mg_set_kernel_params K M i g p
  | MSetM p => mg_set_mean_params K M g p
  | MRecompute od a b => mg_recompute K M od g a b
  end.
Fixpoint mrun (g : mgp K M) (os : list mop) : outcome (mgp K M) :=
  match os with [] => Done g | o :: r => bind (mexec g o) (fun g' => mrun g' r) end.

(** Current data and parameters; [q_ks]: for every output the state of its kernel and whether kernel
    parameters or data changed without the kernel matrix being recomputed; [q_off]: for every sample
    the value of the mean function that was subtracted from its observation *)
Record msp := {
  q_din : option nat; q_dout : option nat;
  q_ks : list (kst K * bool); q_m : mst M;
  q_xs : list vec; q_ys : list vec; q_off : list vec }.
Definition q_default : msp :=
  {| q_din := None; q_dout := None; q_ks := []; q_m := m_new M 1; q_xs := []; q_ys := []; q_off := [] |}.
Definition q_new (din dout : nat) : msp :=
  {| q_din := Some din; q_dout := Some dout; q_ks := repeat (k_new K din, false) dout; q_m := m_new M dout;
     q_xs := []; q_ys := []; q_off := [] |}.
Definition q_kernel (s : msp) (i : nat) : kst K := fst (nth i (q_ks s) (k_new K 1, false)).
Definition q_stale (s : msp) (i : nat) : bool := snd (nth i (q_ks s) (k_new K 1, false)).

Definition q_compute (s : msp) (xs ys : list vec) (b : bool) : msp :=
  let d := length (hd [] xs) in let p := length (hd [] ys) in
  let m := if same (q_dout s) p then q_m s else m_new M p in
  {| q_din := Some d; q_dout := Some p;
     q_ks := if same (q_dout s) p then map (fun k => (if same (q_din s) d then fst k else k_new K d, negb b)) (q_ks s)
             else repeat (k_new K d, negb b) p;
     q_m := m; q_xs := xs; q_ys := ys;
     q_off := map (fun x => m_val M m x (data_mean ys p)) xs |}.
Definition q_step (s : msp) (o : mop) : msp :=
  match o with
  | MCompute _ xs ys b => q_compute s xs ys b
  | MAdd _ _ _ x y =>
      let d := length x in let p := length y in
      match q_ks s with
      | [] => {| q_din := Some d; q_dout := Some p; q_ks := repeat (k_new K d, false) p; q_m := m_new M p;
                 q_xs := [x]; q_ys := [y]; q_off := [m_val M (m_new M p) x (data_mean [y] p)] |}
      | _ => {| q_din := q_din s; q_dout := q_dout s;
                q_ks := match q_xs s with [] => map (fun k => (fst k, false)) (q_ks s) | _ => q_ks s end; q_m := q_m s;
                q_xs := q_xs s ++ [x]; q_ys := q_ys s ++ [y];
                q_off := q_off s ++ [m_val M (q_m s) x (data_mean (q_ys s ++ [y]) p)] |}
      end
  | MSetK i p => {| q_din := q_din s; q_dout := q_dout s; q_ks := lput i (k_set K (q_kernel s i) p, true) (q_ks s); q_m := q_m s;
                    q_xs := q_xs s; q_ys := q_ys s; q_off := q_off s |}
  | MSetM p => {| q_din := q_din s; q_dout := q_dout s; q_ks := q_ks s; q_m := m_set M (q_m s) p; q_xs := q_xs s; q_ys := q_ys s;
                  q_off := q_off s |}
  | MRecompute _ a b =>
      match q_ks s with
      | [] => s
      | _ => if a then q_compute s (q_xs s) (q_ys s) b
             else {| q_din := q_din s; q_dout := q_dout s; q_ks := map (fun k => (fst k, snd k && negb b)) (q_ks s); q_m := q_m s;
                     q_xs := q_xs s; q_ys := q_ys s; q_off := q_off s |}
      end
  end.
Definition mmeaning (s : msp) (os : list mop) : msp := fold_left q_step os s.

(** what a caller has to respect; the orders are those of the loops over the outputs *)
Definition up_to_date (s : msp) : Prop := forall i, (i < length (q_ks s))%nat -> q_stale s i = false.
Definition mvalid (s : msp) (o : mop) : Prop :=
  match o with
  | MCompute od xs ys _ => xs <> [] /\ length ys = length xs /\ rect (length (hd [] xs)) xs /\ rect (length (hd [] ys)) ys /\
      schedule (length (hd [] ys)) od
  | MAdd _ _ od x y => (0 < length x)%nat /\ (0 < length y)%nat /\ schedule (length y) od /\
      (q_ks s <> [] -> q_din s = Some (length x) /\ q_dout s = Some (length y) /\ (q_xs s <> [] -> up_to_date s))
  | MSetK i p => (i < length (q_ks s))%nat /\ length p = k_hsize K (q_kernel s i)
  | MSetM p => length p = m_hsize M (q_m s)
  | MRecompute od a b => q_ks s <> [] -> q_xs s <> [] /\ schedule (length (q_ks s)) od /\ (a = false -> b = false -> up_to_date s)
  end.
Fixpoint mvalid_all (s : msp) (os : list mop) : Prop :=
  match os with [] => True | o :: r => mvalid s o /\ mvalid_all (q_step s o) r end.
(** only the orders are those of the loops (enough when the history is known to have succeeded) *)
Definition scheduled (s : msp) (o : mop) : Prop :=
  match o with
  | MCompute od _ ys _ => schedule (length (hd [] ys)) od
  | MAdd _ _ od _ y => schedule (length y) od
  | MRecompute od _ _ => q_ks s <> [] -> schedule (length (q_ks s)) od
  | _ => True
  end.

(** a MultiGP just constructed, and its meaning *)
Inductive mfresh : mgp K M -> msp -> Prop :=
| mf_default : mfresh (mgp_default K M) q_default
| mf_new : forall din dout, mfresh (mgp_new K M din dout) (q_new din dout).

(** textbook prediction of output [i] from the residuals [r], [B] being the inverse of the noisy kernel matrix *)
Definition out_mean (s : msp) (r : nat -> R) (B : nat -> nat -> R) (v : vec) (i : nat) : R :=
  let n := length (q_xs s) in
  prior_mean M (q_m s) (q_ys s) (oget (q_dout s)) v i
  + rsum n (fun a => rsum n (fun b => cov K (q_kernel s i) (q_xs s) v a * B a b * r b)).
End Histories.
