(** Model of the constrained optimizer (/repo/src/limbo/experimental/bayes_opt/cboptimizer.hpp).
    The common part (evaluation, initialisation, stopping criteria) is that of BOModel.  The statistics
    and the stopping criteria may call best_observation() or best_sample(), which rewrite the mutable
    member [_obs]: [peek_stop], [peek_stat] say whether they do. *)
From Coq Require Import ZArith List Bool.
From Coq Require Import Floats.SpecFloat.
From Verif Require Import F64 BOModel.
Import ListNotations.

(** [_model], [_constraint_model], [_obs] (cboptimizer.hpp:233-238); [c_obs = None]: the vector [_obs] has no
    element yet; [c_fed]: ghost, the pairs given to [_model.add_sample] *)
Record cbm (M C : Type) : Type := mkCb {
  c_obj : M; c_con : C; c_obs : option (list vec * list vec); c_fed : list (vec * vec) }.
Arguments mkCb {M C}. Arguments c_obj {M C}. Arguments c_con {M C}. Arguments c_obs {M C}. Arguments c_fed {M C}.

(** Eigen's prod() *)
Definition prod (v : vec) : F := match v with [] => f1 | x :: r => fold_left fmul r x end.

(** cboptimizer.hpp:251-271 [_split_observations]; [None]: the assertion fails *)
Fixpoint split_observations (dout nc : nat) (l : list vec) : option (list vec * list vec) :=
  match l with
  | [] => Some ([], [])
  | o :: r =>
      if (length o =? dout + nc)%nat then
        match split_observations dout nc r with
        | Some (a, b) => Some (firstn dout o :: a, if (0 <? nc)%nat then skipn dout o :: b else b)
        | None => None
        end
      else None
  end.

(** cboptimizer.hpp:240-249 [_feasible_observations]; [None]: [_obs[1][i]] out of range *)
Fixpoint feasible_observations (o0 o1 : list vec) : option (list vec) :=
  match o0, o1 with
  | [], _ => Some []
  | v :: r, c :: rc =>
      match feasible_observations r rc with
      | Some l => Some (if flt f0 (prod c) then v :: l else l)
      | None => None
      end
  | _, [] => None
  end.

(** cboptimizer.hpp:201-206 and 218-223: [_obs] as left by best_observation() and best_sample() *)
Definition resplit (dout nc : nat) (obs : list vec) : option (list vec * list vec) :=
  match split_observations dout nc obs with
  | Some (o0, o1) =>
      match feasible_observations o0 o1 with
      | Some [] => Some (o0, o1)
      | Some f => Some (f, o1)
      | None => None
      end
  | None => None
  end.

(** cboptimizer.hpp:199-212 [best_observation] *)
Definition cb_best_observation (afun : vec -> F) (dout nc : nat) (obs : list vec) : option vec :=
  match resplit dout nc obs with Some (o0, _) => nth_error o0 (max_element (map afun o0)) | None => None end.

(** cboptimizer.hpp:216-229 [best_sample] *)
Definition cb_best_sample (afun : vec -> F) (dout nc : nat) (samples obs : list vec) : option vec :=
  match resplit dout nc obs with Some (o0, _) => nth_error samples (max_element (map afun o0)) | None => None end.

Section CB.
Context {W M C E : Type}.
Variable sfun : W -> vec -> (vec + E) * W.
(** StateFunction::dim_out(), StateFunction::nb_constraints() *)
Variables (dout nc : nat).
Variables (m_fresh : M) (c_fresh : C).
Variable m_compute : W -> M -> list vec -> list vec -> M * W.
Variable c_compute : W -> C -> list vec -> list vec -> C * W.
Variable m_add : W -> M -> vec -> vec -> M * W.
Variable c_add : W -> C -> vec -> vec -> C * W.
(** [_model.optimize_hyperparams()], [_constraint_model.optimize_hyperparams()] *)
Variable m_hp : W -> M -> M * W.
Variable c_hp : W -> C -> C * W.
(** [Params::bayes_opt_cboptimizer::hp_period()] *)
Variable hp_period : Z.
(** maximisation of the acquisition function *)
Variable acq : W -> M -> C -> Z -> vec * W.
Variable init_n : nat.
Variable init_pt : nat -> W -> vec * W.

Notation st := (bo W (cbm M C) E).
Variables (peek_stop peek_stat : st -> bool).
Notation res := (result W (cbm M C) E).

(** undefined behaviour is reported as [UninitRead] *)
Definition set_obs (s : st) (o : option (list vec * list vec)) : st :=
  set_model s (mkCb (c_obj (model s)) (c_con (model s)) o (c_fed (model s))).
Definition peek (b : bool) (s : st) (k : st -> res) : res :=
  if b then match resplit dout nc (observations s) with Some o => k (set_obs s (Some o)) | None => UninitRead end else k s.

(** cboptimizer.hpp:185-190: the hyper-parameters *)
Definition cb_hp (c : Z) (s : st) : st :=
  if ((0 <? hp_period) && (Z.rem (c + 1) hp_period =? 0))%Z then
    let '(m, w) := m_hp (world s) (c_obj (model s)) in
    let s1 := log (set_model (set_world s w) (mkCb m (c_con (model s)) (c_obs (model s)) (c_fed (model s)))) (EvHp c) in
    if (0 <? nc)%nat then
      let '(cm, w') := c_hp (world s1) (c_con (model s1)) in
      set_model (set_world s1 w') (mkCb (c_obj (model s1)) cm (c_obs (model s1)) (c_fed (model s1)))
    else s1
  else s.

(** cboptimizer.hpp:171-193: one iteration *)
Definition cb_iteration (c : Z) (s0 : st) : res :=
  let '(x, w1) := acq (world s0) (c_obj (model s0)) (c_con (model s0)) c in
  match eval_and_add sfun (set_world s0 w1) x with
  | Ret s2 =>
      peek (peek_stat s2) s2 (fun s3 =>
      match c_obs (model s3), last (map Some (samples s3)) None with
      | Some (o0, o1), Some x' =>
          match last (map Some o0) None with
          | Some y =>
              let '(m, w3) := m_add (world s3) (c_obj (model s3)) x' y in
              let s4 := set_model (set_world s3 w3) (mkCb m (c_con (model s3)) (c_obs (model s3)) (c_fed (model s3) ++ [(x', y)])) in
              if (0 <? nc)%nat then
                match last (map Some o1) None with
                | Some z =>
                    let '(cm, w4) := c_add (world s4) (c_con (model s4)) x' z in
                    Ret (set_tot (set_cur (cb_hp c (set_model (set_world s4 w4) (mkCb (c_obj (model s4)) cm (c_obs (model s4)) (c_fed (model s4))))) (c + 1)) (tot s4 + 1))
                | None => UninitRead
                end
              else Ret (set_tot (set_cur (cb_hp c s4) (c + 1)) (tot s4 + 1))
          | None => UninitRead
          end
      | _, _ => UninitRead
      end)
  | r => r
  end.

(** cboptimizer.hpp:170-194: the loop *)
Fixpoint cb_loop (cs : list (@criterion W (cbm M C) E)) (fuel : nat) (s : st) : res :=
  match fuel with
  | O => Running s
  | S fuel' =>
      match cur s with
      | None => UninitRead
      | Some c =>
          let '(b, w) := stop_now cs s in
          peek (peek_stop s) (set_world s w) (fun s0 =>
          if b then Ret s0 else
          match cb_iteration c s0 with Ret s' => cb_loop cs fuel' s' | r => r end)
      end
  end.

(** cboptimizer.hpp:149-195 [optimize] *)
Definition cb_optimize (cs : list (@criterion W (cbm M C) E)) (fuel : nat) (reset : bool) (s : st) : res :=
  match init_phase sfun init_n init_pt reset s with
  | Ret s1 =>
      match observations s1 with
      | [] => cb_loop cs fuel (set_model s1 (mkCb m_fresh (if (0 <? nc)%nat then c_fresh else c_con (model s1)) (c_obs (model s1)) (c_fed (model s1))))
      | _ =>
          match split_observations dout nc (observations s1) with
          | Some (o0, o1) =>
              let '(m, w) := m_compute (world s1) (c_obj (model s1)) (samples s1) o0 in
              let '(cm, w') := if (0 <? nc)%nat then c_compute w (c_con (model s1)) (samples s1) o1 else (c_con (model s1), w) in
              cb_loop cs fuel (set_model (set_world s1 w') (mkCb m cm (Some (o0, o1)) (c_fed (model s1))))
          | None => UninitRead
          end
      end
  | r => r
  end.
End CB.
