(** Model of the optimisation loop: /repo/src/limbo/bayes_opt/bo_base.hpp and
    /repo/src/limbo/bayes_opt/boptimizer.hpp, with the stopping criteria of
    /repo/src/limbo/stop.

    External parts are parameters of the section:
    - [W]: the whole outside world (state of the objective, random generators, ...);
    - [sfun]: the user's objective, returns a vector or throws;
    - [M], [m_*]: the model class and its operations;
    - [acq]: construction of the acquisition function, random start and inner optimizer;
    - [init_n], [init_pt]: the points proposed by the initialisation function.
    Not modelled: machine-integer overflow of the iteration counters ([int], here [Z]),
    memory exhaustion, exceptions thrown by the model or by statistics. *)
From Coq Require Import ZArith List Bool.
From Verif Require Import F64.
Import ListNotations.
Open Scope Z_scope.

(** exceptions: [EvaluationError] (bo_base.hpp:106) or one thrown by the user's objective *)
Inductive exn (E : Type) : Type :=
| EvaluationError : exn E
| UserExn : E -> exn E.
Arguments EvaluationError {E}.
Arguments UserExn {E} _.

(** Observable events, recorded in chronological order (ghost state). *)
Inductive event (M E : Type) : Type :=
| EvReset : event M E                                      (* data cleared by optimize(reset=true) *)
| EvCall : bool -> event M E                               (* entry of optimize(), reset flag *)
| EvInit : event M E                                       (* the initialisation function is run *)
| EvEval : vec -> vec + E -> event M E                     (* the objective was called *)
| EvAdd : vec -> vec -> event M E                          (* the user called add_new_sample *)
| EvStop : list vec -> list vec -> M -> Z -> bool -> event M E  (* stopping criteria consulted *)
| EvAcq : list vec -> list vec -> M -> Z -> vec -> event M E    (* acquisition maximised *)
| EvStat : list vec -> list vec -> M -> Z -> event M E          (* statistics refreshed; Z = total_iterations *)
| EvHp : Z -> event M E.                                   (* hyper-parameters optimised *)
Arguments EvReset {M E}.
Arguments EvCall {M E} _.
Arguments EvInit {M E}.
Arguments EvEval {M E} _ _.
Arguments EvAdd {M E} _ _.
Arguments EvStop {M E} _ _ _ _ _.
Arguments EvAcq {M E} _ _ _ _ _.
Arguments EvStat {M E} _ _ _ _.
Arguments EvHp {M E} _.

(** State of an optimizer object: bo_base.hpp:286-292 and boptimizer.hpp:195.
    [cur = None] is the uninitialised [_current_iteration] left by the constructor
    (bo_base.hpp:205 initialises only [_total_iterations]). *)
Record bo (W M E : Type) : Type := mkBo {
  cur : option Z;
  tot : Z;
  samples : list vec;
  observations : list vec;
  model : M;
  world : W;
  trace : list (event M E)
}.
Arguments mkBo {W M E} _ _ _ _ _ _ _.
Arguments cur {W M E} _.
Arguments tot {W M E} _.
Arguments samples {W M E} _.
Arguments observations {W M E} _.
Arguments model {W M E} _.
Arguments world {W M E} _.
Arguments trace {W M E} _.

(** Result of a member function: normal return, exception (with the state the
    object is left in), or "still running" when the fuel is exhausted. *)
Inductive result (W M E : Type) : Type :=
| Ret : bo W M E -> result W M E
| Throw : bo W M E -> exn E -> result W M E
| Running : bo W M E -> result W M E
| UninitRead : result W M E.           (* undefined behaviour: indeterminate value read *)
Arguments Ret {W M E} _.
Arguments Throw {W M E} _ _.
Arguments Running {W M E} _.
Arguments UninitRead {W M E}.

Section BO.
  Context {W M E : Type}.

  (** the objective [sfun] *)
  Variable sfun : W -> vec -> (vec + E) * W.
  (** [model_t(dim_in, dim_out)] *)
  Variable m_fresh : M.
  (** [_model.compute(samples, observations)] *)
  Variable m_compute : W -> M -> list vec -> list vec -> M * W.
  (** [_model.add_sample(sample, observation)] *)
  Variable m_add : W -> M -> vec -> vec -> M * W.
  (** [_model.optimize_hyperparams()] *)
  Variable m_hp : W -> M -> M * W.
  (** acquisition function of the model and iteration, maximised from a random start *)
  Variable acq : W -> M -> Z -> vec * W.
  (** initialisation function: number of points and the i-th point *)
  Variable init_n : nat.
  Variable init_pt : nat -> W -> vec * W.
  (** [Params::bayes_opt_boptimizer::hp_period()] *)
  Variable hp_period : Z.

  Notation st := (bo W M E).

  (** A stopping criterion object: it has a state and an [operator()] that may
      change its own state and the world (e.g. the random generator). *)
  Record criterion : Type := mkCrit {
    crit_state : Type;
    crit_val : crit_state;
    crit_op : crit_state -> W -> st -> bool * crit_state * W
  }.

  Definition set_world (s : st) (w : W) : st :=
    mkBo (cur s) (tot s) (samples s) (observations s) (model s) w (trace s).
  Definition set_model (s : st) (m : M) : st :=
    mkBo (cur s) (tot s) (samples s) (observations s) m (world s) (trace s).
  Definition log (s : st) (e : event M E) : st :=
    mkBo (cur s) (tot s) (samples s) (observations s) (model s) (world s) (trace s ++ [e]).
  Definition set_cur (s : st) (c : Z) : st :=
    mkBo (Some c) (tot s) (samples s) (observations s) (model s) (world s) (trace s).
  Definition set_tot (s : st) (t : Z) : st :=
    mkBo (cur s) t (samples s) (observations s) (model s) (world s) (trace s).
  Definition clear_data (s : st) : st :=
    mkBo (cur s) (tot s) [] [] (model s) (world s) (trace s).
  (** [_samples.push_back(s); _observations.push_back(v)] (bo_base.hpp:236-237) *)
  Definition push (s : st) (x v : vec) : st :=
    mkBo (cur s) (tot s) (samples s ++ [x]) (observations s ++ [v]) (model s) (world s) (trace s).

  (** bo_base.hpp:205, boptimizer.hpp (default construction) *)
  Definition new_bo (m : M) (w : W) : st := mkBo None 0 [] [] m w [].

  (** bo_base.hpp:232-238 [add_new_sample] *)
  Definition add_new_sample (s : st) (x v : vec) : result W M E :=
    if is_nan_or_inf v then Throw s EvaluationError else Ret (push s x v).

  (** bo_base.hpp:242-245 [eval_and_add] *)
  Definition eval_and_add (s : st) (x : vec) : result W M E :=
    let '(r, w) := sfun (world s) x in
    let s1 := log (set_world s w) (EvEval x r) in
    match r with
    | inr e => Throw s1 (UserExn e)
    | inl v => add_new_sample s1 x v
    end.

  (** initialisation functions (/repo/src/limbo/init/*.hpp): evaluate points [i], [i+1], ...
      one after the other through [eval_and_add] *)
  Fixpoint run_init (k i : nat) (s : st) : result W M E :=
    match k with
    | O => Ret s
    | S k' =>
        let '(x, w) := init_pt i (world s) in
        match eval_and_add (set_world s w) x with
        | Ret s' => run_init k' (S i) s'
        | r => r
        end
    end.

  (** bo_base.hpp:249-260 [_init] *)
  Definition init_phase (reset : bool) (s : st) : result W M E :=
    let s1 := set_cur (log s (EvCall reset)) 0 in
    let s2 := if reset then log (clear_data (set_tot s1 0)) EvReset else s1 in
    if tot s2 =? 0 then run_init init_n 0 (log s2 EvInit) else Ret s2.

  (** stop/chain_criteria.hpp:70-74 with [boost::fusion::accumulate] (bo_base.hpp:263-267):
      [state || stop(_bo, _afun)], the criterion is passed by value (a copy), so its new state is lost *)
  Fixpoint chain (state : bool) (cs : list criterion) (w : W) (s : st) : bool * W :=
    match cs with
    | [] => (state, w)
    | c :: r =>
        if state then chain true r w s
        else let '(b, _, w') := crit_op c (crit_val c) w s in chain b r w' s
    end.

  (** bo_base.hpp:263-267 [_stop] *)
  Definition stop_now (cs : list criterion) (s : st) : bool * W := chain false cs (world s) s.

  (** boptimizer.hpp:152-168: body of the main loop (one iteration) at iteration [c] *)
  Definition iteration (c : Z) (s0 : st) : result W M E :=
    let '(x, w1) := acq (world s0) (model s0) c in
    let s1 := log (set_world s0 w1) (EvAcq (samples s0) (observations s0) (model s0) c x) in
    match eval_and_add s1 x with
    | Ret s2 =>
        let s3 := log s2 (EvStat (samples s2) (observations s2) (model s2) (tot s2)) in
        let '(m, w3) := m_add (world s3) (model s3) (last (samples s3) []) (last (observations s3) []) in
        let s4 := set_model (set_world s3 w3) m in
        let s5 :=
          if (0 <? hp_period) && ((c + 1) mod hp_period =? 0)
          then let '(m', w4) := m_hp (world s4) (model s4) in
               log (set_model (set_world s4 w4) m') (EvHp c)
          else s4 in
        Ret (set_tot (set_cur s5 (c + 1)) (tot s5 + 1))
    | r => r
    end.

  (** boptimizer.hpp:150-169: the main loop *)
  Fixpoint loop (cs : list criterion) (fuel : nat) (s : st) : result W M E :=
    match fuel with
    | O => Running s
    | S fuel' =>
        match cur s with
        | None => UninitRead
        | Some c =>
            let '(b, w) := stop_now cs s in
            let s0 := log (set_world s w) (EvStop (samples s) (observations s) (model s) c b) in
            if b then Ret s0 else
            match iteration c s0 with
            | Ret s' => loop cs fuel' s'
            | r => r
            end
        end
    end.

  (** boptimizer.hpp:139-170 [optimize] *)
  Definition optimize (cs : list criterion) (fuel : nat) (reset : bool) (s : st) : result W M E :=
    match init_phase reset s with
    | Ret s1 =>
        let s2 :=
          match observations s1 with
          | [] => set_model s1 m_fresh
          | _ => let '(m, w) := m_compute (world s1) (model s1) (samples s1) (observations s1) in
                 set_model (set_world s1 w) m
          end in
        loop cs fuel s2
    | r => r
    end.

  (** stop/max_iterations.hpp:64-72 [MaxIterations]; reading an uninitialised
      counter cannot happen inside the loop ([cur] is set by [_init]) *)
  Definition max_iterations (n : Z) : criterion :=
    mkCrit unit tt (fun u w s =>
      (match cur s with Some c => n <=? c | None => false end, u, w)).

  (** Public operations that change an optimizer object. *)
  Inductive op : Type :=
  | OpOptimize : bool -> nat -> op        (* optimize(sfun, afun, reset); nat = fuel *)
  | OpEvalAdd : vec -> op                 (* eval_and_add, public *)
  | OpAddSample : vec -> vec -> op.       (* add_new_sample, public *)

  Definition run_op (cs : list criterion) (o : op) (s : st) : result W M E :=
    match o with
    | OpOptimize reset fuel => optimize cs fuel reset s
    | OpEvalAdd x => eval_and_add s x
    | OpAddSample x v => match add_new_sample s x v with
                         | Ret s' => Ret (log s' (EvAdd x v))
                         | r => r
                         end
    end.

  (** A history of calls; exceptions are caught by the user and the object is used again.
      [None] if undefined behaviour occurred. *)
  Fixpoint run_ops (cs : list criterion) (os : list op) (s : st) : option st :=
    match os with
    | [] => Some s
    | o :: r =>
        match run_op cs o s with
        | Ret s' => run_ops cs r s'
        | Throw s' _ => run_ops cs r s'
        | Running s' => Some s'   (* the call has not returned: state reached so far *)
        | UninitRead => None
        end
    end.
End BO.

(** [std::max_element(first, last)] on doubles: the position of the running maximum,
    replaced only when strictly smaller ([*largest < *it]); [n] = index of the head of [l]. *)
Fixpoint max_element_from (l : list F) (n : nat) (best : nat) (bestv : F) : nat :=
  match l with
  | [] => best
  | x :: r => if flt bestv x then max_element_from r (S n) n x
              else max_element_from r (S n) best bestv
  end.

Definition max_element (l : list F) : nat :=
  match l with
  | [] => O      (* [last - first] = 0 for an empty range *)
  | x :: r => max_element_from r 1 0 x
  end.

(** boptimizer.hpp:174-180 [best_observation]; [None] = out-of-range access (undefined behaviour) *)
Definition best_observation {W M E} (afun : vec -> F) (s : bo W M E) : option vec :=
  nth_error (observations s) (max_element (map afun (observations s))).

(** boptimizer.hpp:184-190 [best_sample] *)
Definition best_sample {W M E} (afun : vec -> F) (s : bo W M E) : option vec :=
  nth_error (samples s) (max_element (map afun (observations s))).

(** bo_base.hpp:99-105 [FirstElem]; [None] = out-of-range access *)
Definition first_elem (v : vec) : option F := nth_error v 0.
