(** Specification vocabulary for the optimisation loop, in terms of the observable
    events only (independent of the functions of [BOModel]). *)
From Coq Require Import ZArith List Bool.
From Verif Require Import F64 BOModel.
Import ListNotations.
Open Scope Z_scope.

Section Spec.
  Context {M E : Type}.
  Notation ev := (event M E).

  Definition finite_num (x : F) : bool :=
    match x with
    | SpecFloat.S754_zero _ | SpecFloat.S754_finite _ _ _ => true
    | _ => false
    end.

  (** the pairs that must be stored after the events [tr]: the evaluations that returned
      only finite numbers and the user's own additions, since the last reset *)
  Definition kept_step (acc : list (vec * vec)) (e : ev) : list (vec * vec) :=
    match e with
    | EvReset => []
    | EvEval x (inl v) => if forallb finite_num v then acc ++ [(x, v)] else acc
    | EvAdd x v => acc ++ [(x, v)]
    | _ => acc
    end.
  Definition kept (tr : list ev) : list (vec * vec) := fold_left kept_step tr [].

  (** a call of the objective that must be rejected *)
  Definition bad_result (r : vec + E) : Prop :=
    match r with inl v => forallb finite_num v = false | inr _ => True end.
  Definition exn_of (r : vec + E) : exn E :=
    match r with inl _ => EvaluationError | inr e => UserExn e end.

  Definition is_eval (e : ev) : bool := match e with EvEval _ _ => true | _ => false end.
  Definition is_stat (e : ev) : bool := match e with EvStat _ _ _ _ => true | _ => false end.
  Definition is_init (e : ev) : bool := match e with EvInit => true | _ => false end.
  Definition count (p : ev -> bool) (tr : list ev) : Z := Z.of_nat (length (filter p tr)).

  (** iterations completed since the last reset (every iteration refreshes the statistics once) *)
  Definition iters_step (n : Z) (e : ev) : Z :=
    match e with EvReset => 0 | EvStat _ _ _ _ => n + 1 | _ => n end.
  Definition iters (tr : list ev) : Z := fold_left iters_step tr 0.

  (** iterations (of one optimize call) after which hyper-parameters were optimised, 1-based *)
  Fixpoint hp_iters (tr : list ev) : list Z :=
    match tr with
    | [] => []
    | EvHp c :: r => (c + 1) :: hp_iters r
    | _ :: r => hp_iters r
    end.

  (** 1, 2, ..., k *)
  Definition upto (k : nat) : list Z := map Z.of_nat (seq 1 k).

  Definition divides (p i : Z) : bool := (0 <? p) && (Z.rem i p =? 0).
End Spec.

(** what a model must have been trained on when it is consulted: [data m] are the pairs the
    model was given since its last (re)computation *)
Definition coherent_event {M E : Type} (data : M -> list (vec * vec)) (e : event M E) : Prop :=
  match e with
  | EvStop xs ys m _ _ => data m = combine xs ys
  | EvAcq xs ys m _ _ => data m = combine xs ys
  | EvStat xs ys m _ => data m = combine (removelast xs) (removelast ys)
  | _ => True
  end.

(** [consult s cs w bs w']: starting in world [w], the criteria [cs] are asked one after the
    other on state [s], each on its initial state, and answer [bs], until one answers true *)
Inductive consult {W M E : Type} (s : bo W M E) : list (@criterion W M E) -> W -> list bool -> W -> Prop :=
| consult_nil w : consult s [] w [] w
| consult_true c cs w u w' :
    crit_op c (crit_val c) w s = (true, u, w') -> consult s (c :: cs) w [true] w'
| consult_false c cs w u w' bs w'' :
    crit_op c (crit_val c) w s = (false, u, w') -> consult s cs w' bs w'' ->
    consult s (c :: cs) w (false :: bs) w''.

(** [i] is the first position of [l] carrying a maximal value *)
Definition first_max (l : list F) (i : nat) : Prop :=
  exists v, nth_error l i = Some v /\
    (forall j w, nth_error l j = Some w -> flt v w = false) /\
    (forall j w, nth_error l j = Some w -> (j < i)%nat -> flt w v = true).
