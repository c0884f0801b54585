(** Model of /repo/src/limbo/experimental/tools/pareto.hpp, in IEEE binary64 comparisons.
    Elements are arbitrary ([A], the tuple) with an objective vector ([objs] = std::get<K>). *)
From Coq Require Import ZArith List Bool Permutation.
From Verif Require Import F64.
Import ListNotations.
Open Scope Z_scope.

(** lines 68-74: the two flags; [None]: [i2(i)] out of range *)
Fixpoint dominate_flags (i1 i2 : vec) (flag1 flag2 : bool) : option (bool * bool) :=
  match i1, i2 with
  | [], _ => Some (flag1, flag2)
  | _ :: _, [] => None
  | x :: r1, y :: r2 =>
      if flt y x then dominate_flags r1 r2 true flag2
      else if flt x y then dominate_flags r1 r2 flag1 true
      else dominate_flags r1 r2 flag1 flag2
  end.

(** lines 60-82; [None]: failed assertion (no objective) or out-of-range access *)
Definition dominate_flag (i1 i2 : vec) : option Z :=
  match i1 with
  | [] => None
  | _ =>
    match dominate_flags i1 i2 false false with
    | None => None
    | Some (flag1, flag2) =>
        Some (if flag1 && negb flag2 then 1 else if negb flag1 && flag2 then -1 else 0)
    end
  end.

(** lines 85-89 *)
Definition dominate (i1 i2 : vec) : option bool :=
  match dominate_flag i1 i2 with Some z => Some (z =? 1) | None => None end.

Section Pareto.
  Context {A : Type}.
  Variable objs : A -> vec.

  (** lines 91-98 *)
  Fixpoint non_dominated (p_objs : vec) (l : list A) : option bool :=
    match l with
    | [] => Some true
    | x :: r =>
        match dominate (objs x) p_objs with
        | None => None
        | Some true => Some false
        | Some false => non_dominated p_objs r
        end
    end.

  (** lines 101-114 [compare_objs_lex]; [None]: out-of-range access *)
  Fixpoint lex_objs (i1 i2 : vec) : option bool :=
    match i1, i2 with
    | [], _ => Some false
    | _ :: _, [] => None
    | x :: r1, y :: r2 =>
        if flt y x then Some true
        else if flt x y then Some false
        else lex_objs r1 r2
    end.
  Definition compare_objs_lex (a b : A) : option bool := lex_objs (objs a) (objs b).

  (** outcome of a call: a value, or undefined behaviour / failed assertion *)
  Inductive outcome (T : Type) : Type := Val (t : T) | UB.
  Arguments Val {T} _. Arguments UB {T}.

  (** [std::sort(first, last, comp)]: undefined unless [comp] is defined and a strict weak order
      on the elements; otherwise some permutation in which no element precedes a smaller one *)
  Definition swo (comp : A -> A -> option bool) (l : list A) : Prop :=
    (forall a b, In a l -> In b l -> comp a b <> None) /\
    (forall a, In a l -> comp a a = Some false) /\
    (forall a b c, In a l -> In b l -> In c l ->
       comp a b = Some true -> comp b c = Some true -> comp a c = Some true) /\
    (forall a b c, In a l -> In b l -> In c l ->
       comp a b = Some false -> comp b c = Some false -> comp a c = Some false).
  Definition std_sort (comp : A -> A -> option bool) (l : list A) (r : outcome (list A)) : Prop :=
    match r with
    | UB => ~ swo comp l
    | Val r => swo comp l /\ Permutation l r /\
        forall i j a b, (i < j)%nat -> nth_error r i = Some a -> nth_error r j = Some b ->
          comp b a = Some false
    end.

  (** the loop of lines 145-155 with its bodies executed in the order [order]
      ([par::loop] runs the indices in any order, [push_back] on a concurrent vector is atomic) *)
  Fixpoint collect (p order : list A) : option (list A) :=
    match order with
    | [] => Some []
    | x :: r =>
        match non_dominated (objs x) p, collect p r with
        | Some true, Some l => Some (x :: l)
        | Some false, Some l => Some l
        | _, _ => None
        end
    end.

  (** lines 135-158 and 193-204: [pareto_set_std] and [pareto_set]; relation between the input and
      the outcome of some execution *)
  Definition pareto_set (p : list A) (r : outcome (list A)) : Prop :=
    match p with
    | [] => r = UB
    | x :: _ =>
        if (length (objs x) <=? 1)%nat then r = UB else
        exists order, Permutation p order /\
          match collect p order with
          | None => r = UB
          | Some l => std_sort compare_objs_lex l r
          end
    end.

  (** ** [sort_2objs] (lines 162-189), not called: its call in [pareto_set] is commented out *)

  (** lines 124-134 [comp_fronts](f2, f1) *)
  Definition second (a : A) : F := nth 1 (objs a) fnan.
  Definition comp_fronts (f2 f1 : list A) : bool :=
    match f1, rev f2 with
    | a :: _, b :: _ => flt (second a) (second b)
    | _, _ => false
    end.

  (** [std::lower_bound] over [f]: bisection, [n] = remaining length *)
  Fixpoint lower_bound (fuel : nat) (f : list (list A)) (first n : nat) (v : list A) : nat :=
    match fuel with
    | O => first
    | S k =>
        match n with
        | O => first
        | _ => let half := Nat.div2 n in
               if comp_fronts (nth (first + half) f []) v
               then lower_bound k f (first + half + 1) (n - half - 1) v
               else lower_bound k f first half v
        end
    end.

  Fixpoint push_front_at (i : nat) (a : A) (f : list (list A)) : list (list A) :=
    match i, f with
    | O, g :: r => (g ++ [a]) :: r
    | S k, g :: r => g :: push_front_at k a r
    | _, [] => []
    end.

  (** lines 170-187 on the sorted vector *)
  Fixpoint sort_2objs_loop (l : list A) (f : list (list A)) : list (list A) :=
    match l with
    | [] => f
    | x :: r =>
        let back := last (last f []) x in
        if flt (second back) (second x)
        then let b := lower_bound (S (length f)) f 0 (length f) [x] in
             sort_2objs_loop r (push_front_at b x f)
        else sort_2objs_loop r (f ++ [[x]])
    end.

  Definition sort_2objs_sorted (p : list A) : list A :=
    match p with
    | [] => []
    | x :: r => hd [] (sort_2objs_loop r [[x]])
    end.
End Pareto.
Arguments Val {T} _. Arguments UB {T}.
