(** What a density-based thinning of a data set is, independently of how SparsifiedGP does it. *)
From Coq Require Import ZArith List Bool Permutation Sorted.
From Coq Require Import Floats.SpecFloat.
From Verif Require Import F64.
Local Close Scope Z_scope.
Import ListNotations.

Section Thinning.
Variables (A B : Type) (norm : A -> A -> F).

(** the list without its element [k] *)
Inductive without {T} : nat -> list T -> T -> list T -> Prop :=
| w_here : forall x l, without 0 (x :: l) x l
| w_next : forall k y l x r, without k l x r -> without (S k) (y :: l) x (y :: r).

(** [d] is the sum of the [D] smallest distances from the point [k] to the others *)
Definition crowding (D : nat) (l : list (A * B)) (k : nat) (d : F) : Prop :=
  exists x others near far,
    without k l x others /\
    Permutation (near ++ far) (map (fun y => norm (fst x) (fst y)) others) /\
    length near = D /\ StronglySorted (fun u v => flt v u = false) near /\
    (forall u v, In u near -> In v far -> flt v u = false) /\
    d = fold_left fadd near f0.

(** no point is more crowded than the point [k] *)
Definition most_crowded (D : nat) (l : list (A * B)) (k : nat) : Prop :=
  exists d : nat -> F, (forall i, i < length l -> crowding D l i (d i)) /\ k < length l /\
    (forall i, i < length l -> flt (d i) (d k) = false).

(** remove most crowded points, one by one, until at most [p] are left *)
Inductive thinned (D p : nat) : list (A * B) -> list (A * B) -> Prop :=
| thin_stop : forall l, length l <= p -> thinned D p l l
| thin_step : forall l k x r l', p < length l -> most_crowded D l k -> without k l x r -> thinned D p r l' -> thinned D p l l'.

Inductive sublist {T} : list T -> list T -> Prop :=
| sub_nil : sublist [] []
| sub_keep : forall x l r, sublist l r -> sublist (x :: l) (x :: r)
| sub_drop : forall x l r, sublist l r -> sublist l (x :: r).
End Thinning.
