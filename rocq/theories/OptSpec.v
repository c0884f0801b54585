(** Specification vocabulary for the optimizers: written without any function of [OptModel]. *)
From Coq Require Import ZArith List Bool.
From Coq Require Import Floats.SpecFloat.
From Verif Require Import F64.
Import ListNotations.

(** a number of the closed unit interval *)
Definition in_unit (x : F) : Prop := fle f0 x = true /\ fle x f1 = true.

(** a vector of the unit box, NaN coordinates tolerated *)
Definition in_box_or_nan (v : vec) : Prop := Forall (fun x => isnan x = true \/ in_unit x) v.

(** a vector of the unit box *)
Definition in_box (v : vec) : Prop := Forall in_unit v.

(** [(x, v)] has the best value among the evaluations [tr]: no evaluation is strictly better,
    and every earlier evaluation is strictly worse (or NaN) *)
Definition first_best (tr : list (vec * F)) (x : vec) (v : F) : Prop :=
  exists l1 l2, tr = l1 ++ (x, v) :: l2 /\ notnan v /\
    Forall (fun e => flt v (snd e) = false) tr /\
    Forall (fun e => isnan (snd e) = true \/ flt (snd e) v = true) l1.

(** a point of the grid [xs]^dim *)
Definition on_grid (xs : list F) (dim : nat) (q : vec) : Prop :=
  length q = dim /\ Forall (fun x => In x xs) q.
