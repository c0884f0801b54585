(** Model of the sparsification of limbo's SparsifiedGP (/repo/src/limbo/model/sparsified_gp.hpp:124-205).
    Distances are doubles; the euclidean norm of Eigen is an arbitrary function.  The assignment of
    overlapping blocks in [_remove_row] and [_remove_column] is taken to copy coefficients in
    increasing order. *)
From Coq Require Import ZArith List Bool.
From Coq Require Import Floats.SpecFloat.
From Verif Require Import F64.
Import ListNotations.

Section Sparsify.
(** samples, observations *)
Variables (A B : Type).
(** [(a - b).norm()] *)
Variable norm : A -> A -> F.
(** [a.size()] *)
Variable dim : A -> nat.
(** Params::model_sparse_gp::max_points() *)
Variable max_points : nat.

(** [Unspecified]: access out of range, or a sort of a range with NaN ([<] is then not an order) *)
Inductive sres (T : Type) := Ok (t : T) | Unspecified | NoFuel.
Arguments Ok {T}. Arguments Unspecified {T}. Arguments NoFuel {T}.

(** std::numeric_limits<double>::max() = (2^53-1)*2^971 *)
Definition dbl_max : F := S754_finite false 9007199254740991 971.

(** ascending order *)
Fixpoint insert (x : F) (l : list F) : list F :=
  match l with [] => [x] | y :: r => if flt x y then x :: l else y :: insert x r end.
Definition sort (l : list F) : list F := fold_right insert [] l.

(** sparsified_gp.hpp:134-147: the sum of the [D] smallest entries of row [i], the diagonal excepted.
    partial_sort needs [begin + D <= end]. *)
Definition row_density (D N : nat) (dist : nat -> nat -> F) (i : nat) : sres F :=
  let row := map (dist i) (seq 0 N) in
  let neighbors := firstn i row ++ skipn (S i) row in
  if (D <=? length neighbors)%nat && negb (existsb isnan neighbors)
  then Ok (fold_left fadd (firstn D (sort neighbors)) f0)
  else Unspecified.

(** sparsified_gp.hpp:129-157 [_get_most_dense_point]: the iterations run in the order [order], the update
    of lines 149-154 is protected by a mutex; [None] is -1 *)
Fixpoint density_loop (order : list nat) (D N : nat) (dist : nat -> nat -> F) (min_dist : F) (denser : option nat) : sres (option nat) :=
  match order with
  | [] => Ok denser
  | i :: r =>
      match row_density D N dist i with
      | Ok d => if flt d min_dist then density_loop r D N dist d (Some i) else density_loop r D N dist min_dist denser
      | e => match e with NoFuel => NoFuel | _ => Unspecified end
      end
  end.
Definition most_dense (order : list nat) (D N : nat) (dist : nat -> nat -> F) : sres (option nat) :=
  density_loop order D N dist dbl_max None.

(** vector::erase(begin() + k) *)
Definition erase {T} (k : nat) (l : list T) : list T := firstn k l ++ skipn (S k) l.
(** sparsified_gp.hpp:184-205 *)
Definition remove_row (k : nat) (m : nat -> nat -> F) : nat -> nat -> F := fun i j => m (if (i <? k)%nat then i else S i) j.
Definition remove_column (k : nat) (m : nat -> nat -> F) : nat -> nat -> F := fun i j => m i (if (j <? k)%nat then j else S j).

(** sparsified_gp.hpp:171-181; [order n]: the order of the density loop over [n] points *)
Fixpoint sparsify_loop (fuel : nat) (order : nat -> list nat) (samp : list A) (obs : list B) (dist : nat -> nat -> F) : sres (list A * list B) :=
  if (length samp <=? max_points)%nat then Ok (samp, obs) else
  match fuel, samp with
  | O, _ => NoFuel
  | _, [] => Unspecified
  | S fuel, s0 :: _ =>
      match most_dense (order (length samp)) (dim s0) (length samp) dist with
      | Ok None => Ok (samp, obs)
      | Ok (Some k) =>
          if (k <? length samp)%nat && (k <? length obs)%nat then
            sparsify_loop fuel order (erase k samp) (erase k obs) (remove_row k (remove_column k dist))
          else Unspecified
      | Unspecified => Unspecified
      | NoFuel => NoFuel
      end
  end.

(** sparsified_gp.hpp:160-182 [_sparsify]; the diagonal of [distances] is not initialised ([junk]) *)
Definition sparsify (junk : nat -> F) (order : nat -> list nat) (samples : list A) (observations : list B) : sres (list A * list B) :=
  let dist := fun i j =>
    if (i =? j)%nat then junk i
    else match nth_error samples i, nth_error samples j with Some a, Some b => norm a b | _, _ => f0 end in
  sparsify_loop (length samples) order samples observations dist.

(** sparsified_gp.hpp:84-101: the data [compute] passes to the base class *)
Definition kept (junk : nat -> F) (order : nat -> list nat) (samples : list A) (observations : list B) : sres (list A * list B) :=
  if (length samples <=? max_points)%nat then Ok (samples, observations) else sparsify junk order samples observations.
End Sparsify.
Arguments Ok {T}. Arguments Unspecified {T}. Arguments NoFuel {T}.
