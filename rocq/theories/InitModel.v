(** Model of the initialisation functions of /repo/src/limbo/init: which points they evaluate.
    Each of them calls [opt.eval_and_add(seval, point)] for a sequence of points; they are given
    to the optimisation loop of [BOModel] as the number [init_n] of points and the function
    [init_pt] that computes the i-th point (possibly drawing random numbers from the world). *)
From Coq Require Import ZArith List Bool.
From Coq Require Import Floats.SpecFloat.
From Verif Require Import F64 OptModel.
Import ListNotations.
Open Scope Z_scope.

(** ** init/grid_sampling.hpp *)

(** line 82: [for (double x = 0; x <= 1.0f; x += 1.0f / (double)bins)]; the step is recomputed at
    each iteration, [1.0f] is promoted to double.  [None]: more than [fuel] values. *)
Fixpoint steps_le (fuel : nat) (x step lim : F) : option (list F) :=
  match fuel with
  | O => None
  | S k => if fle x lim
           then match steps_le k (fadd x step) step lim with Some l => Some (x :: l) | None => None end
           else Some []
  end.

Definition grid_sampling_xs (fuel : nat) (bins : Z) : option (list F) :=
  steps_le fuel f0 (fdiv f1 (fofZ bins)) f1.

(** lines 80-93 [_explore]: points in the order of evaluation; [d] = current.size() - 1 - dim_in *)
Fixpoint explore (xs : list F) (d dim_in : nat) (current : vec) : list vec :=
  flat_map (fun x => let point := set_nth dim_in x current in
                     match d with
                     | O => [point]
                     | S d' => explore xs d' (S dim_in) point
                     end) xs.

(** lines 72-75; [None]: dimension 0 makes [point[0]] out of range *)
Definition grid_sampling (xs : list F) (dim : nat) : option (list vec) :=
  match dim with
  | O => None
  | S d => Some (explore xs d 0 (repeat f0 dim))
  end.

(** a fixed list of points as an initialisation function of [BOModel] *)
Definition list_init_n (pts : list vec) : nat := length pts.
Definition list_init_pt {W} (pts : list vec) (i : nat) (w : W) : vec * W := (nth i pts [], w).

(** ** random numbers *)
Section Random.
  Context {W : Type}.
  (** one call of [uniform_real_distribution(0,1)] / [uniform_int_distribution(a,b)] *)
  Variable rand_double : W -> F * W.
  Variable rand_int : Z -> Z -> W -> Z * W.

  (** tools/random_generator.hpp:110-117 [random_vec] *)
  Fixpoint random_vec (size : nat) (w : W) : vec * W :=
    match size with
    | O => ([], w)
    | S k => let '(x, w1) := rand_double w in
             let '(r, w2) := random_vec k w1 in (x :: r, w2)
    end.

  (** init/random_sampling.hpp:73-79 (bounded case: random_generator.hpp:124-128) *)
  Definition random_sampling_n (samples : Z) : nat := Z.to_nat samples.
  Definition random_sampling_pt (dim : nat) (i : nat) (w : W) : vec * W := random_vec dim w.

  (** init/random_sampling_grid.hpp:82-89 *)
  Fixpoint random_grid_vec (bins : Z) (size : nat) (w : W) : vec * W :=
    match size with
    | O => ([], w)
    | S k => let '(j, w1) := rand_int 0 bins w in
             let '(r, w2) := random_grid_vec bins k w1 in (fdiv (fofZ j) (fofZ bins) :: r, w2)
    end.
  Definition random_sampling_grid_n (samples : Z) : nat := Z.to_nat samples.
  Definition random_sampling_grid_pt (bins : Z) (dim : nat) (i : nat) (w : W) : vec * W :=
    random_grid_vec bins dim w.
End Random.
