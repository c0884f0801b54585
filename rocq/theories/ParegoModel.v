(** Model of GPParego (/repo/src/limbo/experimental/model/gp_parego.hpp:77-121): the scalarisation, for any
    type of numbers, and the model object on top of [GPModel].  The order in which Eigen's sum() and
    maxCoeff() combine coefficients is not specified: any tree. *)
From Coq Require Import Reals List Bool ZArith.
From Coq Require Import Floats.SpecFloat.
From Verif Require Import F64 LinAlgModel KernelModel GPModel.
Import ListNotations.

(** an order of combination of the coefficients *)
Inductive tree := Leaf (i : nat) | Node (a b : tree).
Fixpoint leaves (t : tree) : list nat := match t with Leaf i => [i] | Node a b => leaves a ++ leaves b end.
Fixpoint redux {T} (op : T -> T -> T) (f : nat -> T) (t : tree) : T :=
  match t with Leaf i => f i | Node a b => op (redux op f a) (redux op f b) end.

Section Scalar.
Variables (T : Type) (add mul div mx : T -> T -> T) (rho : T).
(** gp_parego.hpp:105-107: the weights, from the draws [u] *)
Definition weights (ts : tree) (u : nat -> T) : nat -> T := fun i => div (u i) (redux add u ts).
(** gp_parego.hpp:111-113: the scalar for one observation *)
Definition scalar (tm ts : tree) (lambda x : nat -> T) : T :=
  let lx := fun i => mul (lambda i) (x i) in
  add (redux mx lx tm) (mul rho (redux add lx ts)).
End Scalar.

(** std::max *)
Definition fmaxc (a b : F) : F := if flt a b then b else a.
(** on doubles *)
Definition fweights : tree -> (nat -> F) -> nat -> F := weights F fadd fdiv.
Definition fscalar : F -> tree -> tree -> (nat -> F) -> (nat -> F) -> F := scalar F fadd fmul fmaxc.
(** on real numbers *)
Definition rweights : tree -> (nat -> R) -> nat -> R := weights R Rplus Rdiv.
Definition rscalar : R -> tree -> tree -> (nat -> R) -> (nat -> R) -> R := scalar R Rplus Rmult Rmax.

Section Parego.
Variables (K : Kern) (M : Mean) (rho : R).
Notation vec := (list R).
(** [_raw_observations] (gp_parego.hpp:102) besides the model *)
Record parego := { pg_gp : gp K M; pg_raw : list vec }.

(** gp_parego.hpp:103-119 [_scalarize_obs] *)
Definition scalarize (tw tm ts : tree) (u : nat -> R) (obs : list vec) : list vec :=
  map (fun y => [rscalar rho tm ts (rweights tw u) (fun i => nth i y 0%R)]) obs.

(** gp_parego.hpp:83-90 [compute]; an observation of another size than the first is a size mismatch in Eigen;
    draws summing to 0 give weights 0/0 *)
Definition parego_compute (tw tm ts : tree) (u : nat -> R) (g : parego) (samples observations : list vec) : outcome parego :=
  match observations with
  | [] => Undefined
  | o0 :: _ =>
      check (forallb (fun o => (length o =? length o0)%nat) observations)
        (if Req_EM_T (redux Rplus u tw) 0 then NotFinite else
         bind (compute K M (pg_gp g) samples (scalarize tw tm ts u observations) true) (fun g' =>
         Done {| pg_gp := g'; pg_raw := observations |}))
  end.

(** gp_parego.hpp:92-98 [add_sample] *)
Definition parego_add (tw tm ts : tree) (u : nat -> R) (g : parego) (s o : vec) : outcome parego :=
  let g0 := pg_gp g in
  let pushed := {| g_din := g_din K M g0; g_dout := g_dout K M g0; g_k := g_k K M g0; g_m := g_m K M g0;
    g_samples := g_samples K M g0 ++ [s]; g_obs := g_obs K M g0;
    g_mean_vector := g_mean_vector K M g0; g_obs_mean := g_obs_mean K M g0; g_alpha := g_alpha K M g0; g_mean_obs := g_mean_obs K M g0;
    g_kernel := g_kernel K M g0; g_inv := g_inv K M g0; g_L := g_L K M g0; g_inv_updated := g_inv_updated K M g0 |} in
  parego_compute tw tm ts u {| pg_gp := pushed; pg_raw := pg_raw g |} (g_samples K M pushed) (pg_raw g ++ [o]).
End Parego.
