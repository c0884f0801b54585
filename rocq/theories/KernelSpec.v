(** Specification side of the kernel properties. *)
From Coq Require Import Reals List ZArith.
From Verif Require Import LinAlgModel KernelModel.
Import ListNotations.
Open Scope R_scope.

(** the kernels of limbo with their static parameters: sigma_sq, l, number of ARD factor columns *)
Definition kernels (sf2 l : R) (k : nat) : list CKern :=
  [Exp sf2 l; MaternThreeHalves sf2 l; MaternFiveHalves sf2 l; SquaredExpARD sf2 k].

(** states of a kernel object for points of dimension [d]: constructed, then parameters set *)
Inductive creach (C : CKern) (d : nat) : cst C -> Prop :=
| cr_new : creach C d (c_new C d)
| cr_set : forall st p, creach C d st -> length p = c_size C st -> creach C d (c_set C st p).
Inductive kreach (K : Kern) (d : nat) : kst K -> Prop :=
| kr_new : kreach K d (k_new K d)
| kr_set : forall st p, kreach K d st -> length p = k_hsize K st -> kreach K d (k_set K st p).

(** the [p]-th entry of [v] replaced by [t] *)
Definition vupd (v : vec) (p : nat) (t : R) : vec := firstn p v ++ t :: skipn (S p) v.
