(** Specification side of the mean function properties. *)
From Coq Require Import Reals List.
From Verif Require Import KernelModel GPModel.
Import ListNotations.
Open Scope R_scope.

(** the mean functions of limbo *)
Inductive means : Mean -> Prop :=
| mn_null : means NullFunction
| mn_constant : forall c, means (Constant c)
| mn_data : means Data
| mn_ard : forall M, means M -> means (FunctionARD M).

(** states of a mean object for [d] outputs: constructed, then parameters set *)
Inductive mreach (M : Mean) (d : nat) : mst M -> Prop :=
| mr_new : mreach M d (m_new M d)
| mr_set : forall st p, mreach M d st -> length p = m_hsize M st -> mreach M d (m_set M st p).
