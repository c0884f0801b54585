(** The bodies of limbo's parallel loops as sequences of memory accesses (ParModel.v). *)
From Coq Require Import List Bool Arith.
From Verif Require Import F64 ParModel SparseModel GPModel ParetoModel.
Import ListNotations.

(** * SparsifiedGP: the distance matrix, sparsified_gp.hpp:160-167 *)
Section Distances.
Variables (A : Type) (norm : A -> A -> F).
(** [samples[i]], [distances(i, j)] *)
Inductive dloc := Samp (i : nat) | Cell (i j : nat).
Inductive dval := Pt (a : A) | Num (x : F).
Definition dloc_dec (x y : dloc) : {x = y} + {x <> y}.
Proof. decide equality; apply Nat.eq_dec. Defined.

(** lines 162-166: the inner loop over [js] *)
Fixpoint dist_row (i : nat) (js : list nat) : task dloc dval :=
  match js with
  | [] => Stop true
  | j :: r =>
      if (i =? j)%nat then dist_row i r
      else Rd (Samp i) (fun a => Rd (Samp j) (fun b =>
        match a, b with
        | Pt a, Pt b => Wr (Cell i j) (Num (norm a b)) (dist_row i r)
        | _, _ => Stop false
        end))
  end.
Definition dist_task (n i : nat) : task dloc dval := dist_row i (seq 0 n).
End Distances.
Arguments Pt {A}. Arguments Num {A}.

(** * SparsifiedGP: the densest point, sparsified_gp.hpp:129-157 *)
(** [distances(i, j)], [min_dist], [denser] *)
Inductive kloc := Dist (i j : nat) | MinDist | Denser.
Inductive kval := KNum (x : F) | KIdx (k : option nat).
Definition kloc_dec (x y : kloc) : {x = y} + {x <> y}.
Proof. decide equality; apply Nat.eq_dec. Defined.

(** lines 149-154: the update between lock and unlock *)
Definition update_denser (i : nat) (d : F) : task kloc kval :=
  Lock (Rd MinDist (fun v =>
    match v with
    | KNum md => if flt d md then Wr MinDist (KNum d) (Wr Denser (KIdx (Some i)) (Unlock (Stop true))) else Unlock (Stop true)
    | KIdx _ => Unlock (Stop false)
    end)).
(** lines 136-147: read the row ([row] is what has been read), then the sum of its [D] smallest entries *)
Fixpoint read_row (D N i : nat) (js : list nat) (row : list F) : task kloc kval :=
  match js with
  | [] =>
      match row_density D N (fun _ j => nth j row f0) i with
      | Ok d => update_denser i d
      | _ => Stop false
      end
  | j :: r => Rd (Dist i j) (fun v => match v with KNum x => read_row D N i r (row ++ [x]) | KIdx _ => Stop false end)
  end.
Definition dense_task (D N i : nat) : task kloc kval := read_row D N i (seq 0 N) [].

(** * Loops whose iteration [i] replaces object [i]: multi_gp.hpp:124-126 (compute), 172-174 (add_sample),
      191-195, 210-212, 226-228 (results of the queries), 263-265 (recompute), parallel_lf_opt.hpp:64-67,
      pareto_front.hpp:92-96 and bo_multi.hpp:227-229 (packing of the data).  What else the iterations read does not
      change during the loop and is part of [f]. *)
Definition each_task {A} (f : nat -> A -> GPModel.outcome A) (i : nat) : task nat A :=
  Rd i (fun a => match f i a with Done a' => Wr i a' (Stop true) | _ => Stop false end).

(** * Pareto set, pareto.hpp:145-155 *)
Section Collect.
Variables (A : Type) (objs : A -> F64.vec).
(** [p[i]], [pareto] *)
Inductive ploc := P (i : nat) | Vec.
Inductive pval := Elem (a : A) | Elems (l : list A).
Definition ploc_dec (x y : ploc) : {x = y} + {x <> y}.
Proof. decide equality; apply Nat.eq_dec. Defined.

(** line 153, [push_back] of a tbb::concurrent_vector: atomic, modelled by a mutex inside the vector *)
Definition push_back (a : A) : task ploc pval :=
  Lock (Rd Vec (fun v => match v with Elems l => Wr Vec (Elems (l ++ [a])) (Unlock (Stop true)) | Elem _ => Unlock (Stop false) end)).
(** lines 152-153; [p]: what has been read *)
Fixpoint read_points (i : nat) (js : list nat) (p : list A) : task ploc pval :=
  match js with
  | [] =>
      match nth_error p i with
      | None => Stop false
      | Some x =>
          match non_dominated objs (objs x) p with
          | Some true => push_back x
          | Some false => Stop true
          | None => Stop false
          end
      end
  | j :: r => Rd (P j) (fun v => match v with Elem a => read_points i r (p ++ [a]) | Elems _ => Stop false end)
  end.
Definition collect_task (n i : nat) : task ploc pval := read_points i (seq 0 n) [].
End Collect.
Arguments Elem {A}. Arguments Elems {A}.
