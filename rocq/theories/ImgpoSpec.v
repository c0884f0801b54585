(** What is meant by a consistent IMGPO tree; independent of how the optimizer builds it. *)
From Coq Require Import Reals List Bool ZArith Arith.
From Verif Require Import F64 ImgpoModel.
Import ListNotations.
Local Open Scope nat_scope.

Definition side (c : cell) (i : nat) : R := (coord (c_max c) i - coord (c_min c) i)%R.
Definition in_cube (n : nat) (p : point) : Prop := length p = n /\ forall i, i < n -> (0 <= coord p i <= 1)%R.
Definition in_box (n : nat) (c : cell) (p : point) : Prop :=
  length p = n /\ forall i, i < n -> (coord (c_min c) i <= coord p i <= coord (c_max c) i)%R.
Definition in_interior (n : nat) (c : cell) (p : point) : Prop :=
  length p = n /\ forall i, i < n -> (coord (c_min c) i < coord p i < coord (c_max c) i)%R.
Definition apart (n : nat) (c c' : cell) : Prop := forall p, in_interior n c p -> ~ in_interior n c' p.
Definition is_centre (n : nat) (c : cell) : Prop :=
  length (c_x c) = n /\ forall i, i < n -> (coord (c_x c) i = (coord (c_min c) i + coord (c_max c) i) / 2)%R.

(** all the cells, the leaves *)
Definition leaves (t : list level) : list cell := filter c_leaf (concat t).
(** a tiling of the unit cube: it is covered, and different boxes share no interior point *)
Definition tiling (n : nat) (L : list cell) : Prop :=
  (forall c, In c L -> forall p, in_box n c p -> in_cube n p) /\
  (forall p, in_cube n p -> exists c, In c L /\ in_box n c p) /\
  (forall i j c c', nth_error L i = Some c -> nth_error L j = Some c' -> i <> j -> apart n c c').

(** the sides of a box of level [h] are powers of 1/3 with exponents that sum to [h] and differ by at most one *)
Definition balanced (n h : nat) (c : cell) : Prop :=
  exists k : list nat, length k = n /\ list_sum k = h /\
    (forall i, i < n -> side c i = ((/ 3) ^ nth i k 0%nat)%R) /\
    (forall i j, i < n -> j < n -> nth i k 0 <= S (nth j k 0)).

(** [l], [m], [r]: three equal parts of [c] along a longest side *)
Definition trisection (n : nat) (c l m r : cell) : Prop :=
  exists d, d < n /\ (forall j, j < n -> (side c j <= side c d)%R) /\
    (forall j, j < n -> j <> d -> forall c', In c' [l; m; r] ->
       coord (c_min c') j = coord (c_min c) j /\ coord (c_max c') j = coord (c_max c) j) /\
    let a := coord (c_min c) d in let b := coord (c_max c) d in let w := ((b - a) / 3)%R in
    (coord (c_min l) d = a /\ coord (c_max l) d = a + w /\
     coord (c_min m) d = a + w /\ coord (c_max m) d = a + 2 * w /\
     coord (c_min r) d = a + 2 * w /\ coord (c_max r) d = b)%R.
