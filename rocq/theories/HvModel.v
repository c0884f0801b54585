(** Model over the real numbers of /repo/src/hv/hypervol.c (the parts reachable from limbo) and of
    /repo/src/limbo/experimental/stat/hyper_volume.hpp. *)
From Coq Require Import Reals List Bool Arith.
Import ListNotations.
Open Scope R_scope.

(** [Stopped]: the ERROR macro, exit(1) (hypervol.c:57); [UB]: an index out of range; [Timeout]: the fuel of the model is used up *)
Inductive res (A : Type) := Ok (a : A) | UB | Stopped | Timeout.
Arguments Ok {A} a. Arguments UB {A}. Arguments Stopped {A}. Arguments Timeout {A}.
Definition bnd {A B} (x : res A) (f : A -> res B) : res B :=
  match x with Ok a => f a | UB => UB | Stopped => Stopped | Timeout => Timeout end.
Notation "'do' x <- e ; f" := (bnd e (fun x => f)) (at level 200, x pattern, e at level 100, f at level 200).

Definition point := list R.
(** front[i], point[i]: reading an array (hypervol.c:67, 77, 126) *)
Definition get {A} (l : list A) (i : nat) : res A := match nth_error l i with Some x => Ok x | None => UB end.
(** front[i] = x (hypervol.c:78-79) *)
Fixpoint upd {A} (l : list A) (i : nat) (x : A) : list A :=
  match l, i with [], _ => [] | _ :: l', O => x :: l' | y :: l', S i' => y :: upd l' i' x end.

(** hypervol.c:66-69: the loop of [Dominates]; the points are read from the current objective on, [m] objectives remain *)
Fixpoint dom_loop (m : nat) (p q : point) (better : bool) : res bool :=
  match m with
  | O => Ok better
  | S m' => match p, q with
            | x :: p', y :: q' => if Rle_dec y x then dom_loop m' p' q' (if Rlt_dec y x then true else better) else Ok false
            | _, _ => UB
            end
  end.
(** hypervol.c:59-71 *)
Definition Dominates (p q : point) (m : nat) : res bool := dom_loop m p q false.
(** hypervol.c:73-80 *)
Definition Swap (front : list point) (i j : nat) : res (list point) :=
  do x <- get front i; do y <- get front j; Ok (upd (upd front i y) j x).
(** hypervol.c:95-111: the inner loop; the last component tells whether it ended with [break] *)
Fixpoint filter_in (fuel : nat) (m i : nat) (front : list point) (n j : nat) : res (list point * nat * bool) :=
  match fuel with
  | O => Timeout
  | S fuel' =>
    if (j <? n)%nat then
      do fi <- get front i; do fj <- get front j;
      do d1 <- Dominates fi fj m;
      if d1 then do front' <- Swap front j (n - 1); filter_in fuel' m i front' (n - 1) j
      else do d2 <- Dominates fj fi m;
           if d2 then do front' <- Swap front i (n - 1); Ok (front', (n - 1)%nat, true)
           else filter_in fuel' m i front n (S j)
    else Ok (front, n, false)
  end.
(** hypervol.c:93-113: after a [break], [i] is decremented and incremented again *)
Fixpoint filter_out (fuel : nat) (m : nat) (front : list point) (n i : nat) : res (list point * nat) :=
  match fuel with
  | O => Timeout
  | S fuel' =>
    if (i <? n)%nat then
      do (front', n', broken) <- filter_in fuel m i front n (S i);
      filter_out fuel' m front' n' (if broken then i else S i)
    else Ok (front, n)
  end.
(** hypervol.c:82-115 *)
Definition FilterNondominatedSet (fuel : nat) (front : list point) (noPoints noObjectives : nat) : res (list point * nat) :=
  filter_out fuel noObjectives front noPoints 0.

(** hypervol.c:127-131 *)
Fixpoint min_loop (objective : nat) (l : list point) (minValue : R) : res R :=
  match l with
  | [] => Ok minValue
  | p :: l' => do value <- get p objective; min_loop objective l' (if Rlt_dec value minValue then value else minValue)
  end.
(** hypervol.c:117-133 *)
Definition SurfaceUnchangedTo (front : list point) (noPoints objective : nat) : res R :=
  if (noPoints <? 1)%nat then Stopped
  else if (length front <? noPoints)%nat then UB
  else do p <- get front 0; do v <- get p objective; min_loop objective (skipn 1 (firstn noPoints front)) v.
(** hypervol.c:146-150 *)
Fixpoint reduce_loop (fuel : nat) (objective : nat) (threshold : R) (front : list point) (n i : nat) : res (list point * nat) :=
  match fuel with
  | O => Timeout
  | S fuel' =>
    if (i <? n)%nat then
      do p <- get front i; do v <- get p objective;
      if Rle_dec v threshold then do front' <- Swap front i (n - 1); reduce_loop fuel' objective threshold front' (n - 1) (S i)
      else reduce_loop fuel' objective threshold front n (S i)
    else Ok (front, n)
  end.
(** hypervol.c:135-152 *)
Definition ReduceNondominatedSet (fuel : nat) (front : list point) (noPoints objective : nat) (threshold : R) : res (list point * nat) :=
  reduce_loop fuel objective threshold front noPoints 0.

(** hypervol.c:163-181: the loop, for [objective] = noObjectives - 1; [rec] is the computation of [tempVolume]
    from the filtered front *)
Fixpoint hv_loop (fuel0 fuel : nat) (objective : nat) (rec : list point -> nat -> res (list point * R))
    (front : list point) (n : nat) (volume distance : R) : res (list point * R) :=
  match fuel with
  | O => Timeout
  | S fuel' =>
    if (0 <? n)%nat then
      do (front1, nn) <- FilterNondominatedSet fuel0 front n objective;
      do (front2, tempVolume) <- rec front1 nn;
      do tempDistance <- SurfaceUnchangedTo front2 n objective;
      do (front3, n') <- ReduceNondominatedSet fuel0 front2 n objective tempDistance;
      hv_loop fuel0 fuel' objective rec front3 n' (volume + tempVolume * (tempDistance - distance)) tempDistance
    else Ok (front, volume)
  end.
(** hypervol.c:169-173 *)
Definition small (front : list point) (nn : nat) : res (list point * R) :=
  if (nn <? 1)%nat then Stopped else do p <- get front 0; do x <- get p 0; Ok (front, x).
(** hypervol.c:154-183; with no objective the index [noObjectives - 1] is negative *)
Fixpoint CalculateHypervolume (fuel : nat) (noObjectives : nat) (front : list point) (n : nat) : res (list point * R) :=
  match noObjectives with
  | O => if (0 <? n)%nat then UB else Ok (front, 0)
  | S o => hv_loop fuel fuel o (if (noObjectives <? 3)%nat then small else CalculateHypervolume fuel o) front n 0 0
  end.

(** stat/hyper_volume.hpp:73-77: one observation shifted by the parameter [ref] *)
Definition shifted (ref obs : point) : res point :=
  (fix go (r o : point) : res point :=
     match o, r with [] , _ => Ok [] | _ :: _, [] => UB | y :: o', x :: r' => do t <- go r' o'; Ok (y + x :: t) end) ref obs.
(** stat/hyper_volume.hpp:72-78: all observations *)
Fixpoint shift_all (ref : point) (obs : list point) : res (list point) :=
  match obs with [] => Ok [] | o :: l => do p <- shifted ref o; do t <- shift_all ref l; Ok (p :: t) end.
(** stat/hyper_volume.hpp:65-86: the value logged, if any *)
Definition hyper_volume (fuel : nat) (stats_enabled : bool) (ref : point) (observations : list point) : res (option R) :=
  match observations with
  | [] => Ok None
  | o :: _ =>
    if negb stats_enabled then Ok None
    else do data <- shift_all ref observations;
         do (data', n) <- FilterNondominatedSet fuel data (length observations) (length o);
         do (_, hv) <- CalculateHypervolume fuel (length o) data' n;
         Ok (Some hv)
  end.
