(** Model of [tools::par::loop] (/repo/src/limbo/tools/parallel.hpp:137-151) at the level of single memory
    accesses.  With TBB the iterations are run by several threads at once.  The scheduler is arbitrary: at each
    moment any iteration that is not finished may do its next access.  Without TBB (lines 147-148) the
    iterations run one after the other, which is one of these schedules.

    Simplified: memory is sequentially consistent (C++ promises this for programs without data races, and a data
    race is an undefined outcome here), a loop uses at most one mutex, the iterations start no further threads. *)
From Coq Require Import List Bool Arith.
Import ListNotations.

(** what one iteration does next: [Stop false] stands for undefined behaviour inside the iteration,
    [Lock] and [Unlock] act on the mutex of the loop (sparsified_gp.hpp:131,149,154) *)
Inductive task (L V : Type) :=
| Stop (ok : bool)
| Rd (l : L) (k : V -> task L V)
| Wr (l : L) (v : V) (k : task L V)
| Lock (k : task L V)
| Unlock (k : task L V).
Arguments Stop {L V}. Arguments Rd {L V}. Arguments Wr {L V}. Arguments Lock {L V}. Arguments Unlock {L V}.

(** [f] with [f a] replaced *)
Definition upd {A B} (dec : forall x y : A, {x = y} + {x <> y}) (f : A -> B) (a : A) (b : B) : A -> B :=
  fun x => if dec x a then b else f x.

Section Loop.
Variables (L V : Type) (dec : forall x y : L, {x = y} + {x <> y}).

(** memory, owner of the mutex, what is left of each iteration *)
Record st := { mem : L -> V; lk : option nat; pool : nat -> task L V }.

(** next access of iteration [i]; [None]: it is finished, waits for the mutex, or the access is undefined *)
Definition step (n i : nat) (s : st) : option st :=
  if (i <? n)%nat then
    match pool s i with
    | Stop _ => None
    | Rd l k => Some {| mem := mem s; lk := lk s; pool := upd Nat.eq_dec (pool s) i (k (mem s l)) |}
    | Wr l v k => Some {| mem := upd dec (mem s) l v; lk := lk s; pool := upd Nat.eq_dec (pool s) i k |}
    | Lock k =>
        match lk s with
        | None => Some {| mem := mem s; lk := Some i; pool := upd Nat.eq_dec (pool s) i k |}
        | Some _ => None
        end
    | Unlock k =>
        match lk s with
        | Some j => if (j =? i)%nat then Some {| mem := mem s; lk := None; pool := upd Nat.eq_dec (pool s) i k |} else None
        | None => None
        end
    end
  else None.

(** the accesses in the order of the schedule *)
Fixpoint run (n : nat) (sched : list nat) (s : st) : option st :=
  match sched with
  | [] => Some s
  | i :: r => match step n i s with Some s' => run n r s' | None => None end
  end.

(** the next accesses of two iterations touch the same location, one of them writes: a data race
    (C++ [intro.races]) *)
Definition conflict (t u : task L V) : Prop :=
  match t, u with
  | Rd l _, Wr l' _ _ | Wr l _ _, Rd l' _ | Wr l _ _, Wr l' _ _ => l = l'
  | _, _ => False
  end.

(** undefined behaviour: inside an iteration, a data race, a mutex locked again by its owner or unlocked by
    another ([thread.mutex.class]) *)
Definition undefined (n : nat) (s : st) : Prop :=
  (exists i, (i < n)%nat /\
    match pool s i with
    | Stop ok => ok = false
    | Lock _ => lk s = Some i
    | Unlock _ => lk s <> Some i
    | _ => False
    end) \/
  (exists i j, (i < n)%nat /\ (j < n)%nat /\ i <> j /\ conflict (pool s i) (pool s j)).

(** all iterations have returned *)
Definition finished (n : nat) (s : st) : Prop := forall i, (i < n)%nat -> pool s i = Stop true.

Inductive result := Finish (m : L -> V) | Undef | Deadlock.

(** parallel.hpp:140-145: the outcomes of the loop over [0, n) *)
Definition par_loop (n : nat) (body : nat -> task L V) (m : L -> V) (r : result) : Prop :=
  exists sched s, run n sched {| mem := m; lk := None; pool := body |} = Some s /\
  match r with
  | Finish m' => finished n s /\ m' = mem s
  | Undef => undefined n s
  | Deadlock => ~ finished n s /\ ~ undefined n s /\ forall i, step n i s = None
  end.

(** an iteration alone *)
Fixpoint exec (t : task L V) (m : L -> V) : (L -> V) * bool :=
  match t with
  | Stop ok => (m, ok)
  | Rd l k => exec (k (m l)) m
  | Wr l v k => exec k (upd dec m l v)
  | Lock k | Unlock k => exec k m
  end.

(** parallel.hpp:147-148 generalised: the iterations one after the other, in the order [order] *)
Fixpoint seq_loop (order : list nat) (body : nat -> task L V) (m : L -> V) : result :=
  match order with
  | [] => Finish m
  | i :: r => let (m', ok) := exec (body i) m in if ok then seq_loop r body m' else Undef
  end.
End Loop.
Arguments mem {L V}. Arguments lk {L V}. Arguments pool {L V}.
Arguments Finish {L V}. Arguments Undef {L V}. Arguments Deadlock {L V}.
Arguments step {L V}. Arguments run {L V}. Arguments conflict {L V}. Arguments undefined {L V}.
Arguments finished {L V}. Arguments par_loop {L V}. Arguments exec {L V}. Arguments seq_loop {L V}.

(** * How a loop of limbo uses memory *)
(** [Shared]: only read; [Private i]: only touched by iteration [i]; [Guarded]: only touched under the mutex *)
Inductive owner := Shared | Private (i : nat) | Guarded.
(** before, inside, after the critical section *)
Inductive phase := Before | Inside | After.

Definition may_read (i : nat) (p : phase) (o : owner) : Prop :=
  o = Shared \/ o = Private i \/ (o = Guarded /\ p = Inside).
Definition may_write (i : nat) (p : phase) (o : owner) : Prop :=
  o = Private i \/ (o = Guarded /\ p = Inside).

(** the accesses of an iteration, whatever it reads, respect the owners; one critical section at most, left
    before the iteration ends *)
Inductive respects {L V} (own : L -> owner) (i : nat) : phase -> task L V -> Prop :=
| r_stop p ok : p <> Inside -> respects own i p (Stop ok)
| r_rd p l k : may_read i p (own l) -> (forall v, respects own i p (k v)) -> respects own i p (Rd l k)
| r_wr p l v k : may_write i p (own l) -> respects own i p k -> respects own i p (Wr l v k)
| r_lock k : respects own i Inside k -> respects own i Before (Lock k)
| r_unlock k : respects own i After k -> respects own i Inside (Unlock k).
