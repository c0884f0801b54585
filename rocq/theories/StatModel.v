(** Model of the statistics functors that write the log files (src/limbo/stat).
    A log file is the list of its lines; the text formatting of the numbers is not modelled.
    Each functor is called once per iteration by [BoBase::_update_stats] (bo_base.hpp:250-254),
    which the model of the loop records as the event [EvStat xs ys m tot] carrying what the
    functor can read: samples(), observations(), the model and total_iterations().
    [stats_enabled()] is taken to be true (when it is false nothing is written). *)
From Coq Require Import ZArith List Bool.
From Verif Require Import F64 BOModel.
Import ListNotations.
Open Scope Z_scope.

(** one line: the "#..." header, or a label and a value *)
Inductive row (A : Type) : Type :=
| Header : row A
| Row : Z -> A -> row A.
Arguments Header {A}. Arguments Row {A} _ _.

(** the loop [for i < size() - 1] over everything but the last element, and [back()] *)
Fixpoint but_last {A} (l : list A) : list A :=
  match l with
  | [] => []
  | [_] => []
  | a :: r => a :: but_last r
  end.
Fixpoint back {A} (l : list A) : option A :=
  match l with
  | [] => None
  | [a] => Some a
  | _ :: r => back r
  end.

(** stat/samples.hpp:58-73, stat/observations.hpp:58-73 and
    stat/aggregated_observations.hpp:60-75 (there [l] is mapped through [afun] before);
    [None] as a value would be the undefined behaviour of [back()] on an empty vector,
    excluded by the test on emptiness *)
Definition stat_list {A} (l : list A) (tot : Z) : list (row (option A)) :=
  match l with
  | [] => []
  | _ =>
    (if tot =? 0 then Header :: map (fun a => Row (-1) (Some a)) (but_last l) else [])
    ++ [Row tot (back l)]
  end.

(** stat/best_observations.hpp:58-70, with boptimizer.hpp:174-180 *)
Definition stat_best_observation (afun : vec -> F) (ys : list vec) (tot : Z) : list (row (option vec)) :=
  match ys with
  | [] => []
  | _ => (if tot =? 0 then [Header] else [])
         ++ [Row tot (nth_error ys (max_element (map afun ys)))]
  end.

(** stat/best_aggregated_observations.hpp:60-72 *)
Definition stat_best_aggregated (afun : vec -> F) (ys : list vec) (tot : Z) : list (row (option F)) :=
  match ys with
  | [] => []
  | _ => (if tot =? 0 then [Header] else [])
         ++ [Row tot (option_map afun (nth_error ys (max_element (map afun ys))))]
  end.

(** stat/best_samples.hpp:57-69, with boptimizer.hpp:184-190 *)
Definition stat_best_sample (afun : vec -> F) (xs ys : list vec) (tot : Z) : list (row (option vec)) :=
  match xs with
  | [] => []
  | _ => (if tot =? 0 then [Header] else [])
         ++ [Row tot (nth_error xs (max_element (map afun ys)))]
  end.

(** the content of a log file after the events [tr]; stat_base.hpp:59-65: the stream is opened
    once and stays open, every call appends *)
Definition log_file {M E A} (f : list vec -> list vec -> Z -> list (row A)) (tr : list (event M E)) : list (row A) :=
  flat_map (fun e => match e with EvStat xs ys _ tot => f xs ys tot | _ => [] end) tr.

Definition samples_dat {M E} := @log_file M E (option vec) (fun xs _ t => stat_list xs t).
Definition observations_dat {M E} := @log_file M E (option vec) (fun _ ys t => stat_list ys t).
Definition aggregated_observations_dat {M E} (afun : vec -> F) :=
  @log_file M E (option F) (fun _ ys t => stat_list (map afun ys) t).
Definition best_observations_dat {M E} (afun : vec -> F) :=
  @log_file M E (option vec) (fun _ ys t => stat_best_observation afun ys t).
Definition best_aggregated_observations_dat {M E} (afun : vec -> F) :=
  @log_file M E (option F) (fun _ ys t => stat_best_aggregated afun ys t).
Definition best_samples_dat {M E} (afun : vec -> F) :=
  @log_file M E (option vec) (fun xs ys t => stat_best_sample afun xs ys t).
