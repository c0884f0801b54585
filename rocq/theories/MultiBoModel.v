(** Model of the multi-objective optimizers: /repo/src/limbo/experimental/bayes_opt/bo_multi.hpp, ehvi.hpp and nsbo.hpp,
    with /repo/src/limbo/experimental/stat/pareto_front.hpp, on top of [BOModel] (bo_base.hpp).

    External parts are parameters: the objective [sfun], the world [W], the criteria, the initial points (as in [BOModel]);
    the model class [G] (construction and [compute], deterministic); the acquisition function [acqui]; the runs of the inner
    optimizer [inner] (all starts of one parallel loop together); NSGA-II of the sferes library [nsga] ([None]: compiled
    without USE_SFERES).  Calls of [compute] that violate its assertions, and accesses out of range, are undefined
    ([UninitRead] of [BOModel]).  The output on std::cout is not modelled. *)
From Coq Require Import ZArith List Bool Permutation.
From Verif Require Import F64 OptModel ParetoModel BOModel.
Import ListNotations.
Open Scope Z_scope.

(** bo_multi.hpp:161 [pareto_point_t]: point, objectives, sigma *)
Definition ppoint : Type := (vec * vec * vec)%type.
Definition p_point (p : ppoint) : vec := fst (fst p).
Definition p_objs (p : ppoint) : vec := snd (fst p).
Definition p_sigma (p : ppoint) : vec := snd p.

(** bo_multi.hpp:216-218 *)
Record multi (G : Type) : Type := mkMulti { models : list G; pmodel : list ppoint; pdata : list ppoint }.
Arguments mkMulti {G} _ _ _. Arguments models {G} _. Arguments pmodel {G} _. Arguments pdata {G} _.

(** bo_multi.hpp:220-231 [_pack_data] (the iterations of the parallel loop write to different elements) *)
Definition pack_data (points objs sigma : list vec) : option (list ppoint) :=
  if (length points =? length objs)%nat && (length sigma =? length objs)%nat
  then Some (combine (combine points objs) sigma) else None.

(** bo_multi.hpp:173-180 [update_pareto_data] and stat/pareto_front.hpp:77-84 [_pareto_data], where the vectors of zeros
    have another length ([dim]); [None]: [_observations[0]] out of range or failed assertion *)
Definition packed (dim : nat) (samples observations : list vec) : option (list ppoint) :=
  pack_data samples observations (repeat (repeat f0 dim) (length samples)).
Definition pareto_data_of (samples observations : list vec) (r : outcome (list ppoint)) : Prop :=
  match observations with
  | [] => r = UB
  | o :: _ => match packed (length o) samples observations with
              | None => r = UB
              | Some p => pareto_set p_objs p r
              end
  end.
(** stat/pareto_front.hpp:62-73: the rows written, if any *)
Definition pareto_front_stat (stats_enabled : bool) (samples observations : list vec) (r : outcome (list (vec * vec))) : Prop :=
  if negb stats_enabled || (match observations with [] => true | _ => false end) then r = Val []
  else match packed (length observations) samples observations with
       | None => r = UB
       | Some p => exists q, pareto_set p_objs p q /\
                     r = match q with UB => UB | Val l => Val (map (fun x => (p_point x, p_objs x)) l) end
       end.

Section Multi.
  Context {W G E : Type}.
  Variable sfun : W -> vec -> (vec + E) * W.
  (** [model_t(dim, 1)] and [compute(samples, observations)] *)
  Variable g_new : nat -> G.
  Variable g_compute : G -> list vec -> list vec -> G.
  (** [acqui::Ehvi(models, pop, ref)(x)]; [pop]: the first two objectives of the Pareto data *)
  Variable acqui : list G -> list (F * F) -> vec -> F.
  Variable inner : W -> (vec -> F) -> list vec -> list vec * W.
  Variable nsga : option (W -> list G -> list ppoint * W).
  (** rand(): the index drawn among [n] (nsbo.hpp:83) *)
  Variable rand_mod : nat -> W -> nat * W.
  Variable init_n : nat.
  Variable init_pt : nat -> W -> vec * W.

  Notation st := (bo W (multi G) E).
  Notation res := (result W (multi G) E).

  (** bo_multi.hpp:236-239: column [j] *)
  Definition uni_obs (observations : list vec) (j : nat) : list vec :=
    flat_map (fun o => match nth_error o j with Some v => [[v]] | None => [] end) observations.
  (** bo_multi.hpp:233-245 [_update_models]; [None]: an access out of range or a failed assertion of [compute] *)
  Definition update_models (samples observations : list vec) : option (list G) :=
    match samples, observations with
    | x :: _, o0 :: _ =>
        if existsb (fun o => (length o0 <? length o)%nat) observations then None
        else let cols := map (uni_obs observations) (seq 0 (length o0)) in
             if forallb (fun u => (length u =? length samples)%nat) cols
             then Some (map (g_compute (g_new (length x)) samples) cols) else None
    | _, _ => None
    end.
  (** bo_multi.hpp:183-213 [update_pareto_model] *)
  Definition update_pareto_model (s : st) : option st :=
    match update_models (samples s) (observations s) with
    | None => None
    | Some ms =>
        match nsga with
        | None => Some (set_model s (mkMulti ms (pmodel (model s)) (pdata (model s))))
        | Some ea => let '(front, w) := ea (world s) ms in
                     Some (set_model (set_world s w) (mkMulti ms front (pdata (model s))))
        end
    end.

  (** ehvi.hpp:114-121: [f(0)] and [f(1)]; [None]: fewer than two objectives *)
  Fixpoint pop_of (front : list ppoint) : option (list (F * F)) :=
    match front with
    | [] => Some []
    | p :: l => match p_objs p, pop_of l with
                | a :: b :: _, Some r => Some ((a, b) :: r)
                | _, _ => None
                end
    end.
  (** ehvi.hpp:129 *)
  Definition ehvi_init : vec * F := ([f0], f_float_lowest).
  (** ehvi.hpp:143-145 *)
  Definition ehvi_comp (v1 v2 : vec * F) : bool := flt (snd v2) (snd v1).
  (** ehvi.hpp:131-141, given the results of the inner optimizer *)
  Definition ehvi_body (acq : vec -> F) (props : list vec) (i : nat) : vec * F := let s := nth i props [] in (s, acq s).

  (** end of an iteration, common to both optimizers (ehvi.hpp:157-160, nsbo.hpp:86-95) *)
  Definition finish (c : Z) (x : vec) (s : st) : res :=
    match eval_and_add sfun s x with
    | Ret s2 => let s3 := log s2 (EvStat (samples s2) (observations s2) (model s2) (tot s2)) in
                Ret (set_tot (set_cur s3 (c + 1)) (tot s3 + 1))
    | r => r
    end.
  (** ehvi.hpp:110-160: one iteration *)
  Definition ehvi_iteration (c : Z) (s : st) (r : res) : Prop :=
    match update_pareto_model s with
    | None => r = UninitRead
    | Some s1 =>
        exists q, pareto_data_of (samples s1) (observations s1) q /\
        match q with
        | UB => r = UninitRead
        | Val front =>
            let m := mkMulti (models (model s1)) (pmodel (model s1)) front in
            let s2 := set_model s1 m in
            match pop_of front with
            | None => r = UninitRead
            | Some pop =>
                let acq := acqui (models m) pop in
                let '(props, w) := inner (world s2) acq (map p_point front) in
                exists best, par_max_tbb ehvi_comp (ehvi_body acq props) ehvi_init (length front) best /\
                  r = finish c (fst best) (log (set_world s2 w) (EvAcq (samples s2) (observations s2) m c (fst best)))
            end
        end
    end.
  (** nsbo.hpp:75-95: one iteration *)
  Definition nsbo_iteration (c : Z) (s : st) (r : res) : Prop :=
    match update_pareto_model s with
    | None => r = UninitRead
    | Some s1 =>
        exists q, pareto_set p_sigma (pmodel (model s1)) q /\
        match q with
        | UB => r = UninitRead
        | Val front =>
            let '(k, w) := rand_mod (length front) (world s1) in
            match nth_error front k with
            | Some best =>
                let x := p_point best in
                r = match finish c x (log (set_world s1 w) (EvAcq (samples s1) (observations s1) (model s1) c x)) with
                    | Ret s' => match models (model s1) with _ :: _ :: _ => Ret s' | _ => UninitRead end (* _models[1], line 90 *)
                    | r' => r'
                    end
            | None => r = UninitRead
            end
        end
    end.
  (** ehvi.hpp:109-161 and nsbo.hpp:74-96: without samples the criteria are not consulted *)
  Fixpoint mloop (iteration : Z -> st -> res -> Prop) (cs : list (@criterion W (multi G) E)) (fuel : nat) (s : st) (r : res) : Prop :=
    match fuel with
    | O => r = Running s
    | S fuel' =>
        match cur s with
        | None => r = UninitRead
        | Some c =>
            let continue s0 := exists r1, iteration c s0 r1 /\
              match r1 with Ret s' => mloop iteration cs fuel' s' r | _ => r = r1 end in
            match samples s with
            | [] => continue s
            | _ => let '(b, w) := stop_now cs s in
                   let s0 := log (set_world s w) (EvStop (samples s) (observations s) (model s) c b) in
                   if b then r = Ret s0 else continue s0
            end
        end
    end.
  (** ehvi.hpp:103-162, nsbo.hpp:70-97 *)
  Definition moptimize (iteration : Z -> st -> res -> Prop) (cs : list (@criterion W (multi G) E)) (fuel : nat) (reset : bool) (s : st) (r : res) : Prop :=
    match init_phase sfun init_n init_pt reset s with
    | Ret s1 => mloop iteration cs fuel s1 r
    | r1 => r = r1
    end.
  Definition ehvi_optimize := moptimize ehvi_iteration.
  Definition nsbo_optimize := moptimize nsbo_iteration.
End Multi.
