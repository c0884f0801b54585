(** Model of the stack of optimizers that BOptimizer runs on the acquisition function (template arguments of
    /repo/src/limbo/bayes_opt/boptimizer.hpp:114-160), bounded calls only: a relation between the start and every result,
    over all random draws, schedules and behaviours of the external libraries. *)
From Coq Require Import ZArith List Bool.
From Coq Require Import Floats.SpecFloat.
From Verif Require Import F64 F64R OptSpec OptModel NloptModel.
Import ListNotations.

(** the optimizers of /repo/src/limbo/opt with their parameters *)
Inductive aopt : Type :=
| ARandomPoint
| AGridSearch (bins : Z)
| ARprop (iterations : Z) (eps_stop : F)
| AAdam (iterations : Z) (b1 b2 alpha stop : F)
| AGradientAscent (iterations : Z) (gamma alpha stop : F) (nesterov : bool)
| ANlopt (iterations : Z) (ftol xtol : F)
| ACmaes (stochastic handle_uncertainty : bool)
| AThen (o o' : aopt)                                     (* Chained<O, Os...>: O, then Chained<Os...> *)
| ARepeater (repeats : nat) (epsilon : F) (o : aopt).

(** a vector, or a failure: assertion, exception, uninitialised vector, undefined behaviour *)
Inductive ares : Type := AVec (v : vec) | AFail.
Definition of_run {A} (r : option (vec * A)) : ares := match r with Some (v, _) => AVec v | None => AFail end.
Definition of_gres (r : gres) : ares := match r with GVec v => AVec v | _ => AFail end.
Definition of_wres (r : wres) : ares := match r with WRet v => AVec v | _ => AFail end.

(** tools/random_generator.hpp:124-128: a random vector of [0,1]^d *)
Definition drawn (d : nat) (v : vec) : Prop := length v = d /\ Forall (fun x => fvalid x /\ in_unit x) v.

Section Run.
Context {W : Type}.
Variable norm : vec -> F.
Variable nl_optimize : nl -> (vec -> option vec -> cbres) -> W -> vec -> nstatus * vec * W.
Variables (geno pheno : F -> F -> vec -> vec).
Variable cmaes : bool -> (vec -> F) -> W -> vec -> vec * vec * W.

(** an NLOpt optimizer object after some bounded calls with starts of dimension [d] (boptimizer.hpp:148: one object for
    all the iterations of a call of optimize()) *)
Inductive nl_used (iterations : Z) (ftol xtol : F) (d : nat) : option nl -> Prop :=
| used_new : nl_used iterations ftol xtol d None
| used_call o f w init r rq o' w' : nl_used iterations ftol xtol d o -> length init = d ->
    nlopt_call nl_optimize iterations ftol xtol o f w init true = (r, rq, o', w') -> nl_used iterations ftol xtol d o'.

(** [Optimizer()(f, init, true)] may give this result *)
Inductive arun (f : vec -> bool -> F * option vec) : aopt -> vec -> ares -> Prop :=
| run_random init v : drawn (length init) v -> arun f ARandomPoint init (AVec v)
| run_grid bins init fuel xs : grid_search_xs fuel bins = Some xs ->
    arun f (AGridSearch bins) init (of_gres (grid_search (fun x => fst (f x false)) xs (length init)))
| run_rprop it eps init : arun f (ARprop it eps) init (of_run (rprop (fun _ x => f x true) norm eps true it init))
| run_adam it b1 b2 alpha stop init : arun f (AAdam it b1 b2 alpha stop) init (of_run (adam (fun _ x => f x true) norm b1 b2 alpha stop true it init))
| run_ga it gamma alpha stop nesterov init :
    arun f (AGradientAscent it gamma alpha stop nesterov) init (of_run (gradient_ascent (fun _ x => f x true) norm gamma alpha stop nesterov true it init))
| run_nlopt it ftol xtol init o w r rq o' w' : nl_used it ftol xtol (length init) o ->
    nlopt_call nl_optimize it ftol xtol o f w init true = (r, rq, o', w') -> arun f (ANlopt it ftol xtol) init (of_wres r)
| run_cmaes st hu init w x w' : cmaes_call geno pheno cmaes f0 f1 st hu f w init true = (x, w') -> arun f (ACmaes st hu) init (AVec x)
| run_then o o' init x r : arun f o init (AVec x) -> arun f o' x r -> arun f (AThen o o') init r
| run_then_fail o o' init : arun f o init AFail -> arun f (AThen o o') init AFail
| run_repeater repeats eps o init rand opt r :
    (forall i, (i < repeats)%nat -> drawn (length init) (rand i)) ->
    (forall i, (i < repeats)%nat -> arun f o (repeater_start eps rand init i) (AVec (opt i (repeater_start eps rand init i)))) ->
    repeater (fun x => fst (f x false)) opt eps rand init repeats r -> arun f (ARepeater repeats eps o) init (AVec r)
| run_repeater_fail repeats eps o init rand i :
    (i < repeats)%nat -> drawn (length init) (rand i) -> arun f o (repeater_start eps rand init i) AFail -> arun f (ARepeater repeats eps o) init AFail.

(** boptimizer.hpp:152-156: the acquisition function of the model at this iteration, optimised from a random start of the
    unit box; [f] is whatever function the acquisition object is, among those with [P] *)
Definition acq_by {M} (P : (vec -> bool -> F * option vec) -> Prop) (o : aopt) (dim : nat) (acq : W -> M -> Z -> vec * W) : Prop :=
  forall w m i, exists f start, P f /\ drawn dim start /\ arun f o start (AVec (fst (acq w m i))).
End Run.
