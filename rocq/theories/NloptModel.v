(** Model of the bindings to external optimizers: /repo/src/limbo/opt/{nlopt_base,nlopt_no_grad,nlopt_grad,cmaes}.hpp.
    The libraries are parameters: one call of [nlopt::opt::optimize] and one run of [libcmaes::cmaes<>] are arbitrary
    functions of the object, the callback, the world and the start.  The constraints of nlopt_base.hpp:115-133, messages
    and the progress functions of cmaes.hpp are left out. *)
From Coq Require Import ZArith List Bool.
From Coq Require Import Floats.SpecFloat.
From Verif Require Import F64.
Import ListNotations.
Open Scope Z_scope.

(** ** NLOpt *)
(** nlopt::opt: dimension, bounds ([None]: the initial infinite ones), stopping parameters *)
Record nl := mkNl { nl_dim : nat; nl_lb : option vec; nl_ub : option vec; nl_maxeval : Z; nl_ftol : F; nl_xtol : F }.
(** exceptions of NLOpt's C++ interface, or thrown by the objective and passed on by it *)
Inductive nexn := RoundoffLimited | InvalidArgument | RuntimeError | OtherException.
Inductive nstatus := Finished | Raised (e : nexn).

(** result of the callback: value and gradient buffer afterwards, a failed assertion, a write behind the buffer *)
Inductive cbres := CbOk (v : F) (grad : option vec) | CbAssert | CbUB.
(** nlopt_base.hpp:139-155 [nlopt_func]; [grad = None] is the empty vector; opt/optimizer.hpp:66-109 *)
Definition nlopt_func (f : vec -> bool -> F * option vec) (x : vec) (grad : option vec) : cbres :=
  match grad with
  | None => CbOk (fst (f x false)) None
  | Some buf =>
      match f x true with
      | (_, None) => CbAssert
      | (v, Some g) => if (length buf <? length g)%nat then CbUB else CbOk v (Some (g ++ skipn (length g) buf))
      end
  end.

(** what the caller of [operator()] gets *)
Inductive wres := WRet (x : vec) | WThrow (e : nexn) | WUB.
(** ghost: what NLOpt was asked: maximise this callback with this object from this start *)
Record request := mkReq { r_opt : nl; r_cb : vec -> option vec -> cbres; r_start : vec }.

Section Nlopt.
Context {W : Type}.
Variable nl_optimize : nl -> (vec -> option vec -> cbres) -> W -> vec -> nstatus * vec * W.
(** Params: iterations, fun_tolerance, xrel_tolerance *)
Variables (iterations : Z) (ftol xtol : F).

(** nlopt_base.hpp:72-76, nlopt_no_grad.hpp:128-132, nlopt_grad.hpp:124-128 *)
Definition nl_init (dim : nat) : nl := mkNl dim None None iterations ftol xtol.
(** nlopt_base.hpp:78-113; [o]: the member [_opt], [None] while not [_initialized]; [&x[0]] needs a non-empty vector;
    the setters of the bounds throw when the size differs *)
Definition nlopt_call (o : option nl) (f : vec -> bool -> F * option vec) (w : W) (init : vec) (bounded : bool)
    : wres * option request * option nl * W :=
  let dim := length init in
  let o1 := match o with Some o1 => o1 | None => nl_init dim end in
  match init with
  | [] => (WUB, None, Some o1, w)
  | _ =>
    if bounded && negb (dim =? nl_dim o1)%nat then (WThrow InvalidArgument, None, Some o1, w)
    else
      let o2 := if bounded then mkNl (nl_dim o1) (Some (repeat f0 dim)) (Some (repeat f1 dim)) (nl_maxeval o1) (nl_ftol o1) (nl_xtol o1) else o1 in
      let '(st, x, w') := nl_optimize o2 (nlopt_func f) w init in
      let rq := Some (mkReq o2 (nlopt_func f) init) in
      match st with
      | Raised OtherException => (WThrow OtherException, rq, Some o2, w')
      | _ => (WRet x, rq, Some o2, w')
      end
  end.

(** calls of one object one after the other *)
Record call := mkCall { c_f : vec -> bool -> F * option vec; c_init : vec; c_bounded : bool }.
Fixpoint nlopt_calls (o : option nl) (w : W) (cs : list call) : list (wres * option request) :=
  match cs with
  | [] => []
  | c :: r => let '(x, rq, o', w') := nlopt_call o (c_f c) w (c_init c) (c_bounded c) in (x, rq) :: nlopt_calls o' w' r
  end.
End Nlopt.

(** ** CMA-ES *)
Section Cmaes.
Context {W : Type}.
(** libcmaes: genotype and phenotype for given bounds; a run from a genotype: mean and best candidate, as genotypes *)
Variables (geno pheno : F -> F -> vec -> vec).
Variable cmaes : bool -> (vec -> F) -> W -> vec -> vec * vec * W.
(** Params::opt_cmaes: lbound, ubound, stochastic, handle_uncertainty *)
Variables (lbound ubound : F) (stochastic handle_uncertainty : bool).
(** cmaes.hpp:171-186, 197-222, 225-262; the function given to the library is the negated objective, to be minimised *)
Definition cmaes_call (f : vec -> bool -> F * option vec) (w : W) (init : vec) (bounded : bool) : vec * W :=
  let f_cmaes := fun x => fopp (fst (f x false)) in
  let '(xmean, best, w') := cmaes bounded f_cmaes w (if bounded then geno lbound ubound init else init) in
  let x := if stochastic || handle_uncertainty then xmean else best in
  (if bounded then pheno lbound ubound x else x, w').

End Cmaes.

(** ** What libcmaes is told: cmaes.hpp:264-341 *)
(** the stopping criteria of libcmaes named in the code *)
Inductive crit := MAXFEVALS | MAXITER | AUTOMAXITER | TOLHISTFUN | FTARGET | EQUALFUNVALS | TOLX | CONDITIONCOV | TOLUPSIGMA | NOEFFECTAXIS
  | NOEFFECTCOOR | STAGNATION.
Definition crit_eqb (a b : crit) : bool :=
  match a, b with
  | MAXFEVALS, MAXFEVALS | MAXITER, MAXITER | AUTOMAXITER, AUTOMAXITER | TOLHISTFUN, TOLHISTFUN | FTARGET, FTARGET | EQUALFUNVALS, EQUALFUNVALS
  | TOLX, TOLX | CONDITIONCOV, CONDITIONCOV | TOLUPSIGMA, TOLUPSIGMA | NOEFFECTAXIS, NOEFFECTAXIS | NOEFFECTCOOR, NOEFFECTCOOR | STAGNATION, STAGNATION => true
  | _, _ => false
  end.
(** libcmaes::CMAParameters as far as the code sets it *)
Record cfg := mkCfg { g_mt : bool; g_algo : Z; g_restarts : Z; g_elitism : Z; g_max_fevals : Z; g_max_iter : Z; g_crit : crit -> bool;
  g_ftol : F; g_ftarget : F; g_xtol : F; g_initial : bool; g_uh : bool; g_quiet : bool }.
(** Params::opt_cmaes, cmaes.hpp:64-137 *)
Record cparams := mkCp { p_restarts : Z; p_max_fun_evals : Z; p_max_iters : Z; p_auto_max_iters : bool; p_equal_fun_evals : bool; p_stagnation : bool;
  p_fun_tolerance : F; p_xrel_tolerance : F; p_fun_target : F; p_initial : bool; p_variant : Z; p_elitism : Z; p_uh : bool; p_verbose : bool }.

(** cmaes.hpp:277-279, 284-286: the limits; [900.0 * (dim + 3.0) * (dim + 3.0)] is exact in double for dim below 3*10^6 *)
Definition cmaes_max_evals (max_fun_evals : Z) (dim : Z) : Z := if max_fun_evals <? 0 then 900 * (dim + 3) * (dim + 3) else max_fun_evals.
Definition cmaes_max_iters (max_iters : Z) : Z := if max_iters <? 0 then 1000000 else max_iters.

(** the setters of libcmaes *)
Definition set_mt b c := mkCfg b (g_algo c) (g_restarts c) (g_elitism c) (g_max_fevals c) (g_max_iter c) (g_crit c) (g_ftol c) (g_ftarget c) (g_xtol c) (g_initial c) (g_uh c) (g_quiet c).
Definition set_algo a c := mkCfg (g_mt c) a (g_restarts c) (g_elitism c) (g_max_fevals c) (g_max_iter c) (g_crit c) (g_ftol c) (g_ftarget c) (g_xtol c) (g_initial c) (g_uh c) (g_quiet c).
Definition set_restarts a c := mkCfg (g_mt c) (g_algo c) a (g_elitism c) (g_max_fevals c) (g_max_iter c) (g_crit c) (g_ftol c) (g_ftarget c) (g_xtol c) (g_initial c) (g_uh c) (g_quiet c).
Definition set_elitism a c := mkCfg (g_mt c) (g_algo c) (g_restarts c) a (g_max_fevals c) (g_max_iter c) (g_crit c) (g_ftol c) (g_ftarget c) (g_xtol c) (g_initial c) (g_uh c) (g_quiet c).
Definition set_max_fevals a c := mkCfg (g_mt c) (g_algo c) (g_restarts c) (g_elitism c) a (g_max_iter c) (g_crit c) (g_ftol c) (g_ftarget c) (g_xtol c) (g_initial c) (g_uh c) (g_quiet c).
Definition set_max_iter a c := mkCfg (g_mt c) (g_algo c) (g_restarts c) (g_elitism c) (g_max_fevals c) a (g_crit c) (g_ftol c) (g_ftarget c) (g_xtol c) (g_initial c) (g_uh c) (g_quiet c).
Definition set_crit k b c := mkCfg (g_mt c) (g_algo c) (g_restarts c) (g_elitism c) (g_max_fevals c) (g_max_iter c) (fun k' => if crit_eqb k' k then b else g_crit c k') (g_ftol c) (g_ftarget c) (g_xtol c) (g_initial c) (g_uh c) (g_quiet c).
Definition set_ftol a c := mkCfg (g_mt c) (g_algo c) (g_restarts c) (g_elitism c) (g_max_fevals c) (g_max_iter c) (g_crit c) a (g_ftarget c) (g_xtol c) (g_initial c) (g_uh c) (g_quiet c).
Definition set_ftarget a c := mkCfg (g_mt c) (g_algo c) (g_restarts c) (g_elitism c) (g_max_fevals c) (g_max_iter c) (g_crit c) (g_ftol c) a (g_xtol c) (g_initial c) (g_uh c) (g_quiet c).
Definition set_xtol a c := mkCfg (g_mt c) (g_algo c) (g_restarts c) (g_elitism c) (g_max_fevals c) (g_max_iter c) (g_crit c) (g_ftol c) (g_ftarget c) a (g_initial c) (g_uh c) (g_quiet c).
Definition set_initial b c := mkCfg (g_mt c) (g_algo c) (g_restarts c) (g_elitism c) (g_max_fevals c) (g_max_iter c) (g_crit c) (g_ftol c) (g_ftarget c) (g_xtol c) b (g_uh c) (g_quiet c).
Definition set_uh b c := mkCfg (g_mt c) (g_algo c) (g_restarts c) (g_elitism c) (g_max_fevals c) (g_max_iter c) (g_crit c) (g_ftol c) (g_ftarget c) (g_xtol c) (g_initial c) b (g_quiet c).
Definition set_quiet b c := mkCfg (g_mt c) (g_algo c) (g_restarts c) (g_elitism c) (g_max_fevals c) (g_max_iter c) (g_crit c) (g_ftol c) (g_ftarget c) (g_xtol c) (g_initial c) (g_uh c) b.

(** cmaes.hpp:264-344 [_set_common_params]; [c]: the object as constructed *)
Definition set_common_params (P : cparams) (dim : Z) (c : cfg) : cfg :=
  let c := set_mt true c in
  let c := set_algo (p_variant P) c in
  let c := set_restarts (p_restarts P) c in
  let c := set_elitism (p_elitism P) c in
  let c := set_max_fevals (cmaes_max_evals (p_max_fun_evals P) dim) c in
  let c := set_crit MAXFEVALS true c in
  let c := set_max_iter (cmaes_max_iters (p_max_iters P)) c in
  let c := set_crit MAXITER true c in
  let c := set_crit AUTOMAXITER (p_auto_max_iters P) c in
  let c := if flt (p_fun_tolerance P) f0 then set_crit TOLHISTFUN false c
           else set_ftol (p_fun_tolerance P) (set_crit TOLHISTFUN true c) in
  let c := if flt f0 (p_fun_target P) then set_ftarget (fopp (p_fun_target P)) (set_crit FTARGET true c)
           else set_crit FTARGET false c in
  let c := set_crit EQUALFUNVALS (p_equal_fun_evals P) c in
  let c := if flt f0 (p_xrel_tolerance P) then set_xtol (p_xrel_tolerance P) (set_crit TOLX true c)
           else set_crit TOLX false c in
  let c := set_crit CONDITIONCOV true c in
  let c := set_crit TOLUPSIGMA true c in
  let c := set_crit NOEFFECTAXIS false c in
  let c := set_crit NOEFFECTCOOR false c in
  let c := set_crit STAGNATION (p_stagnation P) c in
  let c := set_initial (p_initial P) c in
  let c := set_uh (p_uh P) c in
  set_quiet (negb (p_verbose P)) c.

(** cmaes.hpp:171-262: a call with the parameters given to the library; [run] is the library; [c0] the object as constructed
    with the start, sigma and lambda *)
Definition cmaes_with {W} geno pheno (run : cfg -> bool -> (vec -> F) -> W -> vec -> vec * vec * W) (c0 : cfg) (P : cparams) lbound ubound stochastic
    (f : vec -> bool -> F * option vec) (w : W) (init : vec) (bounded : bool) : vec * W :=
  cmaes_call geno pheno (run (set_common_params P (Z.of_nat (length init)) c0)) lbound ubound stochastic (p_uh P) f w init bounded.
