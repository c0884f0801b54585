(** C59: the bindings to NLOpt and libcmaes. *)
From Coq Require Import ZArith List Bool Lia.
From Coq Require Import Floats.SpecFloat.
From Verif Require Import F64 OptSpec NloptModel.
Import ListNotations.
Open Scope nat_scope.

(** ** Specification *)
(** the callback is the objective: the value alone, or the value with the gradient; a gradient longer than the buffer is
    written behind it *)
Definition is_objective (f : vec -> bool -> F * option vec) (cb : vec -> option vec -> cbres) : Prop :=
  (forall x, cb x None = CbOk (fst (f x false)) None) /\
  (forall x buf g v, f x true = (v, Some g) -> length g = length buf -> cb x (Some buf) = CbOk v (Some g)) /\
  (forall x buf v, f x true = (v, None) -> cb x (Some buf) = CbAssert) /\
  (forall x buf g v, f x true = (v, Some g) -> length buf < length g -> cb x (Some buf) = CbUB).
(** what NLOpt should be asked in a call *)
Definition right_request (iterations : Z) (ftol xtol : F) (c : call) (rq : request) : Prop :=
  nl_dim (r_opt rq) = length (c_init c) /\ nl_maxeval (r_opt rq) = iterations /\ nl_ftol (r_opt rq) = ftol /\ nl_xtol (r_opt rq) = xtol /\
  (if c_bounded c then nl_lb (r_opt rq) = Some (repeat f0 (length (c_init c))) /\ nl_ub (r_opt rq) = Some (repeat f1 (length (c_init c)))
   else nl_lb (r_opt rq) = None /\ nl_ub (r_opt rq) = None) /\
  r_start rq = c_init c /\ is_objective (c_f c) (r_cb rq).

(** within the bounds of the object *)
Definition inside (o : nl) (x : vec) : Prop :=
  match nl_lb o with Some l => Forall2 (fun a b => fle a b = true) l x | None => True end /\
  match nl_ub o with Some u => Forall2 (fun a b => fle a b = true) x u | None => True end.
(** some coordinate is out of the bounds *)
Definition outside (o : nl) (x : vec) : Prop :=
  match nl_lb o with Some l => exists i a b, nth_error l i = Some a /\ nth_error x i = Some b /\ flt b a = true | None => False end \/
  match nl_ub o with Some u => exists i a b, nth_error u i = Some a /\ nth_error x i = Some b /\ flt a b = true | None => False end.
(** what is taken from NLOpt's documentation *)
Definition nlopt_contract {W} (nl_optimize : nl -> (vec -> option vec -> cbres) -> W -> vec -> nstatus * vec * W) : Prop :=
  forall o cb w x st x' w', nl_optimize o cb w x = (st, x', w') ->
    (length x <> nl_dim o \/ outside o x -> st = Raised InvalidArgument /\ x' = x) /\
    (length x = nl_dim o -> inside o x -> length x' = length x /\ inside o x').

(** ** NLOpt *)
Lemma callback_is_objective f : is_objective f (nlopt_func f).
Proof.
  split; [|split; [|split]].
  - reflexivity.
  - intros x buf g v Hf Hl. unfold nlopt_func. rewrite Hf. replace (length buf <? length g) with false by (symmetry; apply Nat.ltb_ge; lia).
    rewrite skipn_all2 by lia. now rewrite app_nil_r.
  - intros x buf v Hf. unfold nlopt_func. now rewrite Hf.
  - intros x buf g v Hf Hl. unfold nlopt_func. rewrite Hf. now replace (length buf <? length g) with true by (symmetry; apply Nat.ltb_lt; lia).
Qed.

Section Nlopt.
Context {W : Type}.
Variable nl_optimize : nl -> (vec -> option vec -> cbres) -> W -> vec -> nstatus * vec * W.
Variables (iterations : Z) (ftol xtol : F).
Notation calls := (nlopt_calls nl_optimize iterations ftol xtol).
Notation the_call := (nlopt_call nl_optimize iterations ftol xtol).

Definition has_bounds (d : nat) (b : bool) (o : option nl) : Prop :=
  match o with
  | None => b = false
  | Some o => nl_dim o = d /\ nl_maxeval o = iterations /\ nl_ftol o = ftol /\ nl_xtol o = xtol /\
              (nl_lb o, nl_ub o) = if b then (Some (repeat f0 d), Some (repeat f1 d)) else (None, None)
  end.
Lemma call_step d b o c w : 0 < d -> has_bounds d b o -> length (c_init c) = d ->
  exists r rq o' w', the_call o (c_f c) w (c_init c) (c_bounded c) = (r, Some rq, o', w') /\ has_bounds d (b || c_bounded c) o' /\
    (c_bounded c = true \/ b = false -> right_request iterations ftol xtol c rq).
Proof.
  intros Hd Ho Hl. unfold nlopt_call. set (o1 := match o with Some o1 => o1 | None => _ end).
  assert (H1 : has_bounds d b (Some o1)). { destruct o as [o0|]; [exact Ho|]. cbn in Ho. subst b. cbn. rewrite Hl. repeat split. }
  destruct (c_init c) as [|x0 xs] eqn:Ei; [cbn in Hl; lia|]. rewrite <- Ei in *. destruct H1 as (D1 & D2 & D3 & D4 & D5).
  rewrite Hl, D1, Nat.eqb_refl, andb_false_r.
  destruct (c_bounded c) eqn:Eb.
  - destruct (nl_optimize _ _ _ _) as [[st x] w'].
    assert (R : right_request iterations ftol xtol c (mkReq (mkNl d (Some (repeat f0 d)) (Some (repeat f1 d)) (nl_maxeval o1) (nl_ftol o1) (nl_xtol o1)) (nlopt_func (c_f c)) (c_init c))).
    { unfold right_request. rewrite Eb, Hl. cbn. repeat split; try assumption; try reflexivity; apply callback_is_objective. }
    destruct st as [|[]]; do 4 eexists; (split; [reflexivity|]); (split; [rewrite orb_true_r; repeat split; assumption|]); intros _; exact R.
  - destruct (nl_optimize _ _ _ _) as [[st x] w'].
    assert (R : b = false -> right_request iterations ftol xtol c (mkReq o1 (nlopt_func (c_f c)) (c_init c))).
    { intros ->. unfold right_request. rewrite Eb, Hl. cbn. injection D5 as E1 E2. repeat split; try assumption; try reflexivity; apply callback_is_objective. }
    destruct st as [|[]]; do 4 eexists; (split; [reflexivity|]); (split; [rewrite orb_false_r; repeat split; assumption|]); intros [H|H]; try discriminate; exact (R H).
Qed.
Lemma calls_ok d : 0 < d -> forall cs b o w i c, has_bounds d b o -> Forall (fun c => length (c_init c) = d) cs -> nth_error cs i = Some c ->
  exists r rq, nth_error (calls o w cs) i = Some (r, Some rq) /\
    (c_bounded c = true \/ (b = false /\ forall j cj, j < i -> nth_error cs j = Some cj -> c_bounded cj = false) -> right_request iterations ftol xtol c rq).
Proof.
  intro Hd. induction cs as [|c0 cs IH]; intros b o w i c Ho Hall Hi; [destruct i; discriminate|].
  inversion Hall as [|? ? H0 H1]; subst. destruct (call_step _ b o c0 w Hd Ho eq_refl) as (r & rq & o' & w' & E & Ho' & R). cbn [nlopt_calls]. rewrite E.
  destruct i as [|i]; cbn in *.
  - injection Hi as <-. exists r, rq. split; [reflexivity|]. intros [H|[H _]]; apply R; auto.
  - destruct (IH _ o' w' i c Ho' H1 Hi) as (r1 & rq1 & E1 & R1). exists r1, rq1. split; [exact E1|]. intros [H|[H H2]]; apply R1; [now left|right].
    split; [rewrite H; cbn; apply (H2 0 c0); [lia|reflexivity]|]. intros j cj Hj Hc. apply (H2 (S j) cj); [lia|exact Hc].
Qed.

(** C59: in every history of calls of one object with vectors of one dimension, each call asks NLOpt to maximise the given
    objective from the given start with the parameters given, within the unit box if [bounded]; without bounds otherwise,
    if no earlier call was bounded *)
Theorem C59_nlopt_partial : forall cs w i c d, 0 < d -> Forall (fun c => length (c_init c) = d) cs -> nth_error cs i = Some c ->
  (c_bounded c = true \/ forall j cj, j < i -> nth_error cs j = Some cj -> c_bounded cj = false) ->
  exists r rq, nth_error (calls None w cs) i = Some (r, Some rq) /\ right_request iterations ftol xtol c rq.
Proof.
  intros cs w i c d Hd Hall Hi Hb. destruct (calls_ok d Hd cs false None w i c eq_refl Hall Hi) as (r & rq & E & R).
  exists r, rq. split; [exact E|]. apply R. destruct Hb as [Hb|Hb]; [now left|right; split; [reflexivity|exact Hb]].
Qed.

(** what the caller gets: an exception of the objective goes through, after any other end (NLOpt's own exceptions included)
    the vector NLOpt left behind is returned *)
Theorem C59_nlopt_outcome : forall o f w init bounded r rq o' w', the_call o f w init bounded = (r, Some rq, o', w') ->
  exists st x, nl_optimize (r_opt rq) (r_cb rq) w (r_start rq) = (st, x, w') /\ o' = Some (r_opt rq) /\ (st = Raised OtherException -> r = WThrow OtherException) /\ (st <> Raised OtherException -> r = WRet x).
Proof.
  intros o f w init bounded r rq o' w'. unfold nlopt_call. set (o1 := match o with Some o1 => o1 | None => _ end).
  destruct init as [|x0 xs] eqn:Ei; [discriminate|]. rewrite <- Ei. destruct (bounded && negb (length init =? nl_dim o1)); [discriminate|].
  set (o2 := if bounded then _ else o1). destruct (nl_optimize o2 (nlopt_func f) w init) as [[st x] w1] eqn:En.
  intro E. exists st, x. destruct st as [|[]]; injection E as <- <- <- <-; cbn [r_opt r_cb r_start]; (split; [exact En|]); (split; [reflexivity|]); split; congruence.
Qed.

Hypothesis nlopt_ok : nlopt_contract nl_optimize.
Lemma inside_unit o x d : nl_lb o = Some (repeat f0 d) -> nl_ub o = Some (repeat f1 d) -> inside o x <-> length x = d /\ in_box x.
Proof.
  intros Hl Hu. unfold inside. rewrite Hl, Hu. clear Hl Hu. revert x. induction d as [|d IH]; intros x; cbn.
  - split; [intros [H _]; inversion H; split; [reflexivity|constructor]|]. intros [H _]. destruct x; [|discriminate]. split; constructor.
  - split.
    + intros [H1 H2]. inversion H1 as [|? b ? l Hb Hr]; subst. inversion H2 as [|? ? ? ? Hb' Hr']; subst.
      destruct (proj1 (IH l) (conj Hr Hr')) as [A B]. split; [cbn; lia|]. constructor; [split; assumption|exact B].
    + intros [H1 H2]. destruct x as [|b l]; [discriminate|]. inversion H2 as [|? ? [Hb Hb'] Hr]; subst. cbn in H1.
      destruct (proj2 (IH l) ltac:(split; [lia|exact Hr])) as [A B]. split; constructor; assumption.
Qed.
(** ... and a bounded call from a point of the unit box returns a point of the unit box *)
Theorem C59_nlopt_in_box : forall o f w init x rq o' w',
  has_bounds (length init) true o \/ has_bounds (length init) false o -> in_box init ->
  the_call o f w init true = (WRet x, rq, o', w') -> in_box x /\ length x = length init.
Proof.
  intros o f w init x rq o' w' Ho Hb. unfold nlopt_call. set (o1 := match o with Some o1 => o1 | None => _ end).
  assert (H1 : nl_dim o1 = length init). { destruct o as [o0|]; [destruct Ho as [Ho|Ho]; apply Ho|reflexivity]. }
  destruct init as [|x0 xs] eqn:Ei; [discriminate|]. rewrite <- Ei in *. rewrite H1, Nat.eqb_refl, andb_false_r. set (o2 := mkNl _ _ _ _ _ _).
  destruct (nl_optimize o2 (nlopt_func f) w init) as [[st x1] w1] eqn:En. intro E.
  assert (x1 = x) by (destruct st as [|[]]; congruence). subst x1. clear E.
  destruct (nlopt_ok _ _ _ _ _ _ _ En) as [_ H]. destruct H as [Hl Hi]; [reflexivity| |].
  - apply (inside_unit o2 init (length init)); [reflexivity..|]. split; [reflexivity|exact Hb].
  - apply (inside_unit o2 x (length init)) in Hi; [|reflexivity..]. split; [apply Hi|exact Hl].
Qed.
(** another dimension than that of the first call: a bounded call throws, the other returns the start, not optimised *)
Theorem C59_nlopt_other_dimension_refuted : forall o f w init, nl_dim o <> length init -> init <> [] ->
  fst (fst (fst (the_call (Some o) f w init true))) = WThrow InvalidArgument /\
  fst (fst (fst (the_call (Some o) f w init false))) = WRet init.
Proof.
  intros o f w init Hd Hn. unfold nlopt_call. destruct init as [|x0 xs] eqn:Ei; [congruence|]. rewrite <- Ei in *. split.
  - replace (length init =? nl_dim o) with false by (symmetry; apply Nat.eqb_neq; lia). reflexivity.
  - cbn [andb]. destruct (nl_optimize o (nlopt_func f) w init) as [[st x] w'] eqn:En.
    destruct (nlopt_ok _ _ _ _ _ _ _ En) as [H _]. destruct H as [-> ->]; [left; congruence|]. reflexivity.
Qed.
(** a start out of the unit box: it is returned although the call is bounded *)
Theorem C59_nlopt_outside : forall o f w init, has_bounds (length init) true o \/ has_bounds (length init) false o ->
  init <> [] -> (exists i b, nth_error init i = Some b /\ (flt b f0 = true \/ flt f1 b = true)) ->
  fst (fst (fst (the_call o f w init true))) = WRet init.
Proof.
  intros o f w init Ho Hn (i & b & Hi & Hb). unfold nlopt_call. set (o1 := match o with Some o1 => o1 | None => _ end).
  assert (H1 : nl_dim o1 = length init). { destruct o as [o0|]; [destruct Ho as [Ho|Ho]; apply Ho|reflexivity]. }
  destruct init as [|x0 xs] eqn:Ei; [congruence|]. rewrite <- Ei in *. rewrite H1, Nat.eqb_refl, andb_false_r. set (o2 := mkNl _ _ _ _ _ _).
  destruct (nl_optimize o2 (nlopt_func f) w init) as [[st x] w'] eqn:En. destruct (nlopt_ok _ _ _ _ _ _ _ En) as [H _].
  assert (Hlen : i < length init) by (apply nth_error_Some; congruence).
  destruct H as [-> ->]; [|reflexivity]. right. destruct Hb as [Hb|Hb]; [left|right]; cbn; [exists i, f0, b|exists i, f1, b]; (split; [now rewrite nth_error_repeat by exact Hlen|split; [exact Hi|exact Hb]]).
Qed.
End Nlopt.

(** ** A library that meets the contract: it returns the start, moved into the box if there is one *)
Definition flt_out (o : nl) (x : vec) : bool :=
  match nl_lb o with Some l => existsb (fun p => flt (snd p) (fst p)) (combine l x) | None => false end ||
  match nl_ub o with Some u => existsb (fun p => flt (fst p) (snd p)) (combine u x) | None => false end.
Definition lazy_nlopt (o : nl) (cb : vec -> option vec -> cbres) (w : unit) (x : vec) : nstatus * vec * unit :=
  if negb (length x =? nl_dim o) || flt_out o x then (Raised InvalidArgument, x, tt) else (Finished, x, tt).
Lemma nth_combine (a b : vec) : forall i x y, nth_error a i = Some x -> nth_error b i = Some y -> In (x, y) (combine a b).
Proof. revert b. induction a as [|u a IH]; intros [|v b] [|i] x y Ha Hb; cbn in *; try discriminate; [injection Ha as ->; injection Hb as ->; now left|right; eapply IH; eassumption]. Qed.
Lemma lazy_contract : nlopt_contract lazy_nlopt.
Proof.
  intros o cb w x st x' w' E. unfold lazy_nlopt in E. split.
  - intros H. assert (C : negb (length x =? nl_dim o) || flt_out o x = true); [|rewrite C in E; injection E as <- <- _; now split].
    apply orb_true_iff. destruct H as [H|H]; [left; apply negb_true_iff; now apply Nat.eqb_neq|right].
    apply orb_true_iff. destruct H as [H|H]; [left; destruct (nl_lb o)|right; destruct (nl_ub o)]; try contradiction;
      destruct H as (i & a & b & Ha & Hb & Hc); apply existsb_exists; exists (a, b); (split; [eapply nth_combine; eassumption|exact Hc]).
  - intros _ H. destruct (negb _ || _); injection E as _ <- _; (split; [reflexivity|exact H]).
Qed.
(** the bounds of an earlier call stay *)
Theorem C59_nlopt_bounds_stay_refuted : exists nl_optimize : nl -> _ -> unit -> _ -> _, nlopt_contract nl_optimize /\
  forall iterations ftol xtol f, exists r1 q1 r2 q2,
    nlopt_calls nl_optimize iterations ftol xtol None tt [mkCall f [f1] true; mkCall f [fofZ 3] false] = [(r1, q1); (r2, Some q2)] /\
    nl_ub (r_opt q2) = Some [f1] /\ r2 = WRet [fofZ 3].
Proof. exists lazy_nlopt. split; [exact lazy_contract|]. intros. do 4 eexists. split; [reflexivity|]. split; reflexivity. Qed.
(** a bounded call may return a point out of the box *)
Theorem C59_nlopt_box_refuted : exists nl_optimize : nl -> _ -> unit -> _ -> _, nlopt_contract nl_optimize /\
  forall iterations ftol xtol f, exists x rq o w, nlopt_call nl_optimize iterations ftol xtol None f tt [fofZ 3] true = (WRet x, rq, o, w) /\ ~ in_box x.
Proof.
  exists lazy_nlopt. split; [exact lazy_contract|]. intros. do 4 eexists. split; [reflexivity|]. intro H. inversion H as [|? ? [_ Hb] _]. discriminate.
Qed.
Example C59_nlopt_nonvacuous : let c := mkCall (fun x _ => (hd f0 x, Some [f1])) [f1] true in let c' := mkCall (fun x _ => (f0, None)) [f0] false in
  Forall (fun c => length (c_init c) = 1) [c'; c; c] /\ (forall j cj, j < 0 -> nth_error [c'; c; c] j = Some cj -> c_bounded cj = false) /\ in_box [f1] /\
  is_objective (c_f c) (nlopt_func (c_f c)) /\ nlopt_func (c_f c) [f0] (Some [f0]) = CbOk f0 (Some [f1]).
Proof.
  cbv zeta. split; [repeat constructor|]. split; [lia|]. split; [repeat constructor|]. split; [apply callback_is_objective|reflexivity].
Qed.

(** ** CMA-ES *)
Lemma flt_opp a b : flt (fopp a) (fopp b) = flt b a.
Proof.
  destruct a as [[]|[]| |[] ma ea], b as [[]|[]| |[] mb eb]; try reflexivity; unfold flt, SFltb; cbn [fopp SFopp SFcompare negb].
  - rewrite (Z.compare_antisym eb ea). destruct (eb ?= ea)%Z eqn:E; cbn [CompOpp]; try reflexivity.
    pose proof (Pos.compare_antisym ma mb) as H. unfold Pos.compare in H. rewrite H. destruct (Pos.compare_cont Eq ma mb); reflexivity.
  - rewrite (Z.compare_antisym eb ea). destruct (eb ?= ea)%Z eqn:E; cbn [CompOpp]; try reflexivity.
    pose proof (Pos.compare_antisym ma mb) as H. unfold Pos.compare in H. rewrite H. destruct (Pos.compare_cont Eq ma mb); reflexivity.
Qed.
Section Cmaes.
Context {W : Type}.
Variables (geno pheno : F -> F -> vec -> vec).
Variable cmaes : bool -> (vec -> F) -> W -> vec -> vec * vec * W.
Variables (stochastic handle_uncertainty : bool).
(** libcmaes: the phenotype lies within the bounds; the best candidate has the lowest value the function took *)
Hypothesis pheno_in_box : forall g, in_box (pheno f0 f1 g).
Notation call_ := (cmaes_call geno pheno cmaes f0 f1 stochastic handle_uncertainty).
(** the library minimises the opposite of the objective, i.e. maximises the objective; a bounded call (with the default
    bounds) returns a point of the unit box *)
Theorem C59_cmaes : forall f w init,
  in_box (fst (call_ f w init true)) /\
  exists fc g0 g1, (forall x y, flt (fc x) (fc y) = flt (fst (f y false)) (fst (f x false))) /\
    fst (cmaes true fc w g0) = g1 /\ fst (call_ f w init true) = pheno f0 f1 (if stochastic || handle_uncertainty then fst g1 else snd g1) /\
    g0 = geno f0 f1 init.
Proof.
  intros f w init. unfold cmaes_call. destruct (cmaes true (fun x => fopp (fst (f x false))) w (geno f0 f1 init)) as [[a b] w'] eqn:E. cbn [fst].
  split; [apply pheno_in_box|]. exists (fun x => fopp (fst (f x false))), (geno f0 f1 init), (a, b). split; [intros; apply flt_opp|].
  split; [now rewrite E|]. split; reflexivity.
Qed.
End Cmaes.
(** bounds as a phenotype that clips: the hypothesis on the library can be met, and the result depends on the run *)
Definition clip (lo hi : F) (g : vec) : vec := map (fun x => if fle lo x && fle x hi then x else lo) g.
Example C59_cmaes_nonvacuous : (forall g, in_box (clip f0 f1 g)) /\ (forall g, in_box g -> clip f0 f1 g = g) /\
  fst (cmaes_call (fun _ _ g => g) clip (fun _ _ (w : unit) g => ([fofZ 3], g, w)) f0 f1 false false (fun x _ => (hd f0 x, None)) tt [f1] true) = [f1].
Proof.
  split; [|split; [|reflexivity]].
  - intros g. induction g as [|x g IH]; constructor; [|exact IH]. destruct (fle f0 x) eqn:A, (fle x f1) eqn:B; cbn [andb]; try (split; reflexivity). now split.
  - intros g H. induction H as [|x g [A B] _ IH]; [reflexivity|]. cbn [clip map]. rewrite A, B. cbn [andb]. f_equal. exact IH.
Qed.

(** an unbounded call works on the arguments themselves *)
Theorem C59_cmaes_unbounded : forall (W : Type) geno pheno (cmaes : bool -> (vec -> F) -> W -> vec -> vec * vec * W) lo hi stochastic uh f w init,
  exists fc, (forall x y, flt (fc x) (fc y) = flt (fst (f y false)) (fst (f x false))) /\
    let g := fst (cmaes false fc w init) in
    fst (cmaes_call geno pheno cmaes lo hi stochastic uh f w init false) = if stochastic || uh then fst g else snd g.
Proof.
  intros. exists (fun x => fopp (fst (f x false))). split; [intros; apply flt_opp|]. unfold cmaes_call.
  now destruct (cmaes false (fun x => fopp (fst (f x false))) w init) as [[a b] w'].
Qed.

(** ** What libcmaes is told *)
(** the documented meaning of the parameters (cmaes.hpp:64-137) *)
Definition enabled (P : cparams) (k : crit) : bool :=
  match k with
  | MAXFEVALS | MAXITER => true
  | AUTOMAXITER => p_auto_max_iters P
  | TOLHISTFUN => negb (flt (p_fun_tolerance P) f0)
  | FTARGET => flt f0 (p_fun_target P)
  | EQUALFUNVALS => p_equal_fun_evals P
  | TOLX => flt f0 (p_xrel_tolerance P)
  | CONDITIONCOV | TOLUPSIGMA => true
  | NOEFFECTAXIS | NOEFFECTCOOR => false
  | STAGNATION => p_stagnation P
  end.
Definition configured (P : cparams) (dim : nat) (c : cfg) : Prop :=
  (forall k, g_crit c k = enabled P k) /\
  ((0 <= p_max_fun_evals P)%Z -> g_max_fevals c = p_max_fun_evals P) /\
  ((p_max_fun_evals P < 0)%Z -> g_max_fevals c = (900 * (Z.of_nat dim + 3) ^ 2)%Z) /\
  ((0 <= p_max_iters P)%Z -> g_max_iter c = p_max_iters P) /\ ((p_max_iters P < 0)%Z -> g_max_iter c = 1000000%Z) /\
  g_algo c = p_variant P /\ g_restarts c = p_restarts P /\ g_elitism c = p_elitism P /\ g_initial c = p_initial P /\ g_uh c = p_uh P /\
  g_quiet c = negb (p_verbose P) /\
  (enabled P TOLHISTFUN = true -> g_ftol c = p_fun_tolerance P) /\ (enabled P TOLX = true -> g_xtol c = p_xrel_tolerance P) /\
  (* the target of the minimisation is passed exactly when the objective exceeds the target of the user *)
  (enabled P FTARGET = true -> forall y, flt (fopp y) (g_ftarget c) = flt (p_fun_target P) y).
(** every call runs libcmaes with the parameters of the user, whatever the object was constructed with *)
Theorem C59_cmaes_configuration : forall (W : Type) geno pheno (run : cfg -> bool -> (vec -> F) -> W -> vec -> vec * vec * W) c0 P lo hi stochastic f w init bounded,
  exists c, configured P (length init) c /\
    cmaes_with geno pheno run c0 P lo hi stochastic f w init bounded = cmaes_call geno pheno (run c) lo hi stochastic (g_uh c) f w init bounded.
Proof.
  intros. exists (set_common_params P (Z.of_nat (length init)) c0). split; [|unfold cmaes_with; f_equal; unfold set_common_params; cbn; destruct (flt f0 (p_xrel_tolerance P)), (flt f0 (p_fun_target P)), (flt (p_fun_tolerance P) f0); reflexivity].
  unfold configured, set_common_params, cmaes_max_evals, cmaes_max_iters, enabled.
  destruct (flt f0 (p_xrel_tolerance P)) eqn:E1, (flt f0 (p_fun_target P)) eqn:E2, (flt (p_fun_tolerance P) f0) eqn:E3; cbn -[fopp flt Z.mul Z.add Z.pow Z.ltb];
  (split; [intros []; cbn -[fopp flt Z.mul Z.add Z.pow Z.ltb]; congruence|]);
  (split; [intros H; now rewrite (proj2 (Z.ltb_ge _ _) H)|]); (split; [intros H; rewrite (proj2 (Z.ltb_lt _ _) H); ring|]);
  (split; [intros H; now rewrite (proj2 (Z.ltb_ge _ _) H)|]); (split; [intros H; now rewrite (proj2 (Z.ltb_lt _ _) H)|]);
  do 6 (split; [reflexivity|]); (split; [congruence|]); (split; [congruence|]); intros H y; try congruence; apply flt_opp.
Qed.
(** documented "if bigger than 0, it enables the tolerance criteria"; zero enables it *)
Theorem C59_cmaes_zero_tolerance_refuted : exists P c0, p_fun_tolerance P = f0 /\ g_crit (set_common_params P 1 c0) TOLHISTFUN = true.
Proof.
  exists (mkCp 1 (-1) (-1) true true true f0 f0 f0 false 0 0 false false), (mkCfg false 0 0 0 0 0 (fun _ => false) f0 f0 f0 false false false).
  split; reflexivity.
Qed.
Example C59_configuration_nonvacuous : let P := mkCp 1 (-1) 50 true true true (fofZ (-1)) (fofZ (-1)) (fofZ 7) false 5 0 false false in
  let c := set_common_params P 2 (mkCfg false 0 0 0 0 0 (fun _ => false) f0 f0 f0 false false false) in
  configured P 2 c /\ g_max_fevals c = 22500%Z /\ g_max_iter c = 50%Z /\ g_ftarget c = fofZ (-7) /\ enabled P FTARGET = true.
Proof.
  cbv zeta. set (P := mkCp _ _ _ _ _ _ _ _ _ _ _ _ _ _). split; [|repeat split; vm_compute; reflexivity].
  split; [intros []; reflexivity|]. split; [intros H; exfalso; cbn in H; lia|]. split; [reflexivity|]. split; [reflexivity|]. split; [intros H; exfalso; cbn in H; lia|].
  do 6 (split; [reflexivity|]). split; [discriminate|]. split; [discriminate|]. intros _ y. apply (flt_opp y (fofZ 7)).
Qed.
