(** C60: with bounded(), every point BOptimizer evaluates lies in the unit box. *)
From Coq Require Import ZArith List Bool Lia Reals Lra Permutation.
From Coq Require Import Floats.SpecFloat.
From Verif Require Import F64 F64R OptSpec OptModel OptFacts OptFloat AdamFloat InitModel InitFacts BOModel BOSpec BOFacts NloptModel Prop_Nlopt LhsModel LhsFModel Prop_LhsF Prop_Opt Prop_Init BoxModel.
Import ListNotations.
Open Scope nat_scope.

(** ** Specification *)
(** a point of the unit box of dimension [d] *)
Definition pt (d : nat) (v : vec) : Prop := length v = d /\ Forall (fun x => fvalid x /\ in_unit x) v.
(** a vector of numbers *)
Definition numbers (d : nat) (v : vec) : Prop := length v = d /\ Forall fvalid v /\ Forall notnan v.

(** every value GridSearch tries is at most 1 *)
Definition grid_ok (bins : Z) : Prop := forall fuel xs, grid_search_xs fuel bins = Some xs -> Forall in_unit xs.
(** the gradients of the acquisition function in the box have components of size at most 2^400 (in particular, no NaN and
    no infinity) *)
Definition sized (gr : bool) (f : vec -> bool -> F * option vec) : Prop := gr = true -> bounded_grad (fun _ x => f x true).
(** the parameters of Adam and GradientAscent as their assertions want them: rates in [0,1), a learning rate (at most 2^400) *)
Definition adam_ok (b1 b2 alpha : F) : Prop := rate b1 /\ rate b2 /\ bnd 400 alpha.
Definition ga_ok (gamma alpha : F) : Prop := rate gamma /\ bnd 400 alpha.
(** stacks that end in the box from any start ([gr]: Adam and GradientAscent included) ... *)
Fixpoint anywhere (gr : bool) (o : aopt) : Prop :=
  match o with
  | ARandomPoint | ARprop _ _ | ACmaes _ _ => True
  | AAdam _ b1 b2 alpha _ => gr = true /\ adam_ok b1 b2 alpha
  | AGradientAscent _ gamma alpha _ _ => gr = true /\ ga_ok gamma alpha
  | AGridSearch bins => grid_ok bins
  | AThen o o' => anywhere gr o /\ from_box gr o'
  | _ => False
  end
(** ... or from a start in the box *)
with from_box (gr : bool) (o : aopt) : Prop :=
  match o with
  | ARandomPoint | ARprop _ _ | ACmaes _ _ | ANlopt _ _ _ => True
  | AAdam _ b1 b2 alpha _ => gr = true /\ adam_ok b1 b2 alpha
  | AGradientAscent _ gamma alpha _ _ => gr = true /\ ga_ok gamma alpha
  | AGridSearch bins => grid_ok bins
  | AThen o o' => from_box gr o /\ from_box gr o'
  | ARepeater _ eps o => anywhere gr o /\ fvalid eps /\ ffin eps /\ (0 <= fval eps <= IZR (2 ^ 900))%R
  end.

Lemma pt_numbers d v : pt d v -> numbers d v.
Proof.
  intros [L H]. split; [exact L|]. split; (eapply Forall_impl; [|exact H]); cbn; [tauto|]. intros x [V U]. apply ffin_notnan. now apply in_unit_fin.
Qed.
Lemma pt_box d v : pt d v -> in_box v.
Proof. intros [_ H]. now apply good_point_box. Qed.
Lemma box_pt d v : length v = d -> Forall fvalid v -> in_box v -> pt d v.
Proof.
  intros L V B. split; [exact L|]. apply Forall_forall. intros x I. split; [exact (proj1 (Forall_forall _ _) V x I)|exact (proj1 (Forall_forall _ _) B x I)].
Qed.

(** ** Leaves *)
Lemma steps_lt_valid s lim : fvalid s -> forall fuel x xs, fvalid x -> steps_lt fuel x s lim = Some xs -> Forall fvalid xs.
Proof.
  intros Vs. induction fuel as [|fuel IH]; intros x xs Vx E; cbn [steps_lt] in E; [discriminate|].
  destruct (flt x lim); [|injection E as <-; constructor]. destruct (steps_lt fuel (fadd x s) s lim) as [l|] eqn:El; [|discriminate].
  injection E as <-. constructor; [exact Vx|]. eapply IH; [|exact El]. now apply fadd_valid.
Qed.
Lemma grid_leaf f bins fuel xs d v : grid_ok bins -> grid_search_xs fuel bins = Some xs -> of_gres (grid_search f xs d) = AVec v -> pt d v.
Proof.
  intros G E R. destruct (grid_search f xs d) as [p| |] eqn:Eg; try discriminate. injection R as ->.
  destruct (grid_search_best _ _ _ _ Eg) as ((L & A) & _). split; [exact L|].
  assert (V : Forall fvalid xs). { eapply steps_lt_valid; [| |exact E]; [apply fdiv_valid; [apply f1_ok|apply fofZ_valid]|apply f0_ok]. }
  pose proof (G _ _ E) as U. eapply Forall_impl; [|exact A]. cbn. intros x I. split; [exact (proj1 (Forall_forall _ _) V x I)|exact (proj1 (Forall_forall _ _) U x I)].
Qed.
Lemma rprop_leaf f norm eps it init d v : numbers d init -> of_run (rprop f norm eps true it init) = AVec v -> pt d v.
Proof.
  intros (L & V & N) R. destruct (rprop f norm eps true it init) as [[p tr]|] eqn:E; [|discriminate]. injection R as ->.
  split; [|exact (proj1 (rprop_good _ _ _ _ _ _ _ V N E))].
  destruct (rprop_best _ _ _ _ _ _ _ _ E) as [(w & _ & l1 & l2 & -> & _)|(-> & _)]; [|now rewrite clamp_length].
  destruct (rprop_trace _ _ _ _ _ _ _ _ E) as (_ & T & _).
  destruct (T (length l1) v w) as [_ Q]; [|now rewrite Q]. rewrite nth_error_app2, Nat.sub_diag by lia. reflexivity.
Qed.
Lemma adam_leaf f norm it b1 b2 al stp init d v : adam_ok b1 b2 al -> bounded_grad f -> numbers d init -> of_run (adam f norm b1 b2 al stp true it init) = AVec v -> pt d v.
Proof.
  intros (R1 & R2 & Ha) G (L & V & N) R. destruct (adam f norm b1 b2 al stp true it init) as [[p tr]|] eqn:E; [|discriminate]. injection R as ->.
  destruct (adam_good f norm b1 b2 al stp R1 R2 Ha G it init v tr V N E) as [[A B] _]. split; [congruence|exact A].
Qed.
Lemma ga_leaf f norm it ga al stp nest init d v : ga_ok ga al -> bounded_grad f -> numbers d init -> of_run (gradient_ascent f norm ga al stp nest true it init) = AVec v -> pt d v.
Proof.
  intros (R1 & Ha) G (L & V & N) R. destruct (gradient_ascent f norm ga al stp nest true it init) as [[p tr]|] eqn:E; [|discriminate]. injection R as ->.
  destruct (ga_good f norm ga al stp nest R1 Ha G it init v tr V N E) as [[A B] _]. split; [congruence|exact A].
Qed.

Section Stack.
Context {W : Type}.
Variable norm : vec -> F.
Variable nl_optimize : nl -> (vec -> option vec -> cbres) -> W -> vec -> nstatus * vec * W.
Variables (geno pheno : F -> F -> vec -> vec).
Variable cmaes : bool -> (vec -> F) -> W -> vec -> vec * vec * W.
(** the libraries return vectors of binary64 numbers; see C59 for the rest *)
Hypothesis nl_ok : nlopt_contract nl_optimize.
Hypothesis nl_valid : forall o cb w x st x' w', Forall fvalid x -> nl_optimize o cb w x = (st, x', w') -> Forall fvalid x'.
Hypothesis pheno_ok : forall g, pt (length g) (pheno f0 f1 g).
Hypothesis geno_length : forall v, length (geno f0 f1 v) = length v.
Hypothesis cmaes_length : forall b fc w g, length (fst (fst (cmaes b fc w g))) = length g /\ length (snd (fst (cmaes b fc w g))) = length g.
Notation run := (arun norm nl_optimize geno pheno cmaes).

Lemma cmaes_leaf st hu f w init x w' : cmaes_call geno pheno cmaes f0 f1 st hu f w init true = (x, w') -> pt (length init) x.
Proof.
  unfold cmaes_call. destruct (cmaes true _ w (geno f0 f1 init)) as [[a b] w1] eqn:E. intro H. injection H as <- _.
  pose proof (cmaes_length true (fun x => fopp (fst (f x false))) w (geno f0 f1 init)) as [A B]. rewrite E in A, B. cbn [fst snd] in A, B. rewrite geno_length in A, B.
  destruct (st || hu); [rewrite <- A|rewrite <- B]; apply pheno_ok.
Qed.
Lemma used_bounds it ftol xtol d o : 0 < d -> nl_used nl_optimize it ftol xtol d o -> exists b, has_bounds it ftol xtol d b o.
Proof.
  intros Hd. induction 1 as [|o f w init r rq o' w' _ [b IH] L E]; [now exists false|].
  destruct (call_step nl_optimize it ftol xtol d b o (mkCall f init true) w Hd IH L) as (r1 & rq1 & o1 & w1 & E1 & H1 & _).
  cbn [c_f c_init c_bounded] in E1. rewrite E1 in E. injection E as _ _ <- _. eauto.
Qed.
Lemma nlopt_leaf it ftol xtol f w init o r rq o' w' d v : pt d init -> nl_used nl_optimize it ftol xtol (length init) o ->
  nlopt_call nl_optimize it ftol xtol o f w init true = (r, rq, o', w') -> of_wres r = AVec v -> pt d v.
Proof.
  intros P U E R. destruct r as [x| |]; try discriminate. injection R as ->.
  destruct init as [|x0 xs] eqn:Ei; [discriminate E|]. rewrite <- Ei in *.
  destruct (used_bounds it ftol xtol (length init) o) as [b Hb]; [subst init; cbn; lia|exact U|].
  assert (Hb' : has_bounds it ftol xtol (length init) true o \/ has_bounds it ftol xtol (length init) false o) by (destruct b; auto).
  destruct (C59_nlopt_in_box nl_optimize it ftol xtol nl_ok o f w init v rq o' w' Hb' (pt_box _ _ P) E) as [B L].
  apply box_pt; [rewrite L; apply P| |exact B].
  unfold nlopt_call in E. rewrite Ei in E. rewrite <- Ei in E. destruct (true && _) in E; [discriminate|].
  destruct (nl_optimize _ _ _ _) as [[st y] w1] eqn:En. assert (y = v) by (destruct st as [|[]]; congruence). subst y.
  eapply nl_valid; [|exact En]. apply (pt_numbers d); exact P.
Qed.
Lemma start_numbers eps rand init i d : pt d init -> drawn d (rand i) -> fvalid eps -> ffin eps -> (0 <= fval eps <= IZR (2 ^ 900))%R ->
  numbers d (repeater_start eps rand init i).
Proof.
  intros [L H] [L' H'] V Fe B. unfold repeater_start. split; [rewrite map2_length, map_length; lia|].
  assert (K : Forall (fun s => fvalid s /\ ffin s) (map2 fadd init (map (fun r => fsub (fmul (fmul r (fofZ 2)) eps) eps) (rand i)))).
  { clear L L'. revert H H'. generalize (rand i) as l. induction init as [|x xs IH]; intros [|r l] H H'; cbn [map map2]; try constructor.
    - apply Forall_cons_iff in H. destruct H as [[Vx Ux] _]. apply Forall_cons_iff in H'. destruct H' as [[Vr Ur] _].
      destruct (repeater_dev r eps Vr Ur V Fe B) as (Vd & Fd & Bd). destruct (in_unit_fin x Vx Ux) as [Fx Bx].
      split; [now apply fadd_valid|]. apply (fadd_correct x _ Vx Vd Fx Fd). apply rnd_small. apply Rabs_le.
      assert (B2 : (1 + IZR (2 ^ 900) <= Raux.bpow Zaux.radix2 1000)%R).
      { apply Rle_trans with (IZR (2 ^ 901)); [|change (IZR (2 ^ 901)) with (Raux.bpow Zaux.radix2 901); apply Raux.bpow_le; lia].
        change (2 ^ 901)%Z with (2 * 2 ^ 900)%Z. rewrite mult_IZR. assert (1 <= IZR (2 ^ 900))%R by (apply IZR_le; lia). lra. }
      lra.
    - apply Forall_cons_iff in H, H'. apply IH; tauto. }
  split; (eapply Forall_impl; [|exact K]); cbn; [tauto|]. intros s [_ Fs]. now apply ffin_notnan.
Qed.

Lemma stack_ok gr o : forall f d init v, sized gr f -> (anywhere gr o /\ numbers d init) \/ (from_box gr o /\ pt d init) -> run f o init (AVec v) -> pt d v.
Proof.
  induction o as [|bins|it eps|it b1 b2 al stp|it ga al stp nest|it ft xt|st hu|o1 IH1 o2 IH2|rep eps o IH]; intros f d init v HG H R.
  all: assert (L : length init = d) by (destruct H as [[_ (L & _)]|[_ (L & _)]]; exact L).
  all: inversion R; subst; clear R.
  - match goal with X : drawn _ _ |- _ => exact X end.
  - destruct H as [[G _]|[G _]]; eapply grid_leaf; eauto.
  - eapply rprop_leaf; [|eassumption]. destruct H as [[_ H]|[_ H]]; [exact H|now apply pt_numbers].
  - destruct H as [[[K Q] H]|[[K Q] H]]; (eapply adam_leaf; [exact Q|exact (HG K)| |eassumption]); [exact H|now apply pt_numbers].
  - destruct H as [[[K Q] H]|[[K Q] H]]; (eapply ga_leaf; [exact Q|exact (HG K)| |eassumption]); [exact H|now apply pt_numbers].
  - destruct H as [[[] _]|[_ H]]. eapply nlopt_leaf; eauto.
  - eapply cmaes_leaf; eauto.
  - match goal with X : run f o1 _ (AVec ?x), Y : run f o2 ?x _ |- _ => assert (P : pt (length init) x); [apply (IH1 f _ init x); [exact HG| |exact X]|apply (IH2 f _ x v); [exact HG| |exact Y]] end;
      destruct H as [[[A B] N]|[[A B] N]]; auto.
  - destruct H as [[[] _]|[(A & V & Fe & B) P]].
    match goal with X : repeater _ _ _ _ _ _ _ |- _ => destruct (repeater_best _ _ _ _ _ _ _ X) as [(i & Hi & -> & _)|(-> & _)]; [|exact P] end.
    eapply IH; [exact HG|left; split; [exact A|]|eauto]. apply start_numbers; auto.
Qed.

(** ** Initialisation *)
(** the initialisation functions of /repo/src/limbo/init in use with their parameters *)
Inductive init_by (dim : nat) : nat -> (nat -> W -> vec * W) -> Prop :=
| by_none p : init_by dim 0 p
| by_random samples (rd : W -> F * W) : (forall w, fvalid (fst (rd w)) /\ in_unit (fst (rd w))) ->
    init_by dim (random_sampling_n samples) (random_sampling_pt rd dim)
| by_random_grid samples bins (ri : Z -> Z -> W -> Z * W) : (1 <= bins <= 2 ^ 53)%Z -> (forall a b w, (a <= b -> a <= fst (ri a b w) <= b)%Z) ->
    init_by dim (random_sampling_grid_n samples) (random_sampling_grid_pt ri bins dim)
| by_grid bins fuel xs pts : (1 <= bins <= 2 ^ 20)%Z -> Z.to_nat bins + 1 < fuel -> grid_sampling_xs fuel bins = Some xs -> grid_sampling xs dim = Some pts ->
    init_by dim (list_init_n pts) (list_init_pt pts)
| by_lhs n (p : nat -> W -> vec * W) : (Z.of_nat n <= 2 ^ 31)%Z ->
    (forall i w, i < n -> exists u perm, (forall a b, a < n -> b < dim -> fvalid (u a b) /\ in_unit (u a b)) /\ (forall j, j < dim -> Permutation (perm j) (seq 0 n)) /\
       nth_error (lhs_points dim n u perm) i = Some (fst (p i w))) ->
    init_by dim n p.

Lemma steps_le_valid s lim : fvalid s -> forall fuel x xs, fvalid x -> steps_le fuel x s lim = Some xs -> Forall fvalid xs.
Proof.
  intros Vs. induction fuel as [|fuel IH]; intros x xs Vx E; cbn [steps_le] in E; [discriminate|].
  destruct (fle x lim); [|injection E as <-; constructor]. destruct (steps_le fuel (fadd x s) s lim) as [l|] eqn:El; [|discriminate].
  injection E as <-. constructor; [exact Vx|]. eapply IH; [|exact El]. now apply fadd_valid.
Qed.
Lemma init_ok dim n p : init_by dim n p -> forall i w, i < n -> length (fst (p i w)) = dim /\ in_box (fst (p i w)).
Proof.
  intros H i w Hi. destruct H as [p|samples rd Hrd|samples bins ri Hb Hri|bins fuel xs pts Hb Hf Hx Hp|n p Hn Hl].
  - lia.
  - unfold random_sampling_pt. destruct (random_vec_spec rd in_unit (fun w => proj2 (Hrd w)) dim w) as [A B]. now split.
  - unfold random_sampling_grid_pt. destruct (random_grid_vec_spec ri bins (fun w => Hri 0%Z bins w ltac:(lia)) dim w) as [A B]. split; [exact A|].
    eapply Forall_impl; [|exact B]. cbn. intros x (j & Hj & ->). now apply (ratio_unit j bins).
  - unfold list_init_pt, list_init_n in *. cbn [fst]. destruct (grid_sampling_spec _ _ _ Hp) as (G & _ & _).
    assert (I : In (nth i pts []) pts) by (apply nth_In; exact Hi). apply G in I. destruct I as [L I]. split; [exact L|].
    destruct (C11_grid_values_partial bins fuel Hb Hf) as (xs' & Hx' & _ & _ & U). rewrite Hx in Hx'. injection Hx' as <-.
    eapply Forall_impl; [|exact I]. cbn. intros x Ix. apply In_nth_error in Ix. destruct Ix as (k & Ek). apply (U k x Ek).
  - destruct (Hl i w Hi) as (u & perm & Hu & Hp & E). destruct (C10_float n dim u perm Hn Hu Hp) as (_ & P & _). apply P. eapply nth_error_In; exact E.
Qed.

(** ** The optimizer *)
Section Run.
Context {M E : Type}.
Variable sfun : W -> vec -> (vec + E) * W.
Variable m_fresh : M.
Variable m_compute : W -> M -> list vec -> list vec -> M * W.
Variable m_add : W -> M -> vec -> vec -> M * W.
Variable m_hp : W -> M -> M * W.
Variable acq : W -> M -> Z -> vec * W.
Variable init_n : nat.
Variable init_pt : nat -> W -> vec * W.
Variable hp_period : Z.
Variables (dim : nat) (o : aopt).
Definition boxed (x : vec) : Prop := length x = dim /\ in_box x.
Definition boxed_st (s : bo W M E) : Prop := Forall boxed (samples s) /\ forall x r, In (EvEval x r) (trace s) -> boxed x.
Definition boxed_res (r : result W M E) : Prop := match r with Ret s | Throw s _ | Running s => boxed_st s | UninitRead => True end.
Lemma boxed_log s e : boxed_st s -> (forall x r, e = EvEval x r -> boxed x) -> boxed_st (log s e).
Proof.
  intros [A B] C. split; [exact A|]. intros x r I. cbn [trace log] in I. apply in_app_or in I. destruct I as [I|[I|[]]]; [eapply B; exact I|eapply C; exact I].
Qed.
Lemma boxed_eval s x : boxed x -> boxed_st s -> boxed_res (eval_and_add sfun s x).
Proof.
  intros X H. unfold eval_and_add. destruct (sfun (world s) x) as [r w].
  assert (K : boxed_st (log (set_world s w) (EvEval x r))). { apply boxed_log; [exact H|]. intros x' r' Q. injection Q as -> _. exact X. }
  destruct r as [v|e]; [|exact K]. unfold add_new_sample. destruct (is_nan_or_inf v); [exact K|]. cbn. destruct K as [A B]. split; [|exact B].
  cbn [push samples]. apply Forall_app. split; [exact A|]. now constructor.
Qed.
Hypothesis Hacq : forall w m i, boxed (fst (acq w m i)).
Hypothesis Hinit : forall i w, i < init_n -> boxed (fst (init_pt i w)).
Lemma boxed_init : forall k i s, i + k <= init_n -> boxed_st s -> boxed_res (run_init sfun init_pt k i s).
Proof.
  induction k as [|k IH]; intros i s L H; cbn [run_init]; [exact H|]. pose proof (Hinit i (world s) ltac:(lia)) as X. destruct (init_pt i (world s)) as [x w]. cbn [fst] in X.
  pose proof (boxed_eval (set_world s w) x X H) as K. destruct (eval_and_add sfun (set_world s w) x) as [s'| | |]; try exact K. apply IH; [lia|exact K].
Qed.
Lemma boxed_iteration c s : boxed_st s -> boxed_res (iteration sfun m_add m_hp acq hp_period c s).
Proof.
  intros H. unfold iteration. pose proof (Hacq (world s) (model s) c) as X. destruct (acq (world s) (model s) c) as [x w1]. cbn [fst] in X.
  set (s1 := log _ _). assert (H1 : boxed_st s1) by (apply boxed_log; [exact H|discriminate]).
  pose proof (boxed_eval s1 x X H1) as K. destruct (eval_and_add sfun s1 x) as [s2| | |]; try exact K. cbn [boxed_res] in K.
  set (s3 := log s2 _). assert (H3 : boxed_st s3) by (apply boxed_log; [exact K|discriminate]).
  destruct (m_add (world s3) (model s3) _ _) as [m w3]. set (s4 := set_model _ _). assert (H4 : boxed_st s4) by exact H3.
  destruct ((0 <? hp_period)%Z && _); [|exact H4]. destruct (m_hp (world s4) (model s4)) as [m' w4]. cbn.
  apply (boxed_log (set_model (set_world s4 w4) m') (EvHp c)); [exact H4|discriminate].
Qed.
Lemma boxed_loop cs : forall fuel s, boxed_st s -> boxed_res (loop sfun m_add m_hp acq hp_period cs fuel s).
Proof.
  induction fuel as [|fuel IH]; intros s H; cbn [loop]; [exact H|]. destruct (cur s) as [c|]; [|exact I]. destruct (stop_now cs s) as [b w].
  set (s0 := log _ _). assert (H0 : boxed_st s0) by (apply boxed_log; [exact H|discriminate]). destruct b; [exact H0|].
  pose proof (boxed_iteration c s0 H0) as K. destruct (iteration sfun m_add m_hp acq hp_period c s0) as [s'| | |]; try exact K. apply IH. exact K.
Qed.
Lemma boxed_optimize cs fuel reset s : boxed_st s -> boxed_res (optimize sfun m_fresh m_compute m_add m_hp acq init_n init_pt hp_period cs fuel reset s).
Proof.
  intros H. unfold optimize.
  assert (K : boxed_res (init_phase sfun init_n init_pt reset s)).
  { unfold init_phase. set (s1 := set_cur _ _). assert (H1 : boxed_st s1) by (apply (boxed_log s); [exact H|discriminate]).
    set (s2 := if reset then _ else _). assert (H2 : boxed_st s2).
    { unfold s2. destruct reset; [|exact H1]. apply boxed_log; [|discriminate]. split; [constructor|apply H1]. }
    destruct (tot s2 =? 0)%Z; [|exact H2]. apply boxed_init; [lia|]. apply boxed_log; [exact H2|discriminate]. }
  destruct (init_phase sfun init_n init_pt reset s) as [s1| | |]; try exact K. apply boxed_loop.
  destruct (observations s1); [exact K|]. destruct (m_compute _ _ _ _) as [m w]. exact K.
Qed.
Lemma boxed_run cs : forall os s s', (forall x, In (OpEvalAdd x) os -> boxed x) -> (forall x v, In (OpAddSample x v) os -> boxed x) -> boxed_st s ->
  run_ops sfun m_fresh m_compute m_add m_hp acq init_n init_pt hp_period cs os s = Some s' -> boxed_st s'.
Proof.
  induction os as [|op os IH]; intros s s' U V H R; cbn [run_ops] in R; [injection R as <-; exact H|].
  assert (K : boxed_res (run_op sfun m_fresh m_compute m_add m_hp acq init_n init_pt hp_period cs op s)).
  { destruct op as [reset fuel|x|x v]; cbn [run_op].
    - now apply boxed_optimize.
    - apply boxed_eval; [apply U; now left|exact H].
    - unfold add_new_sample. destruct (is_nan_or_inf v); [exact H|]. cbn. apply boxed_log; [|discriminate]. destruct H as [A B]. split; [|exact B].
      cbn. apply Forall_app. split; [exact A|]. constructor; [eapply V; now left|constructor]. }
  assert (U' : forall x, In (OpEvalAdd x) os -> boxed x) by (intros x I; apply U; now right).
  assert (V' : forall x v, In (OpAddSample x v) os -> boxed x) by (intros x v I; eapply V; right; exact I).
  destruct (run_op _ _ _ _ _ _ _ _ _ _ _ _) as [s1|s1 e|s1|]; try discriminate; try (eapply IH; eassumption). injection R as <-. exact K.
Qed.
End Run.

(** every point at which the objective is evaluated, and every stored sample, is a point of the unit box, for every
    objective, model, stopping criterion and history of calls (points given by the user being in the box): for the
    stacks of optimizers of [from_box]; with Adam and GradientAscent ([gr = true]) if the gradients of the acquisition
    functions are [sized] *)
Theorem C60_in_the_box_partial : forall (M E : Type) (sfun : W -> vec -> (vec + E) * W) m_fresh m_compute m_add m_hp (acq : W -> M -> Z -> vec * W)
  init_n init_pt hp_period dim gr o cs os m w s,
  from_box gr o -> acq_by norm nl_optimize geno pheno cmaes (sized gr) o dim acq -> init_by dim init_n init_pt ->
  (forall x, In (OpEvalAdd x) os -> length x = dim /\ in_box x) -> (forall x v, In (OpAddSample x v) os -> length x = dim /\ in_box x) ->
  run_ops sfun m_fresh m_compute m_add m_hp acq init_n init_pt hp_period cs os (new_bo m w) = Some s ->
  (forall x r, In (EvEval x r) (trace s) -> length x = dim /\ in_box x) /\ Forall (fun x => length x = dim /\ in_box x) (samples s).
Proof.
  intros M E sfun m_fresh m_compute m_add m_hp acq init_n init_pt hp_period dim gr o cs os m w s Ho Ha Hi U V R.
  assert (H : boxed_st dim s); [|split; apply H].
  eapply (boxed_run sfun m_fresh m_compute m_add m_hp acq init_n init_pt hp_period dim); [| | | | |exact R].
  - intros w0 m0 i. destruct (Ha w0 m0 i) as (f & start & G & D & A).
    assert (P : pt dim (fst (acq w0 m0 i))). { eapply stack_ok; [exact G| |exact A]. right. split; [exact Ho|exact D]. }
    split; [apply P|now apply (pt_box dim)].
  - intros i w0 L. now apply (init_ok dim init_n init_pt Hi).
  - exact U.
  - exact V.
  - split; [constructor|]. intros x r [].
Qed.
End Stack.

(** ** The default acquisition optimizers (boptimizer.hpp:120-127): NLOpt, CMA-ES, or GridSearch with 5 bins *)
Lemma steps_lt_det s lim : forall fuel fuel' x xs xs', steps_lt fuel x s lim = Some xs -> steps_lt fuel' x s lim = Some xs' -> xs = xs'.
Proof.
  induction fuel as [|fuel IH]; intros [|fuel'] x xs xs' E E'; cbn [steps_lt] in E, E'; try discriminate.
  destruct (flt x lim); [|congruence]. destruct (steps_lt fuel (fadd x s) s lim) as [l|] eqn:A; [|discriminate]. destruct (steps_lt fuel' (fadd x s) s lim) as [l'|] eqn:B; [|discriminate].
  injection E as <-. injection E' as <-. f_equal. eapply IH; eassumption.
Qed.
Lemma grid_ok_by bins fuel : match grid_search_xs fuel bins with Some xs => forallb (fun x => fle f0 x && fle x f1) xs = true | None => False end -> grid_ok bins.
Proof.
  intros H fuel' xs E. destruct (grid_search_xs fuel bins) as [l|] eqn:A; [|destruct H]. rewrite <- (steps_lt_det _ _ _ _ _ _ _ A E).
  apply Forall_forall. intros x I. rewrite forallb_forall in H. specialize (H x I). apply andb_true_iff in H. exact H.
Qed.
Lemma grid_ok_default : grid_ok 5.
Proof. apply (grid_ok_by 5 20). vm_compute. reflexivity. Qed.
Theorem C60_default_optimizers : (forall it ftol xtol, from_box false (ANlopt it ftol xtol)) /\ (forall st hu, from_box false (ACmaes st hu)) /\ from_box false (AGridSearch 5) /\
  (forall it ftol xtol st hu reps eps, fvalid eps -> ffin eps -> (0 <= fval eps <= IZR (2 ^ 900))%R ->
     from_box false (AThen (ARepeater reps eps (ACmaes st hu)) (ANlopt it ftol xtol))).
Proof. repeat split; try exact I; try (exact grid_ok_default); assumption || apply H1. Qed.

(** ... and every power of two as number of bins *)
Lemma dyadic_fmt k j : (0 <= k <= 2 ^ 53)%Z -> (0 <= j <= 1000)%Z -> Generic_fmt.generic_format Zaux.radix2 (SpecFloat.fexp fprec femax) (IZR k * Raux.bpow Zaux.radix2 (- j)).
Proof.
  intros K J. destruct (Z.eq_dec k (2 ^ 53)) as [->|N].
  - change (IZR (2 ^ 53)) with (Raux.bpow Zaux.radix2 53). rewrite <- Raux.bpow_plus. apply fmt_bp. lia.
  - change (SpecFloat.fexp fprec femax) with (FLT.FLT_exp (-1074) 53). apply FLT.generic_format_FLT. exists (Defs.Float Zaux.radix2 k (- j)); [reflexivity| |cbn [Defs.Fexp]; lia].
    cbn [Defs.Fnum]. rewrite Z.abs_eq by lia. change (Zaux.radix_val Zaux.radix2 ^ 53)%Z with (2 ^ 53)%Z. lia.
Qed.
Theorem C60_grid_powers : forall j, (0 <= j <= 50)%Z -> grid_ok (2 ^ j).
Proof.
  intros j J fuel xs E. unfold grid_search_xs in E.
  assert (P : (1 <= 2 ^ j <= 2 ^ 50)%Z) by (split; [apply (Z.pow_le_mono_r 2 0 j); lia|apply Z.pow_le_mono_r; lia]).
  assert (P53 : (2 ^ 50 + 2 <= 2 ^ 53)%Z) by lia.
  destruct (fofZ_correct (2 ^ j)) as [Fb Eb]; [rewrite Z.abs_eq by lia; lia|]. destruct f1_ok as (V1 & F1 & E1).
  assert (Ebp : IZR (2 ^ j) = Raux.bpow Zaux.radix2 j) by (rewrite Raux.IZR_Zpower with (r := Zaux.radix2) by lia; reflexivity).
  set (h := Raux.bpow Zaux.radix2 (- j)). assert (Hh : (/ Raux.bpow Zaux.radix2 j = h)%R) by (unfold h; now rewrite Raux.bpow_opp).
  pose proof (Raux.bpow_gt_0 Zaux.radix2 j) as Pj. assert (Ph : (0 < h)%R) by apply Raux.bpow_gt_0.
  assert (Q : (IZR (2 ^ j) * h = 1)%R) by (rewrite Ebp, <- Hh; apply Rinv_r; lra).
  assert (H1h : (h <= 1)%R). { change 1%R with (Raux.bpow Zaux.radix2 0). apply Raux.bpow_le. lia. }
  set (st := fdiv f1 (fofZ (2 ^ j))) in *.
  assert (S : fvalid st /\ ffin st /\ fval st = h).
  { split; [apply fdiv_valid; [exact V1|apply fofZ_valid]|]. destruct (fdiv_correct f1 (fofZ (2 ^ j)) V1 (fofZ_valid _) F1 Fb) as [A B].
    - rewrite Eb, Ebp. lra.
    - rewrite E1, Eb, Ebp. apply (fin_bp _ 0); [|lia]. unfold Rdiv. rewrite Rmult_1_l, Hh. rewrite Rabs_pos_eq by lra. exact H1h.
    - split; [exact A|]. fold st in B. rewrite B, E1, Eb, Ebp. unfold Rdiv. rewrite Rmult_1_l, Hh. apply rnd_gf. apply fmt_bp. lia. }
  destruct S as (Vs & Fs & Es).
  assert (Add : forall a x y, (0 <= a <= 2 ^ j + 2)%Z -> fvalid x -> ffin x -> fvalid y -> ffin y -> (fval x + fval y = IZR a * h)%R -> fvalid (fadd x y) /\ ffin (fadd x y) /\ fval (fadd x y) = (IZR a * h)%R).
  { intros a x y Ba Vx Fx Vy Fy Ea. assert (R : rnd (fval x + fval y) = (IZR a * h)%R) by (rewrite Ea; apply rnd_gf, dyadic_fmt; lia).
    destruct (fadd_correct x y Vx Vy Fx Fy) as [A B]; [|split; [now apply fadd_valid|split; [exact A|now rewrite B]]].
    rewrite R. apply Rle_lt_trans with (IZR (2 ^ 53)); [|change (IZR (2 ^ 53)) with (Raux.bpow Zaux.radix2 53); apply Raux.bpow_lt; lia].
    rewrite Rabs_pos_eq by (apply Rmult_le_pos; [apply IZR_le; lia|lra]). apply Rle_trans with (IZR a); [|apply IZR_le; lia].
    rewrite <- (Rmult_1_r (IZR a)) at 2. apply Rmult_le_compat_l; [apply IZR_le; lia|exact H1h]. }
  destruct (Add (2 ^ j + 1)%Z f1 st) as (Vl & Fl & El); [lia|exact V1|exact F1|exact Vs|exact Fs|rewrite E1, Es, plus_IZR; lra|]. set (lim := fadd f1 st) in *.
  assert (G : forall fuel k x xs, (0 <= k <= 2 ^ j + 1)%Z -> fvalid x -> ffin x -> fval x = (IZR k * h)%R -> steps_lt fuel x st lim = Some xs -> Forall in_unit xs).
  { clear fuel xs E. induction fuel as [|fuel IH]; intros k x xs K Vx Fx Ex E; cbn [steps_lt] in E; [discriminate|].
    destruct (flt x lim) eqn:L; [|injection E as <-; constructor]. destruct (steps_lt fuel (fadd x st) st lim) as [l|] eqn:El'; [|discriminate]. injection E as <-.
    apply flt_R in L; auto. rewrite Ex, El in L. assert (K' : (k < 2 ^ j + 1)%Z). { apply lt_IZR. apply Rmult_lt_reg_r with h; [exact Ph|exact L]. }
    constructor.
    - apply unit_fin_in; auto. rewrite Ex. split; [apply Rmult_le_pos; [apply IZR_le; lia|lra]|]. rewrite <- Q. apply Rmult_le_compat_r; [lra|apply IZR_le; lia].
    - destruct (Add (k + 1)%Z x st) as (Va & Fa & Ea); [lia|exact Vx|exact Fx|exact Vs|exact Fs|rewrite Ex, Es, plus_IZR; lra|].
      apply (IH (k + 1)%Z (fadd x st)); auto. lia. }
  destruct f0_ok as (V0 & F0 & E0). apply (G fuel 0%Z f0 xs); auto; [lia|]. rewrite E0. lra.
Qed.

(** ** Refutations and an example *)
Section Witness.
(** one iteration of an optimizer without initial samples, with the objective 0, a trivial model and this acquisition step *)
Definition one_step (acq : unit -> unit -> Z -> vec * unit) : option (bo unit unit unit) :=
  run_ops (fun w _ => (inl [f0], w)) tt (fun w m _ _ => (m, w)) (fun w m _ _ => (m, w)) (fun w m => (m, w)) acq 0 (fun _ w => ([], w)) 0
    [max_iterations 1] [OpOptimize true 5] (new_bo tt tt).
Definition lazy_cmaes (b : bool) (fc : vec -> F) (w : unit) (g : vec) : vec * vec * unit := (g, g, w).
Notation run1 := (acq_by (W := unit) (M := unit) (fun _ => f0) lazy_nlopt (fun _ _ g => g) clip lazy_cmaes (fun _ => True)).

(** GridSearch with 10 bins evaluates 1.0999999999999999 *)
Theorem C60_grid_search_refuted : exists acq s x r, run1 (AGridSearch 10) 1 acq /\ one_step acq = Some s /\ In (EvEval x r) (trace s) /\ ~ in_box x.
Proof.
  set (x := [fofZe 4953959590107545 (-52)]).
  exists (fun w _ _ => (x, w)). do 3 eexists. split; [|split; [vm_compute; reflexivity|split]].
  - intros w m i. exists (fun x _ => (nth 0 x fnan, None)), [f0]. split; [exact I|]. split; [split; [reflexivity|repeat constructor]|]. cbn [fst].
    assert (E : exists xs, grid_search_xs 20 10 = Some xs /\ of_gres (grid_search (fun x => nth 0 x fnan) xs 1) = AVec x).
    { eexists. split; vm_compute; reflexivity. }
    destruct E as (xs & E1 & E2). rewrite <- E2. exact (run_grid _ _ _ _ _ _ 10 [f0] 20 xs E1).
  - right. right. right. right. right. left. reflexivity.
  - intro H. inversion H as [|? ? [_ Hb] _]. vm_compute in Hb. discriminate.
Qed.
(** ParallelRepeater over NLOpt: the perturbed start is out of the box, NLOpt refuses it and it is returned *)
Definition eps100 : F := fdiv f1 (fofZ 100).
Definition beyond : vec := repeater_start eps100 (fun _ => [f1]) [f1] 0.
Theorem C60_repeater_nlopt_refuted : nlopt_contract lazy_nlopt /\
  exists acq s x r, run1 (ARepeater 1 eps100 (ANlopt 500 f0 f0)) 1 acq /\ one_step acq = Some s /\ In (EvEval x r) (trace s) /\ ~ in_box x.
Proof.
  split; [exact lazy_contract|]. exists (fun w _ _ => (beyond, w)). do 3 eexists. split; [|split; [vm_compute; reflexivity|split]].
  - intros w m i. exists (fun x _ => (nth 0 x fnan, None)), [f1]. split; [exact I|]. split; [split; [reflexivity|repeat constructor]|]. cbn [fst].
    apply (run_repeater _ _ _ _ _ _ 1 eps100 (ANlopt 500 f0 f0) [f1] (fun _ => [f1]) (fun _ v => v)).
    + intros j _. split; [reflexivity|repeat constructor].
    + intros j _. eapply (run_nlopt (fun _ => f0) lazy_nlopt (fun _ _ g => g) clip lazy_cmaes (fun x _ => (nth 0 x fnan, None)) 500 f0 f0 beyond None tt (WRet beyond)).
      * constructor.
      * vm_compute. reflexivity.
    + eexists. assert (Q : exists v, scan repeater_comp (repeater_body (fun x => nth 0 x fnan) (fun _ v => v) eps100 (fun _ => [f1]) [f1]) 0 1 ([f1], f_float_lowest) = (beyond, v)) by (eexists; vm_compute; reflexivity).
      destruct Q as [v Q]. cbn [fst]. unfold par_max_tbb. instantiate (1 := snd (scan repeater_comp (repeater_body (fun x => nth 0 x fnan) (fun _ v => v) eps100 (fun _ => [f1]) [f1]) 0 1 ([f1], f_float_lowest))).
      replace beyond with (fst (scan repeater_comp (repeater_body (fun x => nth 0 x fnan) (fun _ v => v) eps100 (fun _ => [f1]) [f1]) 0 1 ([f1], f_float_lowest))) by (now rewrite Q).
      rewrite <- surjective_pairing. apply red_scan.
  - right. right. right. right. right. left. reflexivity.
  - intro H. inversion H as [|? ? [_ Hb] _]. vm_compute in Hb. discriminate.
Qed.
(** Adam on a function whose gradient overflows: NaN *)
Theorem C60_adam_refuted : exists acq s x r, run1 (AAdam 2 (fdiv (fofZ 9) (fofZ 10)) (fdiv (fofZ 999) (fofZ 1000)) (fdiv f1 (fofZ 1000)) f0) 1 acq /\
  one_step acq = Some s /\ In (EvEval x r) (trace s) /\ ~ in_box x.
Proof.
  exists (fun w _ _ => ([fnan], w)). do 3 eexists. split; [|split; [vm_compute; reflexivity|split]].
  - intros w m i. exists (fun x _ => (f0, Some [finf])), [f0]. split; [exact I|]. split; [split; [reflexivity|repeat constructor]|]. cbn [fst].
    replace (AVec [fnan]) with (of_run (adam (fun _ x => (f0, Some [finf])) (fun _ => f0) (fdiv (fofZ 9) (fofZ 10)) (fdiv (fofZ 999) (fofZ 1000)) (fdiv f1 (fofZ 1000)) f0 true 2 [f0])) by (vm_compute; reflexivity).
    apply (run_adam (fun _ => f0) lazy_nlopt (fun _ _ g => g) clip lazy_cmaes (fun x _ => (f0, Some [finf]))).
  - right. right. right. right. right. left. reflexivity.
  - intro H. inversion H as [|? ? [Ha _] _]. vm_compute in Ha. discriminate.
Qed.
(** the hypotheses of the theorem can be met: CMA-ES, then NLOpt; two random initial samples *)
Definition half_pheno (lo hi : F) (g : vec) : vec := map (fun _ => fdiv f1 (fofZ 2)) g.
Example C60_nonvacuous : let o := AThen (ACmaes false false) (ANlopt 500 f0 f0) in let acq := fun (w m : unit) (i : Z) => ([fdiv f1 (fofZ 2)] : vec, w) in
  from_box false o /\ acq_by (fun _ => f0) lazy_nlopt (fun _ _ g => g) half_pheno lazy_cmaes (sized false) o 1 acq /\ init_by (W := unit) 1 (random_sampling_n 2) (random_sampling_pt (fun w => (f1, w)) 1) /\
  nlopt_contract lazy_nlopt /\ (forall g, pt (length g) (half_pheno f0 f1 g)) /\ (forall o cb w x st x' w', Forall fvalid x -> lazy_nlopt o cb w x = (st, x', w') -> Forall fvalid x') /\
  exists s x r, one_step acq = Some s /\ In (EvEval x r) (trace s) /\ x = [fdiv f1 (fofZ 2)].
Proof.
  cbv zeta. split; [split; exact I|]. split; [|split; [|split; [exact lazy_contract|split; [|split]]]].
  - intros w m i. exists (fun x _ => (f0, None)), [f1]. split; [discriminate|]. split; [split; [reflexivity|repeat constructor]|]. cbn [fst].
    apply run_then with [fdiv f1 (fofZ 2)].
    + eapply run_cmaes. instantiate (1 := tt). instantiate (1 := tt). vm_compute. reflexivity.
    + eapply (run_nlopt (fun _ => f0) lazy_nlopt (fun _ _ g => g) half_pheno lazy_cmaes (fun x _ => (f0, None)) 500 f0 f0 [fdiv f1 (fofZ 2)] None tt (WRet [fdiv f1 (fofZ 2)])).
      * constructor.
      * vm_compute. reflexivity.
  - apply by_random. intros w. split; [apply f1_ok|split; reflexivity].
  - intros g. unfold half_pheno. split; [apply map_length|]. apply Forall_map. apply Forall_forall. intros x _. split; [apply fdiv_valid; apply fofZ_valid|split; vm_compute; reflexivity].
  - intros o cb w x st x' w' V E. unfold lazy_nlopt in E. destruct (_ || _); injection E as _ <- _; exact V.
  - do 3 eexists. split; [vm_compute; reflexivity|]. split; [right; right; right; right; right; left; reflexivity|vm_compute; reflexivity].
Qed.
(** the default parameters of Adam (opt/adam.hpp:64-79) and GradientAscent (opt/gradient_ascent.hpp:59-77) are accepted *)
Lemma ratio_rate a b : flt (fdiv (fofZ a) (fofZ b)) f1 = true -> fle f0 (fdiv (fofZ a) (fofZ b)) = true -> ffin (fdiv (fofZ a) (fofZ b)) -> rate (fdiv (fofZ a) (fofZ b)).
Proof.
  intros H1 H2 H3. assert (V : fvalid (fdiv (fofZ a) (fofZ b))) by (apply fdiv_valid; apply fofZ_valid). destruct f0_ok as (V0 & F0 & E0). destruct f1_ok as (V1 & F1 & E1).
  split; [exact V|]. split; [exact H3|]. apply flt_R in H1; auto. apply fle_R in H2; auto. lra.
Qed.
Lemma rate_bnd x : rate x -> bnd 400 x.
Proof. intros (V & Fx & B). apply (bnd_le 0); [lia|]. split; [exact V|]. split; [exact Fx|]. change (Raux.bpow Zaux.radix2 0) with 1%R. rewrite Rabs_pos_eq; lra. Qed.
Theorem C60_default_gradient_optimizers : (forall it stop, from_box true (AAdam it (fdiv (fofZ 9) (fofZ 10)) (fdiv (fofZ 999) (fofZ 1000)) (fdiv (fofZ 1) (fofZ 1000)) stop)) /\
  (forall it stop nesterov, from_box true (AGradientAscent it (fdiv (fofZ 9) (fofZ 10)) (fdiv (fofZ 1) (fofZ 1000)) stop nesterov)) /\
  (forall it stop nesterov, from_box true (AGradientAscent it f0 (fdiv (fofZ 1) (fofZ 1000)) stop nesterov)).
Proof.
  assert (R9 : rate (fdiv (fofZ 9) (fofZ 10))) by (apply ratio_rate; vm_compute; reflexivity).
  assert (R999 : rate (fdiv (fofZ 999) (fofZ 1000))) by (apply ratio_rate; vm_compute; reflexivity).
  assert (R1 : bnd 400 (fdiv (fofZ 1) (fofZ 1000))) by (apply rate_bnd, ratio_rate; vm_compute; reflexivity).
  assert (R0 : rate f0) by (destruct f0_ok as (A & B & C); split; [exact A|]; split; [exact B|]; lra).
  repeat split; try reflexivity; try apply R9; try apply R999; try apply R1; apply R0.
Qed.
Example C60_gradient_nonvacuous : let o := AAdam 3 (fdiv (fofZ 9) (fofZ 10)) (fdiv (fofZ 999) (fofZ 1000)) (fdiv (fofZ 1) (fofZ 1000)) f0 in
  let f := fun (x : vec) (_ : bool) => (f0, Some (map (fun _ => f1) x)) in exists x : vec,
  from_box true o /\ sized true f /\ acq_by (M := unit) (fun _ => f0) lazy_nlopt (fun _ _ g => g) half_pheno lazy_cmaes (sized true) o 1 (fun (w : unit) m i => (x, w)) /\ x <> [f0].
Proof.
  cbv zeta. set (f := fun (x : vec) (_ : bool) => (f0, Some (map (fun _ => f1) x))). set (o := AAdam _ _ _ _ _).
  assert (S : sized true f).
  { intros _ i x lik g _ E. unfold f in E. injection E as _ <-. apply Forall_map, Forall_forall. intros y _. destruct f1_ok as (V & F1 & E1).
    split; [exact V|]. split; [exact F1|]. rewrite E1, Rabs_R1. change 1%R with (Raux.bpow Zaux.radix2 0). apply Raux.bpow_le. lia. }
  assert (X : exists x tr, adam (fun _ x => f x true) (fun _ => f0) (fdiv (fofZ 9) (fofZ 10)) (fdiv (fofZ 999) (fofZ 1000)) (fdiv (fofZ 1) (fofZ 1000)) f0 true 3 [f0] = Some (x, tr) /\ x <> [f0]).
  { do 2 eexists. split; [vm_compute; reflexivity|discriminate]. }
  destruct X as (x & tr & E & N). exists x. split; [apply C60_default_gradient_optimizers|]. split; [exact S|]. split; [|exact N].
  intros w m i. exists f, [f0]. split; [exact S|]. split; [split; [reflexivity|repeat constructor]|]. cbn [fst].
  replace (AVec x) with (of_run (adam (fun _ x => f x true) (fun _ => f0) (fdiv (fofZ 9) (fofZ 10)) (fdiv (fofZ 999) (fofZ 1000)) (fdiv (fofZ 1) (fofZ 1000)) f0 true 3 [f0])) by (rewrite E; reflexivity).
  apply run_adam.
Qed.
End Witness.
