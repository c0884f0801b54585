(** C46: the constrained optimizer. *)
From Coq Require Import ZArith List Bool Lia.
From Coq Require Import Floats.SpecFloat.
From Verif Require Import F64 BOModel BOSpec BOFacts CBModel.
Import ListNotations.
Local Close Scope Z_scope. Local Open Scope nat_scope.

(** * What is meant: an observation is [dout] objective values followed by [nc] constraint values; it is
      feasible when every constraint value is positive *)
Definition objective (dout : nat) (o : vec) : vec := firstn dout o.
Definition feasible (dout : nat) (o : vec) : Prop := Forall (fun c => flt f0 c = true) (skipn dout o).
(** constraints are either satisfied (1) or not (0); a single constraint may have any value *)
Definition indicators (dout nc : nat) (o : vec) : Prop :=
  length o = dout + nc /\ (nc = 1 \/ Forall (fun c => c = f0 \/ c = f1) (skipn dout o)).

(** * Splitting *)
Definition feasb (dout : nat) (o : vec) : bool := flt f0 (prod (skipn dout o)).

Lemma prod_01 r : forall x, (x = f0 \/ x = f1) -> Forall (fun c => c = f0 \/ c = f1) r ->
  (fold_left fmul r x = f0 \/ fold_left fmul r x = f1) /\ (fold_left fmul r x = f1 <-> x = f1 /\ Forall (eq f1) r).
Proof.
  assert (Z : forall l, Forall (fun c => c = f0 \/ c = f1) l -> fold_left fmul l f0 = f0).
  { induction 1 as [|y l Hy Hl IH]; auto. cbn [fold_left]. destruct Hy as [->| ->]; exact IH. }
  assert (N : f0 <> f1) by discriminate.
  induction r as [|y r IH]; intros x Hx Hr.
  - simpl. split; auto. split; [intros ->; split; auto|tauto].
  - inversion Hr as [|? ? Hy Hr']; subst. cbn [fold_left].
    destruct Hx as [->| ->].
    + assert (E : fmul f0 y = f0) by (destruct Hy as [->| ->]; reflexivity). rewrite E, Z by auto.
      split; auto. split; [intros; contradiction|intros [X _]; contradiction].
    + assert (E : fmul f1 y = y) by (destruct Hy as [->| ->]; reflexivity). rewrite E.
      destruct (IH y Hy Hr') as (A & B). split; auto. rewrite B. split.
      * intros (-> & F). split; auto.
      * intros (_ & F). inversion F; subst; auto.
Qed.

Lemma feasb_spec dout nc o : 0 < nc -> indicators dout nc o -> (feasb dout o = true <-> feasible dout o).
Proof.
  intros Nc (L & I). unfold feasb, feasible. assert (Ls : length (skipn dout o) = nc) by (rewrite skipn_length; lia).
  destruct (skipn dout o) as [|c r]; [simpl in Ls; lia|]. cbn [prod]. destruct I as [->|I].
  - destruct r; [|simpl in Ls; lia]. simpl. split; intros H; [repeat constructor; auto|inversion H; auto].
  - inversion I as [|? ? Hc Hr]; subst. destruct (prod_01 r c Hc Hr) as (A & B).
    assert (P1 : flt f0 f1 = true) by reflexivity. assert (P0 : flt f0 f0 = false) by reflexivity.
    split; intros H.
    + destruct A as [A|A]; [rewrite A, P0 in H; discriminate|]. apply B in A. destruct A as (-> & F).
      constructor; auto. eapply Forall_impl; [|exact F]. intros a <-. auto.
    + assert (X : fold_left fmul r c = f1).
      { apply B. inversion H as [|? ? H1 H2]; subst. split.
        - destruct Hc as [->| ->]; auto. rewrite P0 in H1. discriminate.
        - rewrite Forall_forall in H2, Hr |- *. intros z Hz. specialize (H2 z Hz). destruct (Hr z Hz) as [->| ->]; auto. rewrite P0 in H2. discriminate. }
      rewrite X. auto.
Qed.

Lemma split_spec dout nc l : 0 < nc -> Forall (fun o => length o = dout + nc) l ->
  split_observations dout nc l = Some (map (objective dout) l, map (skipn dout) l).
Proof.
  intros Nc H. induction H as [|o l Ho Hl IH]; auto. cbn [split_observations]. rewrite Ho, Nat.eqb_refl, IH.
  apply Nat.ltb_lt in Nc. now rewrite Nc.
Qed.

Lemma feasible_spec dout l : feasible_observations (map (objective dout) l) (map (skipn dout) l) = Some (map (objective dout) (filter (feasb dout) l)).
Proof.
  induction l as [|o l IH]; auto. cbn [map feasible_observations filter]. rewrite IH. fold (feasb dout o). destruct (feasb dout o); auto.
Qed.

(** the observations considered by best_observation() *)
Definition considered (dout : nat) (l : list vec) : list vec :=
  match filter (feasb dout) l with [] => l | f => f end.

Lemma resplit_spec dout nc l : 0 < nc -> Forall (fun o => length o = dout + nc) l ->
  resplit dout nc l = Some (map (objective dout) (considered dout l), map (skipn dout) l).
Proof.
  intros Nc H. unfold resplit. rewrite (split_spec dout nc l Nc H), feasible_spec. unfold considered.
  destruct (filter (feasb dout) l); reflexivity.
Qed.

Lemma considered_in dout l o : In o (considered dout l) -> In o l.
Proof.
  unfold considered. destruct (filter (feasb dout) l) eqn:E; auto. rewrite <- E. intros H. now apply filter_In in H.
Qed.

Section Best.
Variables (dout nc : nat) (afun : vec -> F) (obs : list vec).
Hypothesis Hnc : 0 < nc.
Hypothesis Hobs : obs <> [].
Hypothesis Hind : Forall (indicators dout nc) obs.
Hypothesis Hnan : Forall (fun o => notnan (afun (objective dout o))) obs.

Lemma lens : Forall (fun o => length o = dout + nc) obs.
Proof. eapply Forall_impl; [|exact Hind]. intros o [H _]. exact H. Qed.

Lemma considered_feasible o : In o (considered dout obs) <-> In o obs /\ (feasible dout o \/ forall o', In o' obs -> ~ feasible dout o').
Proof.
  rewrite Forall_forall in Hind.
  assert (FS : forall o, In o obs -> feasb dout o = true <-> feasible dout o) by (intros; eapply feasb_spec; eauto).
  unfold considered. destruct (filter (feasb dout) obs) as [|f r] eqn:E.
  - split; [intros H|tauto]. split; auto. right. intros o' Ho' F. apply FS in F; auto.
    assert (X : In o' (filter (feasb dout) obs)) by (apply filter_In; auto). rewrite E in X. destruct X.
  - rewrite <- E. rewrite filter_In. split.
    + intros [H1 H2]. split; auto. left. now apply FS.
    + intros [H1 [H2|H2]]; [split; auto; now apply FS|].
      exfalso. assert (X : In f (filter (feasb dout) obs)) by (rewrite E; now left). apply filter_In in X. destruct X as [X1 X2].
      apply (H2 f X1). now apply FS.
Qed.

Lemma considered_nonempty : considered dout obs <> [].
Proof. unfold considered. destruct (filter (feasb dout) obs) eqn:E; auto. discriminate. Qed.

Lemma best_index : exists i o, nth_error (considered dout obs) i = Some o /\
  max_element (map afun (map (objective dout) (considered dout obs))) = i /\
  forall o', In o' (considered dout obs) -> flt (afun (objective dout o)) (afun (objective dout o')) = false.
Proof.
  rewrite map_map.
  destruct (max_element_spec (map (fun o => afun (objective dout o)) (considered dout obs))) as (v & Hi & Hmax & _).
  { intros X. apply map_eq_nil in X. now apply considered_nonempty. }
  { apply Forall_map. rewrite Forall_forall in Hnan |- *. intros o Ho. apply Hnan. eapply considered_in; eauto. }
  set (i := max_element _) in *. rewrite nth_error_map in Hi. destruct (nth_error (considered dout obs) i) as [o|] eqn:Eo; [|discriminate].
  simpl in Hi. inversion Hi; subst. exists i, o. split; auto. split; auto. intros o' Ho'.
  apply In_nth_error in Ho'. destruct Ho' as (j & Hj). apply (Hmax j). rewrite nth_error_map, Hj. reflexivity.
Qed.

(** best_observation(): a feasible one of maximal objective when there is a feasible one, otherwise one
    of maximal objective *)
Theorem C46_best_observation : exists o, In o obs /\ cb_best_observation afun dout nc obs = Some (objective dout o) /\
  ((exists o', In o' obs /\ feasible dout o') -> feasible dout o) /\
  (forall o', In o' obs -> feasible dout o' \/ (forall o', In o' obs -> ~ feasible dout o') ->
     flt (afun (objective dout o)) (afun (objective dout o')) = false).
Proof.
  destruct best_index as (i & o & Hi & Hm & Hmax). exists o. assert (Ho : In o (considered dout obs)) by (eapply nth_error_In; eauto).
  split; [eapply considered_in; eauto|]. split.
  { unfold cb_best_observation. rewrite (resplit_spec dout nc obs Hnc lens), Hm, nth_error_map, Hi. reflexivity. }
  split.
  - intros (o' & Ho' & F). apply considered_feasible in Ho. destruct Ho as (_ & [Ho|Ho]); auto. exfalso. eapply Ho; eauto.
  - intros o' H1 H2. apply Hmax. apply considered_feasible. auto.
Qed.

(** best_sample(): right when all observations are feasible or none is *)
Theorem C46_best_sample_partial samples : length samples = length obs ->
  (forall o, In o obs -> feasible dout o) \/ (forall o, In o obs -> ~ feasible dout o) ->
  exists i x o, nth_error samples i = Some x /\ nth_error obs i = Some o /\
    cb_best_sample afun dout nc samples obs = Some x /\ cb_best_observation afun dout nc obs = Some (objective dout o).
Proof.
  intros L H. assert (C : considered dout obs = obs).
  { unfold considered. destruct H as [H|H].
    - replace (filter (feasb dout) obs) with obs; [destruct obs; auto|].
      symmetry. pose proof Hind as I. rewrite Forall_forall in I. clear -H I Hnc.
      induction obs as [|o l IH]; auto. cbn [filter].
      assert (feasb dout o = true) as -> by (eapply feasb_spec; eauto; [apply I; now left|apply H; now left]). f_equal. apply IH; intros; [apply H|apply I]; now right.
    - destruct (filter (feasb dout) obs) as [|f r] eqn:E; auto. exfalso.
      assert (X : In f (filter (feasb dout) obs)) by (rewrite E; now left). apply filter_In in X. destruct X as [X1 X2].
      apply (H f X1). pose proof Hind as I. rewrite Forall_forall in I. eapply feasb_spec; eauto. }
  destruct best_index as (i & o & Hi & Hm & Hmax). rewrite C in *.
  destruct (nth_error samples i) as [x|] eqn:Ex.
  - exists i, x, o. split; auto. split; auto. unfold cb_best_sample, cb_best_observation.
    rewrite (resplit_spec dout nc obs Hnc lens), C, Hm. split; auto. rewrite nth_error_map, Hi. reflexivity.
  - apply nth_error_None in Ex. assert (i < length obs) by (apply nth_error_Some; congruence). lia.
Qed.
End Best.

(** * The values the model is trained with *)
Section Training.
Context {W M C E : Type}.
Variable sfun : W -> vec -> (vec + E) * W.
Variables (dout nc : nat).
Variables (m_fresh : M) (c_fresh : C).
Variable m_compute : W -> M -> list vec -> list vec -> M * W.
Variable c_compute : W -> C -> list vec -> list vec -> C * W.
Variable m_add : W -> M -> vec -> vec -> M * W.
Variable c_add : W -> C -> vec -> vec -> C * W.
Variable m_hp : W -> M -> M * W.
Variable c_hp : W -> C -> C * W.
Variable hp_period : Z.
Variable acq : W -> M -> C -> Z -> vec * W.
Variable init_n : nat.
Variable init_pt : nat -> W -> vec * W.
Notation st := (bo W (cbm M C) E).
Variables (peek_stop peek_stat : st -> bool).
Notation iter := (cb_iteration sfun dout nc m_add c_add m_hp c_hp hp_period acq peek_stat).
Notation loop := (cb_loop sfun dout nc m_add c_add m_hp c_hp hp_period acq peek_stop peek_stat).
Notation optimize := (cb_optimize sfun dout nc m_fresh c_fresh m_compute c_compute m_add c_add m_hp c_hp hp_period acq init_n init_pt peek_stop peek_stat).

Lemma last_some {T} (l : list T) x : last (map Some (l ++ [x])) None = Some x.
Proof. rewrite map_app. apply last_last. Qed.

Lemma eval_ret (s : st) x s2 : eval_and_add sfun s x = Ret s2 ->
  exists v, samples s2 = samples s ++ [x] /\ observations s2 = observations s ++ [v] /\ model s2 = model s.
Proof.
  unfold eval_and_add, add_new_sample. destruct (sfun (world s) x) as [[v|e] w]; [|discriminate].
  destruct (is_nan_or_inf v); [discriminate|]. intros H. inversion H. exists v. auto.
Qed.

Lemma peek_cases b (s : st) k r : peek dout nc b s k = r -> r <> UninitRead ->
  (b = false /\ k s = r) \/ (b = true /\ exists o, resplit dout nc (observations s) = Some o /\ k (set_obs s (Some o)) = r).
Proof.
  unfold peek. intros E1 N. destruct b; [right|left]; auto. split; auto. destruct (resplit _ _ _) as [o|]; [|congruence]. eauto.
Qed.

Lemma hp_keeps c (s : st) : let s' := cb_hp nc m_hp c_hp hp_period c s in
  samples s' = samples s /\ observations s' = observations s /\ c_fed (model s') = c_fed (model s) /\ c_obs (model s') = c_obs (model s) /\
  tot s' = tot s /\ cur s' = cur s.
Proof.
  unfold cb_hp. destruct (_ && _)%bool; [|cbn; auto 10]. destruct (m_hp _ _) as [m w]. destruct (0 <? nc)%nat; [destruct (c_hp _ _) as [cm w']|]; cbn; auto 10.
Qed.
(** what one iteration does: [s3] is the state when [_model.add_sample] is called *)
Lemma iter_ret c (s0 s' : st) : iter c s0 = Ret s' -> exists x v y o0 o1,
  samples s' = samples s0 ++ [x] /\ observations s' = observations s0 ++ [v] /\
  c_fed (model s') = c_fed (model s0) ++ [(x, y)] /\ c_obs (model s') = Some (o0, o1) /\ last (map Some o0) None = Some y /\
  exists s2, observations s2 = observations s' /\ 
  ((peek_stat s2 = false /\ c_obs (model s0) = Some (o0, o1)) \/
   (peek_stat s2 = true /\ resplit dout nc (observations s') = Some (o0, o1))).
Proof.
  unfold cb_iteration. destruct (acq _ _ _ _) as [x w1]. destruct (eval_and_add sfun (set_world s0 w1) x) as [s2| | |] eqn:Ev; try discriminate.
  apply eval_ret in Ev. destruct Ev as (v & Sx & So & Sm). cbn in Sx, So, Sm. intros H.
  match type of H with peek _ _ _ _ ?f = _ => set (k := f) in H end. apply peek_cases in H; [|discriminate].
  assert (K : forall s3 : st, k s3 = Ret s' -> samples s3 = samples s2 -> observations s3 = observations s2 ->
     samples s' = samples s2 /\ observations s' = observations s2 /\
     exists y o0 o1, c_obs (model s3) = Some (o0, o1) /\ last (map Some o0) None = Some y /\
       c_fed (model s') = c_fed (model s3) ++ [(x, y)] /\ c_obs (model s') = c_obs (model s3)).
  { intros s3 Hk E1 E2. unfold k in Hk. rewrite E1, Sx, last_some in Hk. destruct (c_obs (model s3)) as [[o0 o1]|] eqn:Eo; [|discriminate].
    destruct (last (map Some o0) None) as [y|] eqn:Ey; [|discriminate].
    destruct (m_add _ _ _ _) as [m w3].
    destruct (0 <? nc)%nat.
    - destruct (last (map Some o1) None) as [z|]; [|discriminate]. destruct (c_add _ _ _ _) as [cm w4]. injection Hk as <-.
      match goal with |- context [cb_hp nc m_hp c_hp hp_period c ?u] => destruct (hp_keeps c u) as (K1 & K2 & K3 & K4 & _) end.
      cbn [samples observations model set_tot set_cur]. rewrite K1, K2, K3, K4. cbn. split; auto. split; auto. exists y, o0, o1. auto.
    - injection Hk as <-.
      match goal with |- context [cb_hp nc m_hp c_hp hp_period c ?u] => destruct (hp_keeps c u) as (K1 & K2 & K3 & K4 & _) end.
      cbn [samples observations model set_tot set_cur]. rewrite K1, K2, K3, K4. cbn. split; auto. split; auto. exists y, o0, o1. auto. }
  destruct H as [(Hb & Hk)|(Hb & o & Hr & Hk)].
  - destruct (K s2 Hk eq_refl eq_refl) as (A & B & y & o0 & o1 & D & F & G & I).
    exists x, v, y, o0, o1. rewrite A, B, Sx, So, G, I, <- Sm. repeat (split; [solve [auto]|]). exists s2. split; auto.
  - destruct (K _ Hk eq_refl eq_refl) as (A & B & y & o0 & o1 & D & F & G & I).
    cbn in D, G, I. inversion D; subst o. exists x, v, y, o0, o1. rewrite A, B, Sx, G, I, <- Sm.
    repeat (split; [solve [auto]|]). exists s2. split; [|right]; auto.
Qed.

Lemma loop_cases cs fuel (s s' : st) : loop cs (S fuel) s = Ret s' -> exists s0,
  samples s0 = samples s /\ observations s0 = observations s /\ c_fed (model s0) = c_fed (model s) /\
  (peek_stop s = false -> c_obs (model s0) = c_obs (model s)) /\
  (s' = s0 \/ exists c s1, iter c s0 = Ret s1 /\ loop cs fuel s1 = Ret s').
Proof.
  cbn [cb_loop]. destruct (cur s) as [c|]; [|discriminate]. destruct (stop_now cs s) as [b w]. intros H. apply peek_cases in H; [|discriminate].
  destruct H as [(Hb & H)|(Hb & o & Hr & H)].
  - exists (set_world s w). repeat (split; [solve [auto]|]).
    destruct b; [left; inversion H; auto|]. right. destruct (iter c (set_world s w)) eqn:Ei; try discriminate. eauto.
  - exists (set_obs (set_world s w) (Some o)). repeat (split; [solve [auto]|]). split; [congruence|].
    destruct b; [left; inversion H; auto|]. right. destruct (iter c _) eqn:Ei; try discriminate. eauto.
Qed.

(** If neither the statistics nor the stopping criteria ask for the best observation, [_obs] is never
    updated: every new sample is given to the model with the objective value of the last point of the
    initialisation. *)
Theorem C46_stale_training cs fuel (s s' : st) o0 o1 y0 : (forall s, peek_stop s = false) -> (forall s, peek_stat s = false) ->
  c_obs (model s) = Some (o0, o1) -> last (map Some o0) None = Some y0 -> loop cs fuel s = Ret s' ->
  exists xs, samples s' = samples s ++ xs /\ c_fed (model s') = c_fed (model s) ++ map (fun x => (x, y0)) xs.
Proof.
  intros P1 P2. revert s. induction fuel as [|fuel IH]; intros s Ho Hy H; [discriminate|].
  apply loop_cases in H. destruct H as (s0 & A & _ & B & D & [->|(c & s1 & Ei & H)]).
  - exists []. rewrite !app_nil_r. auto.
  - apply iter_ret in Ei. destruct Ei as (x & v & y & p0 & p1 & S1 & _ & F1 & O1 & L1 & s2 & _ & [(_ & O0)|(X & _)]); [|now rewrite P2 in X].
    rewrite (D (P1 s)), Ho in O0. inversion O0; subst p0 p1. rewrite Hy in L1. inversion L1; subst y.
    destruct (IH s1 O1 Hy H) as (xs & E1 & E2). exists (x :: xs). rewrite E1, E2, S1, F1, A, B, <- !app_assoc. auto.
Qed.

(** With statistics that ask for the best observation at every iteration the values are right as long as
    every observation is feasible. *)
Lemma loop_training cs fuel (s s' : st) : 0 < nc -> (forall s, peek_stat s = true) -> loop cs fuel s = Ret s' ->
  Forall (fun o => length o = dout + nc /\ feasb dout o = true) (observations s') ->
  exists xs os, length xs = length os /\ samples s' = samples s ++ xs /\ observations s' = observations s ++ os /\
    c_fed (model s') = c_fed (model s) ++ combine xs (map (objective dout) os).
Proof.
  intros Nc P2. revert s. induction fuel as [|fuel IH]; intros s H F; [discriminate|].
  apply loop_cases in H. destruct H as (s0 & A & A' & B & D & [->|(c & s1 & Ei & H)]).
  - exists [], []. rewrite !app_nil_r. auto.
  - apply iter_ret in Ei. destruct Ei as (x & v & y & p0 & p1 & S1 & T1 & F1 & O1 & L1 & s2 & _ & [(X & _)|(_ & R)]); [now rewrite P2 in X|].
    destruct (IH s1 H F) as (xs & os & L & E1 & E1' & E2).
    assert (Fs : Forall (fun o => length o = dout + nc /\ feasb dout o = true) (observations s1)) by (rewrite E1' in F; apply Forall_app in F; tauto).
    rewrite (resplit_spec dout nc) in R; auto; [|eapply Forall_impl; [|exact Fs]; intros a Ha; apply Ha].
    assert (Cn : considered dout (observations s1) = observations s1).
    { unfold considered. replace (filter (feasb dout) (observations s1)) with (observations s1); [destruct (observations s1); auto|].
      clear -Fs. induction Fs as [|o l [_ Ho] Hl IHl]; auto. cbn [filter]. rewrite Ho. now rewrite <- IHl. }
    rewrite Cn in R. inversion R; subst p0 p1. rewrite T1, map_app in L1. cbn [map] in L1. rewrite last_some in L1. inversion L1; subst y.
    exists (x :: xs), (v :: os). split; [simpl; lia|]. rewrite E1, E1', E2, S1, T1, F1, A, A', B, <- !app_assoc. auto.
Qed.

Lemma init_ret_model k i (s s1 : st) : run_init sfun init_pt k i s = Ret s1 -> model s1 = model s.
Proof.
  revert i s. induction k as [|k IH]; intros i s; cbn [run_init]; [intros H; inversion H; auto|].
  destruct (init_pt i (world s)) as [x w]. destruct (eval_and_add sfun (set_world s w) x) as [s2| | |] eqn:Ev; try discriminate.
  intros H. apply IH in H. apply eval_ret in Ev. destruct Ev as (v & _ & _ & Em). rewrite H, Em. reflexivity.
Qed.

Theorem C46_training_partial cs fuel reset (s s' : st) : 0 < nc -> (forall s, peek_stat s = true) ->
  optimize cs fuel reset s = Ret s' -> Forall (indicators dout nc) (observations s') -> Forall (feasible dout) (observations s') ->
  exists s1, init_phase sfun init_n init_pt reset s = Ret s1 /\
    exists xs os, length xs = length os /\ samples s' = samples s1 ++ xs /\ observations s' = observations s1 ++ os /\
      c_fed (model s') = c_fed (model s) ++ combine xs (map (objective dout) os).
Proof.
  intros Nc P2 H I F. unfold cb_optimize in H. destruct (init_phase sfun init_n init_pt reset s) as [s1| | |] eqn:Ei; try discriminate.
  exists s1. split; auto.
  assert (Em : model s1 = model s).
  { unfold init_phase in Ei. destruct reset; (destruct (_ =? _)%Z in Ei; [apply init_ret_model in Ei; exact Ei|inversion Ei; reflexivity]). }
  assert (F' : Forall (fun o => length o = dout + nc /\ feasb dout o = true) (observations s')).
  { rewrite Forall_forall in I, F |- *. intros o Ho. split; [apply I; auto|]. eapply feasb_spec; eauto. }
  destruct (observations s1) as [|o1 or] eqn:Eo.
  - apply loop_training in H; auto. cbn in H. rewrite Em, Eo in H. exact H.
  - rewrite <- Eo in *. destruct (split_observations dout nc (observations s1)) as [[a b]|]; [|discriminate].
    destruct (m_compute _ _ _ _) as [m w]. destruct (if (0 <? nc)%nat then _ else _) as [cm w'].
    apply loop_training in H; auto. cbn in H. rewrite Em in H. exact H.
Qed.
End Training.

(** * Where the claim fails *)
Definition one (n : Z) : vec := [fofZ n].
Definition first (v : vec) : F := hd f0 v.

(** an infeasible first sample shifts the positions: best_sample() is infeasible although
    best_observation() was measured, feasibly, elsewhere *)
Theorem C46_best_sample_refuted : exists samples obs x o,
  length samples = length obs /\ Forall (indicators 1 1) obs /\ NoDup samples /\ NoDup (map (objective 1) obs) /\
  cb_best_sample first 1 1 samples obs = Some x /\ cb_best_observation first 1 1 obs = Some (objective 1 o) /\
  In o obs /\ feasible 1 o /\
  (forall o', In (x, o') (combine samples obs) -> ~ feasible 1 o' /\ objective 1 o' <> objective 1 o).
Proof.
  exists [one 10; one 20], [[fofZ 0; fofZ 0]; [fofZ 5; fofZ 1]], (one 10), [fofZ 5; fofZ 1].
  split; [reflexivity|]. split; [repeat constructor; auto|].
  split. { constructor; [|constructor; [intros []|constructor]]. intros [H|[]]. vm_compute in H. discriminate. }
  split. { constructor; [|constructor; [intros []|constructor]]. intros [H|[]]. vm_compute in H. discriminate. }
  split; [vm_compute; reflexivity|]. split; [vm_compute; reflexivity|]. split; [right; left; reflexivity|].
  split; [repeat constructor|].
  intros o' [H|[H|[]]].
  - inversion H. split; [|vm_compute; discriminate]. intros F. inversion F as [|? ? F1 _]. vm_compute in F1. discriminate.
  - exfalso. apply (f_equal fst) in H. vm_compute in H. discriminate.
Qed.

(** two violated constraints with negative values count as feasible *)
Theorem C46_signs_refuted : exists obs o o', In o obs /\ In o' obs /\ feasible 1 o' /\ ~ feasible 1 o /\
  cb_best_observation first 1 2 obs = Some (objective 1 o) /\ objective 1 o <> objective 1 o'.
Proof.
  exists [[fofZ 5; fofZ (-1); fofZ (-1)]; [fofZ 1; fofZ 1; fofZ 1]], [fofZ 5; fofZ (-1); fofZ (-1)], [fofZ 1; fofZ 1; fofZ 1].
  split; [left; auto|]. split; [right; left; auto|]. split; [repeat constructor|].
  split; [intros F; inversion F as [|? ? F1 _]; vm_compute in F1; discriminate|].
  split; vm_compute; [reflexivity|discriminate].
Qed.

(** without constraints best_observation() reads out of range *)
Theorem C46_no_constraints_refuted : forall afun dout obs, obs <> [] -> cb_best_observation afun dout 0 obs = None.
Proof.
  intros afun dout obs H. unfold cb_best_observation, resplit. destruct (split_observations dout 0 obs) as [[a b]|] eqn:E; auto.
  destruct obs as [|o l]; [congruence|]. cbn [split_observations] in E. destruct (length o =? dout + 0); [|discriminate].
  destruct (split_observations dout 0 l) as [[a' b']|] eqn:E'; [|discriminate].
  assert (X : b' = []); [|subst b'; inversion E; reflexivity].
  clear -E'. revert a' b' E'. induction l as [|x l IH]; intros a' b' E'; cbn [split_observations] in E'; [inversion E'; auto|].
  destruct (length x =? dout + 0); [|discriminate]. destruct (split_observations dout 0 l) as [[a b]|]; [|discriminate].
  inversion E'; subst. eapply IH; eauto.
Qed.

(** ** whole runs: the objective is [x], the constraint [x >= 2] *)
Section Runs.
Definition sf (w : unit) (x : vec) : (vec + unit) * unit := (inl [first x; if fle (fofZ 2) (first x) then f1 else f0], w).
Definition acq1 (w : unit) (m c : unit) (i : Z) : vec * unit := (one (i + 1), w).
Definition comp (w : unit) (m : unit) (a b : list vec) := (m, w).
Definition addm (w : unit) (m : unit) (a b : vec) := (m, w).
Definition hp1 (w m : unit) := (m, w).
Definition run1 (pk : bool) (n : nat) (pt : Z) (its : Z) : result unit (cbm unit unit) unit :=
  cb_optimize sf 1 1 tt tt comp comp addm addm hp1 hp1 2 acq1 n (fun _ w => (one pt, w)) (fun _ => false) (fun _ => pk)
    [max_iterations its] 10 true (new_bo (mkCb tt tt None []) tt).

(** one initial point (0), then the sample 1: the model is told that the value at 1 is 0 *)
Theorem C46_training_refuted : exists s, run1 false 1 0 1 = Ret s /\
  samples s = [one 0; one 1] /\ map (objective 1) (observations s) = [one 0; one 1] /\ c_fed (model s) = [(one 1, one 0)] /\ one 0 <> one 1.
Proof. eexists. split; [vm_compute; reflexivity|]. repeat (split; [vm_compute; reflexivity|]). vm_compute. discriminate. Qed.

(** even if the statistics refresh the split observations: after a feasible point (5), the infeasible
    sample 1 is given to the model with the value 5 *)
Theorem C46_training_filtered_refuted : exists s, run1 true 1 5 1 = Ret s /\
  samples s = [one 5; one 1] /\ map (objective 1) (observations s) = [one 5; one 1] /\ c_fed (model s) = [(one 1, one 5)] /\ one 5 <> one 1.
Proof. eexists. split; [vm_compute; reflexivity|]. repeat (split; [vm_compute; reflexivity|]). vm_compute. discriminate. Qed.

(** without initial points [_obs[0]] does not exist when the first sample arrives *)
Theorem C46_no_init_refuted : run1 false 0 0 1 = UninitRead.
Proof. vm_compute. reflexivity. Qed.

(** the hypotheses of the positive theorems can be met *)
Example C46_ex : exists s, run1 true 1 3 3 = Ret s /\ Forall (indicators 1 1) (observations s).
Proof. eexists. split; [vm_compute; reflexivity|]. cbn. repeat constructor; auto. Qed.
Example C46_ex_feasible : exists s,
  cb_optimize sf 1 1 tt tt comp comp addm addm hp1 hp1 2 (fun w m c i => acq1 w m c (i + 4)%Z) 1 (fun _ w => (one 3, w)) (fun _ => false) (fun _ => true)
    [max_iterations 2] 10 true (new_bo (mkCb tt tt None []) tt) = Ret s /\
  Forall (indicators 1 1) (observations s) /\ Forall (feasible 1) (observations s) /\
  c_fed (model s) = [(one 5, one 5); (one 6, one 6)].
Proof. eexists. split; [vm_compute; reflexivity|]. split; [cbn; repeat constructor; auto|]. split; [|vm_compute; reflexivity]. cbn. repeat constructor; vm_compute; reflexivity. Qed.
End Runs.
