(** C46, second part: what the two models of the constrained optimizer have been trained with, and its counters. *)
From Coq Require Import ZArith List Bool Lia.
From Coq Require Import Floats.SpecFloat.
From Verif Require Import F64 BOModel BOSpec BOFacts CBModel Prop_CB.
Import ListNotations.
Local Close Scope Z_scope. Local Open Scope nat_scope.

(** ** Specification *)
Section Trained.
Context {W T : Type}.
Variable fresh : T.
Variable compute : W -> T -> list vec -> list vec -> T * W.
Variable add : W -> T -> vec -> vec -> T * W.
Variable hp : W -> T -> T * W.
(** the model has been given exactly these pairs: all at once, or one after the other; its hyper-parameters may have
    been optimised *)
Inductive trained : list (vec * vec) -> T -> Prop :=
| t_fresh : trained [] fresh
| t_compute w m xs ys : length xs = length ys -> trained (combine xs ys) (fst (compute w m xs ys))
| t_add w m l x y : trained l m -> trained (l ++ [(x, y)]) (fst (add w m x y))
| t_hp w m l : trained l m -> trained l (fst (hp w m)).
End Trained.
Definition constraints (dout : nat) (o : vec) : vec := skipn dout o.

Section Models.
Context {W M C E : Type}.
Variable sfun : W -> vec -> (vec + E) * W.
Variables (dout nc : nat).
Variables (m_fresh : M) (c_fresh : C).
Variable m_compute : W -> M -> list vec -> list vec -> M * W.
Variable c_compute : W -> C -> list vec -> list vec -> C * W.
Variable m_add : W -> M -> vec -> vec -> M * W.
Variable c_add : W -> C -> vec -> vec -> C * W.
Variable m_hp : W -> M -> M * W.
Variable c_hp : W -> C -> C * W.
Variable hp_period : Z.
Variable acq : W -> M -> C -> Z -> vec * W.
Variable init_n : nat.
Variable init_pt : nat -> W -> vec * W.
Notation st := (bo W (cbm M C) E).
Variables (peek_stop peek_stat : st -> bool).
Notation iter := (cb_iteration sfun dout nc m_add c_add m_hp c_hp hp_period acq peek_stat).
Notation loop := (cb_loop sfun dout nc m_add c_add m_hp c_hp hp_period acq peek_stop peek_stat).
Notation optimize := (cb_optimize sfun dout nc m_fresh c_fresh m_compute c_compute m_add c_add m_hp c_hp hp_period acq init_n init_pt peek_stop peek_stat).
Notation trained_m := (trained m_fresh m_compute m_add m_hp).
Notation trained_c := (trained c_fresh c_compute c_add c_hp).
Hypothesis Nc : 0 < nc.
Hypothesis Peek : forall s, peek_stat s = true.

Definition wide (l : list vec) : Prop := Forall (fun o => length o = dout + nc) l.
Definition all_feasible (l : list vec) : Prop := Forall (fun o => feasb dout o = true) l.
(** the constraint model knows every sample with its constraint values; the objective model every sample with its
    objective values, if all are feasible *)
Definition current (s : st) : Prop := length (samples s) = length (observations s) /\
  (wide (observations s) -> trained_c (combine (samples s) (map (constraints dout) (observations s))) (c_con (model s)) /\
     (all_feasible (observations s) -> trained_m (combine (samples s) (map (objective dout) (observations s))) (c_obj (model s)))).
Definition counted (k0 : nat) (t0 : Z) (h0 : list Z) (s : st) : Prop := exists k, cur s = Some (Z.of_nat k) /\ tot s = (t0 + Z.of_nat k)%Z /\
  length (samples s) = k0 + k /\ hp_iters (trace s) = h0 ++ filter (divides hp_period) (upto k).
Lemma hp_models c (s : st) l l' : let s' := cb_hp nc m_hp c_hp hp_period c s in
  (trained_m l (c_obj (model s)) -> trained_m l (c_obj (model s'))) /\ (trained_c l' (c_con (model s)) -> trained_c l' (c_con (model s'))).
Proof.
  unfold cb_hp. destruct (_ && _)%bool; [|cbn; auto]. destruct (m_hp (world s) (c_obj (model s))) as [m w] eqn:Em.
  assert (Hm : trained_m l (c_obj (model s)) -> trained_m l m). { intro H. replace m with (fst (m_hp (world s) (c_obj (model s)))) by now rewrite Em. now apply t_hp. }
  destruct (0 <? nc)%nat; [|cbn; auto]. cbn [model world c_con set_model set_world log]. destruct (c_hp w (c_con (model s))) as [cm w'] eqn:Ec. cbn. split; [exact Hm|].
  intro H. replace cm with (fst (c_hp w (c_con (model s)))) by now rewrite Ec. now apply t_hp.
Qed.
Lemma hp_iters_app (a b : list (event (cbm M C) E)) : hp_iters (a ++ b) = hp_iters a ++ hp_iters b.
Proof. induction a as [|[]]; cbn; auto; now rewrite IHa. Qed.
Lemma upto_S k : upto (S k) = upto k ++ [(Z.of_nat k + 1)%Z].
Proof. clear -k. unfold upto. rewrite seq_S, map_app. cbn [map]. do 2 f_equal. lia. Qed.
Lemma hp_schedule k h0 (s : st) : hp_iters (trace s) = h0 ++ filter (divides hp_period) (upto k) ->
  hp_iters (trace (cb_hp nc m_hp c_hp hp_period (Z.of_nat k) s)) = h0 ++ filter (divides hp_period) (upto (S k)).
Proof.
  intro H. rewrite upto_S, filter_app, app_assoc, <- H. cbn [filter]. unfold divides, cb_hp. destruct (_ && _)%bool; [|now rewrite app_nil_r].
  destruct (m_hp _ _) as [m w]. destruct (0 <? nc)%nat; [destruct (c_hp _ _) as [cm w']|]; cbn [trace set_model set_world log]; rewrite hp_iters_app; reflexivity.
Qed.
Definition ends (r : result W (cbm M C) E) (s' : st) : Prop := r = Ret s' \/ r = Running s'.

Lemma considered_all l : all_feasible l -> considered dout l = l.
Proof.
  intro H. unfold considered. replace (filter (feasb dout) l) with l; [destruct l; auto|].
  induction H as [|o l Ho Hl IHl]; auto. cbn [filter]. rewrite Ho. now rewrite <- IHl.
Qed.
Lemma combine_snoc {A B} (a : list A) (b : list B) x y : length a = length b -> combine (a ++ [x]) (b ++ [y]) = combine a b ++ [(x, y)].
Proof. revert b. induction a as [|u a IH]; intros [|v b] H; cbn in *; try discriminate; auto. f_equal. apply IH. lia. Qed.

Lemma iter_current k0 t0 h0 c s0 s' : current s0 -> counted k0 t0 h0 s0 -> cur s0 = Some c -> iter c s0 = Ret s' -> current s' /\ counted k0 t0 h0 s'.
Proof.
  intros [L T] (k & Kc & Kt & Kl & Kh) Ec. rewrite Ec in Kc. injection Kc as ->. unfold cb_iteration. destruct (acq _ _ _ _) as [x w1].
  destruct (eval_and_add sfun (set_world s0 w1) x) as [s2| | |] eqn:Ev; try discriminate.
  assert (Tt : tot s2 = tot s0 /\ hp_iters (trace s2) = hp_iters (trace s0)).
  { unfold eval_and_add, add_new_sample in Ev. destruct (sfun _ x) as [[v|e] w]; [|discriminate]. destruct (is_nan_or_inf v); [discriminate|]. injection Ev as <-. cbn [trace tot push log set_world]. rewrite hp_iters_app. cbn. now rewrite app_nil_r. }
  destruct Tt as [Tt Th].
  apply eval_ret in Ev. destruct Ev as (v & Sx & So & Sm). cbn [samples observations model set_world] in Sx, So, Sm.
  unfold peek. rewrite Peek. destruct (resplit dout nc (observations s2)) as [[o0 o1]|] eqn:R; [|discriminate]. cbn [c_obs model set_obs set_model samples].
  rewrite Sx, last_some. destruct (last (map Some o0) None) as [y|] eqn:Ey; [|discriminate].
  destruct (m_add _ _ x y) as [m w3] eqn:Em. replace (0 <? nc)%nat with true by (symmetry; now apply Nat.ltb_lt).
  destruct (last (map Some o1) None) as [z|] eqn:Ez; [|discriminate]. destruct (c_add _ _ x z) as [cm w4] eqn:Ecm. intro H. injection H as <-.
  cbn [c_obj c_con c_obs world model set_obs set_model set_world set_cur set_tot] in Em, Ecm.
  match goal with |- context [cb_hp nc m_hp c_hp hp_period (Z.of_nat k) ?u] =>
    destruct (hp_keeps nc m_hp c_hp hp_period (Z.of_nat k) u) as (U1 & U2 & _ & _ & U5 & _); pose proof (hp_models (Z.of_nat k) u) as U7; pose proof (hp_schedule k h0 u) as U8 end.
  cbn zeta in U1, U2, U5, U7. cbn [samples observations set_tot set_cur set_model set_world set_obs tot] in U1, U2, U5.
  split.
  - split; cbn [samples observations set_tot set_cur set_model set_world set_obs]; [rewrite U1, U2, Sx, So, !app_length, L; reflexivity|].
    cbn [model set_tot set_cur]. rewrite U1, U2, Sx, So. intros Wd. assert (W0 : wide (observations s0)) by (apply Forall_app in Wd; apply Wd). destruct (T W0) as [Tc Tm].
    rewrite So in R. rewrite (resplit_spec dout nc) in R by assumption. injection R as R0 R1.
    rewrite !map_app. cbn [map]. rewrite !combine_snoc by (rewrite map_length; exact L).
    split.
    + apply (proj2 (U7 [] _)). cbn [model set_model c_con c_obj]. replace cm with (fst (c_add w3 (c_con (model s2)) x (constraints dout v))).
      * apply t_add. rewrite Sm. exact Tc.
      * rewrite <- R1, map_app in Ez. cbn [map] in Ez. rewrite last_some in Ez. injection Ez as <-. exact (f_equal fst Ecm).
    + intros Fs. assert (F0 : all_feasible (observations s0)) by (apply Forall_app in Fs; apply Fs).
      apply (proj1 (U7 _ [])). cbn [model set_model c_con c_obj]. replace m with (fst (m_add (world s2) (c_obj (model s2)) x (objective dout v))).
      * apply t_add. rewrite Sm. exact (Tm F0).
      * rewrite (considered_all _ Fs) in R0. rewrite <- R0, map_app in Ey. cbn [map] in Ey. rewrite last_some in Ey. injection Ey as <-. now rewrite Em.
  - exists (S k). cbn [cur tot samples set_tot set_cur set_model set_world set_obs]. split; [f_equal; lia|]. split; [rewrite Tt, Kt; lia|]. split; [rewrite U1, Sx, app_length, Kl; cbn; lia|].
    cbn [trace set_tot set_cur]. apply U8. cbn [trace set_model set_world set_obs]. rewrite Th. exact Kh.
Qed.
Lemma loop_current k0 t0 h0 cs : forall fuel s s', current s -> counted k0 t0 h0 s -> ends (loop cs fuel s) s' -> current s' /\ counted k0 t0 h0 s'.
Proof.
  induction fuel as [|fuel IH]; intros s s' H K R; cbn [cb_loop] in R.
  - destruct R as [R|R]; [discriminate|]. injection R as <-. now split.
  - destruct (cur s) as [c|] eqn:Ec; [|destruct R; discriminate]. destruct (stop_now cs s) as [b w].
    assert (Q : forall s0, current s0 -> counted k0 t0 h0 s0 -> cur s0 = Some c ->
      ends (if b then Ret s0 else match iter c s0 with Ret s'' => loop cs fuel s'' | r => r end) s' -> current s' /\ counted k0 t0 h0 s').
    { intros s0 H0 K0 E0 R0. destruct b; [destruct R0 as [R0|R0]; [injection R0 as <-; now split|discriminate]|].
      destruct (iter c s0) as [s1| |s1|] eqn:Ei; try (destruct R0; discriminate).
      - destruct (iter_current k0 t0 h0 c s0 s1 H0 K0 E0 Ei) as [H1 K1]. eapply IH; eassumption.
      - exfalso. unfold cb_iteration in Ei. destruct (acq _ _ _ _) as [x w1]. unfold eval_and_add, add_new_sample in Ei. destruct (sfun _ x) as [[v|e] w2]; [|discriminate].
        destruct (is_nan_or_inf v); [discriminate|]. unfold peek in Ei. destruct (peek_stat _); [destruct (resplit _ _ _) as [[p0 p1]|]; [|discriminate]|];
        (destruct (c_obs _) as [[q0 q1]|]; [|discriminate]); (destruct (last (map Some (samples _)) None); [|discriminate]); (destruct (last (map Some q0) None); [|discriminate]);
        destruct (m_add _ _ _ _) as [mm ww]; (destruct (0 <? nc); [|discriminate]); (destruct (last (map Some q1) None); [|discriminate]); destruct (c_add _ _ _ _); discriminate. }
    unfold peek in R. destruct (peek_stop s).
    + destruct (resplit dout nc (observations (set_world s w))) as [o|]; [|destruct R; discriminate]. apply (Q (set_obs (set_world s w) (Some o))); [exact H|exact K|exact Ec|exact R].
    + apply (Q (set_world s w)); [exact H|exact K|exact Ec|exact R].
Qed.
Lemma init_lengths : forall k i (s s1 : st), length (samples s) = length (observations s) -> run_init sfun init_pt k i s = Ret s1 ->
  length (samples s1) = length (observations s1) /\ cur s1 = cur s /\ tot s1 = tot s.
Proof.
  induction k as [|k IH]; intros i s s1 L; cbn [run_init]; [intros H; injection H as <-; auto|].
  destruct (init_pt i (world s)) as [x w]. destruct (eval_and_add sfun (set_world s w) x) as [s2| | |] eqn:Ev; try discriminate.
  intros H. assert (K : length (samples s2) = length (observations s2) /\ cur s2 = cur s /\ tot s2 = tot s).
  { unfold eval_and_add, add_new_sample in Ev. destruct (sfun _ x) as [[v|e] w']; [|discriminate]. destruct (is_nan_or_inf v); [discriminate|]. injection Ev as <-. cbn. rewrite !app_length, L. auto. }
  destruct K as (K1 & K2 & K3). destruct (IH _ _ _ K1 H) as (A & B & D). rewrite B, D. auto.
Qed.

(** after every iteration (a run is stopped anywhere by the fuel): the constraint model has been trained with the
    constraint values of all samples; the objective model with the objective values of all samples when all are
    feasible; the counters are the number of iterations *)
Theorem C46_models_partial : forall cs fuel reset s s', length (samples s) = length (observations s) -> ends (optimize cs fuel reset s) s' ->
  wide (observations s') ->
  exists s1, init_phase sfun init_n init_pt reset s = Ret s1 /\
    trained_c (combine (samples s') (map (constraints dout) (observations s'))) (c_con (model s')) /\
    (all_feasible (observations s') -> trained_m (combine (samples s') (map (objective dout) (observations s'))) (c_obj (model s'))) /\
    exists k, cur s' = Some (Z.of_nat k) /\ tot s' = (tot s1 + Z.of_nat k)%Z /\ length (samples s') = length (samples s1) + k /\
      hp_iters (trace s') = hp_iters (trace s1) ++ filter (divides hp_period) (upto k).
Proof.
  intros cs fuel reset s s' L R Wd. unfold cb_optimize in R. destruct (init_phase sfun init_n init_pt reset s) as [s1| |s1|] eqn:Ei; try (destruct R; discriminate).
  2:{ exfalso. unfold init_phase in Ei. clear -Ei. revert Ei. set (s2 := if reset then _ else _). destruct (tot s2 =? 0)%Z; [|discriminate].
      generalize (log s2 EvInit) as u, 0 at 1 as i. induction init_n as [|n IH]; intros u i; cbn [run_init]; [discriminate|].
      destruct (init_pt i (world u)) as [x w]. unfold eval_and_add at 1, add_new_sample. destruct (sfun _ x) as [[v|e] w']; [|discriminate]. destruct (is_nan_or_inf v); [discriminate|]. apply IH. }
  exists s1. split; [reflexivity|].
  assert (I1 : length (samples s1) = length (observations s1) /\ cur s1 = Some 0%Z).
  { unfold init_phase in Ei. destruct reset; (destruct (_ =? _)%Z in Ei; [apply init_lengths in Ei; [split; apply Ei|]|injection Ei as <-; cbn; auto]); cbn; auto. }
  destruct I1 as [L1 C1].
  assert (K : forall s2, current s2 -> cur s2 = cur s1 -> tot s2 = tot s1 -> samples s2 = samples s1 -> trace s2 = trace s1 -> ends (loop cs fuel s2) s' ->
     trained_c (combine (samples s') (map (constraints dout) (observations s'))) (c_con (model s')) /\
    (all_feasible (observations s') -> trained_m (combine (samples s') (map (objective dout) (observations s'))) (c_obj (model s'))) /\
    exists k, cur s' = Some (Z.of_nat k) /\ tot s' = (tot s1 + Z.of_nat k)%Z /\ length (samples s') = length (samples s1) + k /\
      hp_iters (trace s') = hp_iters (trace s1) ++ filter (divides hp_period) (upto k)).
  { intros s2 H2 E1 E2 E3 E4 R2. destruct (loop_current (length (samples s1)) (tot s1) (hp_iters (trace s1)) cs fuel s2 s' H2) as [(_ & T) Kn]; [|exact R2|].
    - exists 0. rewrite E1, C1, E2, E3, E4. cbn. split; [reflexivity|]. split; [lia|]. split; [lia|]. now rewrite app_nil_r.
    - destruct (T Wd). auto. }
  destruct (observations s1) as [|o1 or] eqn:Eo.
  - eapply K; [| | | | |exact R]; try reflexivity. split; [cbn [samples observations set_model]; rewrite Eo; exact L1|]. intros _.
    assert (Es : samples s1 = []) by (destruct (samples s1); [reflexivity|discriminate L1]). cbn [samples observations model set_model c_con c_obj]. rewrite Es, Eo. cbn [combine map].
    replace (0 <? nc) with true by (symmetry; now apply Nat.ltb_lt). split; [apply t_fresh|intros _; apply t_fresh].
  - rewrite <- Eo in *. destruct (split_observations dout nc (observations s1)) as [[a b]|] eqn:Es; [|destruct R; discriminate].
    destruct (m_compute (world s1) (c_obj (model s1)) (samples s1) a) as [m w] eqn:Em. replace (0 <? nc) with true in R by (symmetry; now apply Nat.ltb_lt).
    destruct (c_compute w (c_con (model s1)) (samples s1) b) as [cm w'] eqn:Ec.
    eapply K; [| | | | |exact R]; try reflexivity. split; [exact L1|]. intros Wd1. cbn [samples observations model set_model set_world c_con c_obj] in *.
    rewrite (split_spec dout nc) in Es by assumption. injection Es as <- <-. split; [|intros _].
    + replace cm with (fst (c_compute w (c_con (model s1)) (samples s1) (map (constraints dout) (observations s1)))) by exact (f_equal fst Ec).
      apply t_compute. now rewrite map_length.
    + replace m with (fst (m_compute (world s1) (c_obj (model s1)) (samples s1) (map (objective dout) (observations s1)))) by now rewrite Em.
      apply t_compute. now rewrite map_length.
Qed.
End Models.

(** the counters, for any number of constraints, and whether or not statistics read the best observation *)
Section Counters.
Context {W M C E : Type}.
Variable sfun : W -> vec -> (vec + E) * W.
Variables (dout nc : nat).
Variables (m_fresh : M) (c_fresh : C).
Variable m_compute : W -> M -> list vec -> list vec -> M * W.
Variable c_compute : W -> C -> list vec -> list vec -> C * W.
Variable m_add : W -> M -> vec -> vec -> M * W.
Variable c_add : W -> C -> vec -> vec -> C * W.
Variable m_hp : W -> M -> M * W.
Variable c_hp : W -> C -> C * W.
Variable hp_period : Z.
Variable acq : W -> M -> C -> Z -> vec * W.
Variable init_n : nat.
Variable init_pt : nat -> W -> vec * W.
Notation st := (bo W (cbm M C) E).
Variables (peek_stop peek_stat : st -> bool).
Notation iter := (cb_iteration sfun dout nc m_add c_add m_hp c_hp hp_period acq peek_stat).
Notation loop := (cb_loop sfun dout nc m_add c_add m_hp c_hp hp_period acq peek_stop peek_stat).
Notation optimize := (cb_optimize sfun dout nc m_fresh c_fresh m_compute c_compute m_add c_add m_hp c_hp hp_period acq init_n init_pt peek_stop peek_stat).

Lemma peek_keeps (b : bool) (s s' : st) k : peek dout nc b s k = Ret s' -> exists s0, k s0 = Ret s' /\ samples s0 = samples s /\ tot s0 = tot s /\ cur s0 = cur s /\ trace s0 = trace s.
Proof.
  unfold peek. destruct b; [|intros H; exists s; auto 6]. destruct (resplit _ _ _) as [o|]; [|discriminate]. intros H; exists (set_obs s (Some o)). auto 6.
Qed.
Lemma eval_counts (s s2 : st) x : eval_and_add sfun s x = Ret s2 -> tot s2 = tot s /\ cur s2 = cur s /\ length (samples s2) = S (length (samples s)) /\ hp_iters (trace s2) = hp_iters (trace s).
Proof.
  unfold eval_and_add, add_new_sample. destruct (sfun _ x) as [[v|e] w]; [|discriminate]. destruct (is_nan_or_inf v); [discriminate|].
  intros H; injection H as <-. cbn. rewrite app_length, hp_iters_app. cbn. rewrite app_nil_r. repeat split; lia.
Qed.
Lemma iter_counts k0 t0 h0 c (s0 s' : st) : counted hp_period k0 t0 h0 s0 -> cur s0 = Some c -> iter c s0 = Ret s' -> counted hp_period k0 t0 h0 s'.
Proof.
  intros (k & Kc & Kt & Kl & Kh) Ec. rewrite Ec in Kc. injection Kc as ->. unfold cb_iteration. destruct (acq _ _ _ _) as [x w1].
  destruct (eval_and_add sfun (set_world s0 w1) x) as [s2| | |] eqn:Ev; try discriminate. apply eval_counts in Ev. destruct Ev as (V1 & V2 & V3 & V4).
  cbn [samples tot cur set_world] in V1, V2, V3. cbn [trace set_world] in V4.
  intros Ep. apply peek_keeps in Ep. destruct Ep as (s3 & Ep & P1 & P2 & P3 & P4). revert Ep.
  destruct (c_obs _) as [[q0 q1]|]; [|discriminate]. destruct (last (map Some (samples s3)) None); [|discriminate]. destruct (last (map Some q0) None); [|discriminate].
  destruct (m_add _ _ _ _) as [mm ww]. destruct (0 <? nc); [destruct (last (map Some q1) None); [|discriminate]; destruct (c_add _ _ _ _)|];
    (intros H; injection H as <-; exists (S k);
     match goal with |- context [cb_hp nc m_hp c_hp hp_period (Z.of_nat k) ?u] =>
       destruct (hp_keeps nc m_hp c_hp hp_period (Z.of_nat k) u) as (U1 & _); pose proof (hp_schedule nc m_hp c_hp hp_period k h0 u) as U8 end;
     cbn [cur tot samples trace set_tot set_cur set_model set_world] in *;
     split; [f_equal; lia|]; split; [rewrite P2, V1, Kt; lia|]; split; [rewrite U1, P1, V3, Kl; lia|]; apply U8; rewrite P4, V4; exact Kh).
Qed.
Lemma loop_counts k0 t0 h0 cs : forall fuel (s s' : st), counted hp_period k0 t0 h0 s -> loop cs fuel s = Ret s' -> counted hp_period k0 t0 h0 s'.
Proof.
  induction fuel as [|fuel IH]; intros s s' K R; cbn [cb_loop] in R; [discriminate|].
  destruct (cur s) as [c|] eqn:Ec; [|discriminate]. destruct (stop_now cs s) as [b w].
  apply peek_keeps in R. destruct R as (s0 & R & P1 & P2 & P3 & P4).
  cbn [samples tot cur set_world] in P1, P2, P3. cbn [trace set_world] in P4.
  assert (K0 : counted hp_period k0 t0 h0 s0) by (destruct K as (k & A & B & D); exists k; rewrite P1, P2, P3, P4; auto).
  destruct b; [injection R as <-; exact K0|]. destruct (iter c s0) as [s1| | |] eqn:Ei; try discriminate.
  eapply IH; [|exact R]. eapply iter_counts; [exact K0| |exact Ei]. rewrite P3. exact Ec.
Qed.
Theorem C46_counters : forall cs fuel reset s s', optimize cs fuel reset s = Ret s' ->
  exists s1 k, init_phase sfun init_n init_pt reset s = Ret s1 /\
    cur s' = Some (Z.of_nat k) /\ tot s' = (tot s1 + Z.of_nat k)%Z /\ length (samples s') = length (samples s1) + k /\
    hp_iters (trace s') = hp_iters (trace s1) ++ filter (divides hp_period) (upto k).
Proof.
  intros cs fuel reset s s' R. unfold cb_optimize in R. destruct (init_phase sfun init_n init_pt reset s) as [s1| |s1|] eqn:Ei; try discriminate.
  assert (C1 : cur s1 = Some 0%Z).
  { clear R. unfold init_phase in Ei. revert Ei. set (s2 := if reset then _ else _). assert (E2 : cur s2 = Some 0%Z) by (unfold s2; destruct reset; reflexivity).
    clearbody s2. destruct (tot s2 =? 0)%Z; [|intros H; injection H as <-; exact E2].
    assert (E3 : cur (log s2 EvInit) = Some 0%Z) by exact E2. revert E3. generalize (log s2 EvInit) as u, 0 as i.
    induction init_n as [|n IH]; intros u i Eu; cbn [run_init]; [intros H; injection H as <-; exact Eu|].
    destruct (init_pt i (world u)) as [x w]. destruct (eval_and_add _ _ x) as [u2| | |] eqn:Ev; try discriminate. apply IH.
    apply eval_counts in Ev. destruct Ev as (_ & Ev & _). rewrite Ev. exact Eu. }
  exists s1.
  assert (Q : forall s2, cur s2 = cur s1 -> tot s2 = tot s1 -> samples s2 = samples s1 -> trace s2 = trace s1 -> loop cs fuel s2 = Ret s' -> counted hp_period (length (samples s1)) (tot s1) (hp_iters (trace s1)) s').
  { intros s2 A B D A4 R2. eapply loop_counts; [|exact R2]. exists 0. rewrite A, B, D, C1, A4. cbn. split; [reflexivity|]. split; [lia|]. split; [lia|]. now rewrite app_nil_r. }
  assert (K : counted hp_period (length (samples s1)) (tot s1) (hp_iters (trace s1)) s').
  { destruct (observations s1); [eapply Q; [| | | |exact R]; reflexivity|]. destruct (split_observations _ _ _) as [[a b]|]; [|discriminate].
    destruct (m_compute _ _ _ _) as [m w]. destruct (0 <? nc); [destruct (c_compute _ _ _ _) as [cm w']|]; (eapply Q; [| | | |exact R]; reflexivity). }
  destruct K as (k & K). exists k. auto.
Qed.
End Counters.

(** ** the hypotheses can be met: the objective is [x], the constraint [x >= 2]; the models are lists of what they are given *)
Section Runs.
Definition lcomp (w : unit) (m : list (vec * vec)) (a b : list vec) := (combine a b, w).
Definition ladd (w : unit) (m : list (vec * vec)) (a b : vec) := (m ++ [(a, b)], w).
Definition lhp (w : unit) (m : list (vec * vec)) := (m, w).
Definition lrun (pt : Z) (its : Z) :=
  cb_optimize sf 1 1 [] [] lcomp lcomp ladd ladd lhp lhp 2 (fun w _ _ i => (one (i + 1), w)) 1 (fun _ w => (one pt, w)) (fun _ => false) (fun _ => true)
    [max_iterations its] 10 true (new_bo (mkCb [] [] None []) tt).
(** the initial point 5 and the samples 1, 2, 3: the constraint model is told 1, 0, 1, 1 *)
Example C46_models_ex : exists s, lrun 5 3 = Ret s /\ wide 1 1 (observations s) /\
  c_con (model s) = [(one 5, one 1); (one 1, one 0); (one 2, one 1); (one 3, one 1)] /\ tot s = 3%Z /\ length (samples s) = 4 /\ hp_iters (trace s) = [2%Z].
Proof. eexists. split; [vm_compute; reflexivity|]. split; [cbn; repeat constructor|]. vm_compute. auto. Qed.
End Runs.
