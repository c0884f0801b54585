(** C61: whenever the optimizer consults its Gaussian process, the predictions are those of the exact posterior
    of all the data collected so far. *)
From Coq Require Import Reals List Bool ZArith Lia Lra.
From Verif Require Import F64 F64R LinAlgModel LinAlg KernelModel GPModel GPSpec GPFacts Prop_GP Prop_Load HpOptModel Prop_HpOpt
  BOModel BOSpec BOFacts BORel BoGpModel.
Import ListNotations.
Open Scope R_scope.

(** * Specification *)
Definition values (l : list F64.vec) : list KernelModel.vec := map (map fval) l.

Section Spec.
Variables (K : Kern) (M : Mean) (din dout : nat).
(** kernel and mean have the parameters of the constructor, or (if [b]) parameters set later *)
Inductive learned (b : bool) : kst K -> mst M -> Prop :=
| l_new : learned b (k_new K din) (m_new M dout)
| l_kernel k m p : b = true -> learned b k m -> length p = k_hsize K k -> learned b (k_set K k p) m
| l_mean k m p : b = true -> learned b k m -> length p = m_hsize M m -> learned b k (m_set M m p).
(** prior if there are no data, posterior otherwise; [B] is the inverse of the kernel matrix with noise *)
Definition predicts_r (k : kst K) (m : mst M) (X Y : list KernelModel.vec) (g : gp K M) : Prop :=
  forall v, length v = din ->
  match X with
  | [] => query K M g v = Done (m_val M m v (repeat 0 dout), k_ker K k v v + k_noise K k)
  | _ =>
      (exists B, is_inv (length X) (gram K k X) B) /\
      forall B, is_inv (length X) (gram K k X) B ->
        query K M g v = Done (vec_of dout (post_mean K M k m X Y dout B v), clamp (post_var K k X B v) + k_noise K k)
  end.
Definition predicts (k : kst K) (m : mst M) (xs ys : list F64.vec) (g : gp K M) : Prop := predicts_r k m (values xs) (values ys) g.
Definition exact (b : bool) (xs ys : list F64.vec) (m : outcome (gp K M)) : Prop :=
  exists g, m = Done g /\ learned b (g_k K M g) (g_m K M g) /\ predicts (g_k K M g) (g_m K M g) xs ys g.
End Spec.

(** * Proof *)
Lemma fin_not_nan v : Forall is_number v -> real_vec v = Some (map fval v).
Proof. intro H. unfold real_vec. apply is_nan_or_inf_spec in H. now rewrite H. Qed.
Lemma reals_values l : Forall (Forall is_number) l -> real_vecs l = Some (values l).
Proof. induction 1 as [|v l Hv _ IH]; [reflexivity|]. cbn [real_vecs values map]. now rewrite (fin_not_nan v Hv), IH. Qed.

Section Run.
Variables (K : Kern) (M : Mean) (KO : KernOK K) (MO : MeanOK M).
Hypotheses (KR : KernRT KO) (MR : MeanRT' MO).
Context {W E : Type}.
Variables (din dout : nat).
Hypotheses (Din : (0 < din)%nat) (Dout : (0 < dout)%nat).
Variable hpo : hp_opt.
Variable optimizer : W -> (KernelModel.vec -> outcome (R * KernelModel.vec)) -> KernelModel.vec -> outcome KernelModel.vec.
Variables junk1 junk2 : W -> nat -> nat -> R.
Variable tick : W -> W.
Variable hp_period : Z.
Let B := (0 <? hp_period)%Z.
Definition hp_fine : Prop := (0 < hp_period)%Z -> hpo <> NoLFOpt /\ (forall w, improves (optimizer w)) /\
  (hpo = MeanLFOpt \/ hpo = KernelMeanLFOpt -> forall m, mok MO dout m -> (0 < m_hsize M m)%nat).
Hypothesis HF : hp_fine.
Notation learned := (learned K M din dout B).

Definition point (x : F64.vec) : Prop := length x = din /\ Forall is_number x.
Definition pair_ok (x y : F64.vec) : Prop := point x /\ length y = dout /\ Forall is_number y.
Definition RtrR (X Y : list KernelModel.vec) (m : outcome (gp K M)) : Prop := exists g g0 s0 os, m = Done g /\ fresh K M g0 s0 /\ run K M g0 os = Done g /\
  let s := meaning K M s0 os in s_din K M s = Some din /\ s_dout K M s = Some dout /\ s_xs K M s = X /\ s_ys K M s = Y /\
    s_dk K M s = false /\ s_dm K M s = false /\ learned (s_k K M s) (s_m K M s).
Definition Rtr (xs ys : list F64.vec) (m : outcome (gp K M)) : Prop := RtrR (values xs) (values ys) m.
Definition Rany (m : outcome (gp K M)) : Prop := exists g g0 s0 os, m = Done g /\ fresh K M g0 s0 /\ run K M g0 os = Done g /\
  let s := meaning K M s0 os in s_din K M s = None /\ s_dout K M s = None \/
    s_din K M s = Some din /\ s_dout K M s = Some dout /\ learned (s_k K M s) (s_m K M s).

Lemma RtrR_any X Y m : RtrR X Y m -> Rany m.
Proof. intros (g & g0 & s0 & os & -> & F & Er & H1 & H2 & _ & _ & _ & _ & H3). exists g, g0, s0, os. repeat split; auto. Qed.
Lemma Rtr_any xs ys m : Rtr xs ys m -> Rany m.
Proof. apply RtrR_any. Qed.
Lemma Rtr_fresh : Rtr [] [] (gm_fresh K M din dout).
Proof. exists (gp_new K M din dout), (gp_new K M din dout), (s_new K M din dout), []. repeat split; auto; constructor. Qed.
Lemma Rany_default : Rany (Done (gp_default K M)).
Proof. exists (gp_default K M), (gp_default K M), (s_default K M), []. repeat split; auto; constructor. Qed.
Lemma meaning_app s os os' : meaning K M s (os ++ os') = meaning K M (meaning K M s os) os'.
Proof. apply fold_left_app. Qed.
Lemma run_snoc g0 os g o g' : run K M g0 os = Done g -> exec K M g o = Done g' -> run K M g0 (os ++ [o]) = Done g'.
Proof. intros H1 H2. rewrite run_app, H1. cbn [bind run]. now rewrite H2. Qed.

Lemma pairs_shape xs ys : Forall2 pair_ok xs ys -> length xs = length ys /\ Forall (Forall is_number) xs /\ Forall (Forall is_number) ys /\
  Forall (fun v => length v = din) (values xs) /\ Forall (fun v => length v = dout) (values ys).
Proof.
  induction 1 as [|x y xs ys ((H1 & H2) & H3 & H4) _ (A & B' & C & D & F)]; [repeat split; auto; constructor|].
  cbn [values map]. repeat split; try constructor; auto; try (rewrite map_length; auto). cbn. lia.
Qed.
Lemma RtrR_comp g X Y : Rany (Done g) -> X <> [] -> length X = length Y -> Forall (fun v => length v = din) X -> Forall (fun v => length v = dout) Y ->
  RtrR X Y (compute K M g X Y true).
Proof.
  intros (g1 & g0 & s0 & os & E1 & F & Er & Hs) Hne L Dx Dy. injection E1 as <-.
  set (s := meaning K M s0 os) in *. assert (I : inv K M KO MO g s) by (eapply run_inv; eauto; now apply fresh_inv).
  destruct X as [|x xs]; [congruence|]. destruct Y as [|y ys]; [discriminate|].
  assert (Ex : length x = din) by (inversion Dx; auto). assert (Ey : length y = dout) by (inversion Dy; auto).
  set (o := @Compute K M (x :: xs) (y :: ys) true).
  destruct (progress K M KO MO g s o I) as (g' & Eg').
  { unfold o, rect. cbn [valid hd]. rewrite Ex, Ey. split; [discriminate|]. split; [exact (eq_sym L)|]. split; (split; [assumption|]); [exact Dx|exact Dy]. }
  unfold o in Eg'. cbn [exec] in Eg'. rewrite Eg'. exists g', g0, s0, (os ++ [o]). split; [reflexivity|]. split; [exact F|].
  split; [eapply run_snoc; [exact Er|exact Eg']|]. rewrite meaning_app. fold s. unfold o.
  cbn [meaning fold_left s_step s_din s_dout s_xs s_ys s_dk s_dm s_k s_m hd negb]. rewrite Ex, Ey.
  repeat (split; [reflexivity|]). destruct Hs as [[-> ->]|(-> & -> & Hl)]; cbn [same]; [constructor|]. now rewrite !Nat.eqb_refl.
Qed.
Lemma Rtr_comp (w : W) m xs ys : Rany m -> xs <> [] -> Forall2 pair_ok xs ys -> Rtr xs ys (fst (gm_compute K M w m xs ys)).
Proof.
  intros Ha Hne Hp. destruct (pairs_shape _ _ Hp) as (L & Fx & Fy & Dx & Dy). pose proof Ha as (g & _ & _ & _ & -> & _).
  unfold gm_compute. cbn [fst bind]. rewrite (reals_values _ Fx), (reals_values _ Fy).
  apply RtrR_comp; auto; unfold values; [destruct xs; [congruence|discriminate]|now rewrite !map_length].
Qed.
Lemma values_snoc l v : values (l ++ [v]) = values l ++ [map fval v].
Proof. unfold values. now rewrite map_app. Qed.
Lemma Rtr_add w m xs ys x y : Rtr xs ys m -> Forall2 pair_ok xs ys -> pair_ok x y -> Rtr (xs ++ [x]) (ys ++ [y]) (fst (gm_add K M junk1 junk2 tick w m x y)).
Proof.
  intros (g & g0 & s0 & os & -> & F & Er & H1 & H2 & H3 & H4 & H5 & H6 & H7) _ ((Hx1 & Hx2) & Hy1 & Hy2).
  unfold gm_add. cbn [fst bind]. rewrite (fin_not_nan _ Hx2), (fin_not_nan _ Hy2).
  set (s := meaning K M s0 os) in *. assert (I : inv K M KO MO g s) by (eapply run_inv; eauto; now apply fresh_inv).
  assert (Ex : length (map fval x) = din) by (rewrite map_length; auto). assert (Ey : length (map fval y) = dout) by (rewrite map_length; auto).
  set (o := @Add K M (junk1 w) (junk2 w) (map fval x) (map fval y)).
  destruct (progress K M KO MO g s o I) as (g' & Eg').
  { unfold o. cbn [valid]. rewrite Ex, Ey. auto. }
  unfold o in Eg'. cbn [exec] in Eg'. rewrite Eg'. exists g', g0, s0, (os ++ [o]). split; [reflexivity|]. split; [exact F|].
  split; [eapply run_snoc; [exact Er|exact Eg']|]. rewrite meaning_app. fold s. unfold o. rewrite !values_snoc, <- H3, <- H4.
  cbn [meaning fold_left s_step]. destruct (s_xs K M s) eqn:Exs; cbn [s_din s_dout s_xs s_ys s_dk s_dm s_k s_m].
  - assert (Ls : length (s_ys K M s) = length (s_xs K M s)) by apply (v_len _ _ _ _ _ _ I). rewrite Exs in Ls. destruct (s_ys K M s); [|discriminate].
    rewrite Ex, Ey, H1, H2. cbn [same]. rewrite !Nat.eqb_refl. repeat split; auto.
  - repeat split; auto.
Qed.
Lemma RtrR_hp w m xs ys : (0 < hp_period)%Z -> RtrR xs ys m -> xs <> [] -> RtrR xs ys (fst (gm_hp K M hpo optimizer tick w m)).
Proof.
  intros Hp (g & g0 & s0 & os & -> & F & Er & H1 & H2 & H3 & H4 & H5 & H6 & H7) Hne. destruct (HF Hp) as (Hno & Himp & Hm).
  assert (HB : B = true) by (unfold B; now apply Z.ltb_lt).
  set (s := meaning K M s0 os) in *. assert (I : inv K M KO MO g s) by (eapply run_inv; eauto; now apply fresh_inv).
  assert (C : Prop_HpOpt.clean K M s). { split; [|auto]. rewrite H3. destruct xs; [congruence|discriminate]. }
  assert (Hmok : mok MO dout (g_m K M g)) by (rewrite (v_m _ _ _ _ _ _ I); apply (v_mok _ _ _ _ _ _ I); exact H2).
  pose proof (v_k _ _ _ _ _ _ I) as Ek. pose proof (v_m _ _ _ _ _ _ I) as Em.
  unfold gm_hp, optimize_hyperparams. cbn [fst bind]. destruct hpo.
  - congruence.
  - destruct (C32_kernel_lf_opt K M KO MO (optimizer w) (Himp w) KR g0 s0 os g F Er C) as (p & g' & v & v' & Eo & Er' & Lp & _).
    rewrite Eo. exists g', g0, s0, (os ++ [SetK p; Recompute false true]). split; [reflexivity|]. split; [exact F|]. split; [exact Er'|]. rewrite meaning_app. fold s.
    cbn [meaning fold_left s_step s_din s_dout s_xs s_ys s_dk s_dm s_k s_m]. rewrite H6. repeat split; auto. apply l_kernel; auto. now rewrite <- Ek.
  - destruct (C32_mean_lf_opt K M KO MO (optimizer w) (Himp w) MR g0 s0 os g F Er C) as (p & g' & v & v' & Eo & Er' & Lp & _); [now apply Hm; auto|].
    rewrite Eo. exists g', g0, s0, (os ++ [SetM p; Recompute true false]). split; [reflexivity|]. split; [exact F|]. split; [exact Er'|]. rewrite meaning_app. fold s.
    cbn [meaning fold_left s_step s_din s_dout s_xs s_ys s_dk s_dm s_k s_m]. rewrite H5. repeat split; auto. apply l_mean; auto. now rewrite <- Em.
  - destruct (C32_kernel_mean_lf_opt K M KO MO (optimizer w) (Himp w) MR KR g0 s0 os g F Er C) as (pk & pm & g' & v & v' & Eo & Er' & Lk & Lm & _); [now apply Hm; auto|].
    rewrite Eo. exists g', g0, s0, (os ++ [SetK pk; SetM pm; Recompute true true]). split; [reflexivity|]. split; [exact F|]. split; [exact Er'|]. rewrite meaning_app. fold s.
    cbn [meaning fold_left s_step s_din s_dout s_xs s_ys s_dk s_dm s_k s_m]. repeat split; auto.
    apply l_mean; auto; [|now rewrite <- Em]. apply l_kernel; auto. now rewrite <- Ek.
  - destruct (C32_kernel_loo_opt K M KO MO (optimizer w) (Himp w) KR g0 s0 os g F Er C) as (p & g' & gi & v & gf & v' & Eo & Er' & Lp & _).
    rewrite Eo. exists g', g0, s0, (os ++ [SetK p; Recompute false true; Inverse]). split; [reflexivity|]. split; [exact F|]. split; [exact Er'|]. rewrite meaning_app. fold s.
    cbn [meaning fold_left s_step s_din s_dout s_xs s_ys s_dk s_dm s_k s_m]. rewrite H6. repeat split; auto. apply l_kernel; auto. now rewrite <- Ek.
Qed.
Lemma Rtr_hp w m xs ys : (0 < hp_period)%Z -> Rtr xs ys m -> xs <> [] -> Rtr xs ys (fst (gm_hp K M hpo optimizer tick w m)).
Proof. intros Hp Hr Hne. apply RtrR_hp; auto. destruct xs; [congruence|discriminate]. Qed.
Lemma RtrR_exact X Y m : RtrR X Y m -> exists g, m = Done g /\ learned (g_k K M g) (g_m K M g) /\ predicts_r K M din dout (g_k K M g) (g_m K M g) X Y g.
Proof.
  intros (g & g0 & s0 & os & -> & F & Er & H1 & H2 & H3 & H4 & H5 & H6 & H7).
  set (s := meaning K M s0 os) in *. assert (I : inv K M KO MO g s) by (eapply run_inv; eauto; now apply fresh_inv).
  exists g. split; [reflexivity|]. rewrite (v_k _ _ _ _ _ _ I), (v_m _ _ _ _ _ _ I). split; [exact H7|]. intros v Hv. destruct X as [|x xs].
  - unfold query. assert (Es : g_samples K M g = []) by (rewrite (v_samples _ _ _ _ _ _ I), H3; reflexivity). rewrite Es.
    unfold dout_pos, mean_at, mean_observation. rewrite Es, (v_dout _ _ _ _ _ _ I), (v_din _ _ _ _ _ _ I), H1, H2, (v_k _ _ _ _ _ _ I), (v_m _ _ _ _ _ _ I), kop0_ker.
    cbn [oget onat_eqb]. apply Nat.ltb_lt in Dout. rewrite Dout, Hv, Nat.eqb_refl. reflexivity.
  - assert (Hx : s_xs K M s <> []) by (rewrite H3; discriminate).
    destruct (C24_exact_posterior K M KO MO g0 s0 os g F Er Hx H5 H6 v) as [HB HQ]; [fold s; now rewrite H1, Hv|].
    fold s in HB, HQ. rewrite H3 in HB, HQ. split; [exact HB|].
    intros Bi Hi. destruct (HQ Bi Hi) as (_ & _ & Q). rewrite H2, H4 in Q. exact Q.
Qed.
Lemma Rtr_exact xs ys m : Rtr xs ys m -> exact K M din dout B xs ys m.
Proof. apply RtrR_exact. Qed.

Variable sfun : W -> F64.vec -> (F64.vec + E) * W.
Variable acq : W -> outcome (gp K M) -> Z -> F64.vec * W.
Variable init_n : nat.
Variable init_pt : nat -> W -> F64.vec * W.
Notation run_ops := (run_ops sfun (gm_fresh K M din dout) (gm_compute K M) (gm_add K M junk1 junk2 tick) (gm_hp K M hpo optimizer tick) acq init_n init_pt hp_period).
(** the objective returns vectors of the announced size (unless it throws); initialisation and acquisition
    optimizer propose finite points of the announced size *)
Hypothesis H_sfun : forall w x v w', length x = din -> sfun w x = (inl v, w') -> length v = dout.
Hypothesis H_acq : forall w m c, point (fst (acq w m c)).
Hypothesis H_init : forall i w, point (fst (init_pt i w)).
(** what the user adds himself has the right sizes *)
Definition fine_op (o : BOModel.op) : Prop :=
  match o with OpOptimize _ _ => True | OpEvalAdd x => point x | OpAddSample x y => point x /\ length y = dout end.

Lemma run_Inv cs os w s : Forall fine_op os -> run_ops cs os (new_bo (Done (gp_default K M)) w) = Some s -> Inv pair_ok Rtr Rany s.
Proof.
  intros Ho Hr.
  refine (run_inv_all sfun (gm_fresh K M din dout) (gm_compute K M) (gm_add K M junk1 junk2 tick) (gm_hp K M hpo optimizer tick) acq init_n init_pt hp_period
      point pair_ok Rtr Rany Rtr_any Rtr_fresh Rtr_comp Rtr_add Rtr_hp _ H_acq H_init cs os _ w s Rany_default _ Hr).
    - intros w0 x v w' (Hx1 & Hx2) Es Ev. split; [now split|]. split; [eapply H_sfun; eauto|]. now apply is_nan_or_inf_spec.
    - eapply Forall_impl; [|exact Ho]. intros [r f|x|x y]; cbn; auto. intros (Hx & Hy) Hf. split; [exact Hx|]. split; [exact Hy|]. now apply is_nan_or_inf_spec.
Qed.
Theorem C61_exact_posterior_in_every_run : forall cs os w s, Forall fine_op os ->
  run_ops cs os (new_bo (Done (gp_default K M)) w) = Some s ->
  Forall (consulted (exact K M din dout B)) (trace s).
Proof.
  intros cs os w s Ho Hr. pose proof (run_Inv cs os w s Ho Hr) as (_ & _ & Q).
  eapply Forall_impl; [|exact Q]. intros e. destruct e; cbn [consulted]; auto using Rtr_exact.
Qed.

(** without a period the parameters are those of the constructors *)
Corollary C61_parameters_without_learning : forall k m, (hp_period <= 0)%Z -> learned k m -> k = k_new K din /\ m = m_new M dout.
Proof. intros k m Hp Hl. assert (HB : B = false) by (unfold B; apply Z.ltb_ge; lia). destruct Hl; auto; congruence. Qed.

(** optimize(reset = true) discards the data but not the hyper-parameters: what was learned in earlier calls is
    used from the first iteration on ([optimize] without fuel: the state when the loop is entered) *)
Notation optimize := (optimize sfun (gm_fresh K M din dout) (gm_compute K M) (gm_add K M junk1 junk2 tick) (gm_hp K M hpo optimizer tick) acq init_n init_pt hp_period).
Theorem C61_reset_keeps_parameters : forall cs os w s g s', Forall fine_op os ->
  run_ops cs os (new_bo (Done (gp_default K M)) w) = Some s -> model s = Done g -> g_din K M g = Some din ->
  (0 < init_n)%nat -> optimize cs 0 true s = Running s' ->
  exists g', model s' = Done g' /\ length (samples s') = init_n /\ g_k K M g' = g_k K M g /\ g_m K M g' = g_m K M g.
Proof.
  intros cs os w s g s' Ho Hr Eg Ed Hn. pose proof (run_Inv cs os w s Ho Hr) as Hi. unfold BOModel.optimize.
  assert (Hsf : forall w x v w', point x -> sfun w x = (inl v, w') -> is_nan_or_inf v = false -> pair_ok x v).
  { intros w0 x v w' (Hx1 & Hx2) Es Ev. split; [now split|]. split; [eapply H_sfun; eauto|]. now apply is_nan_or_inf_spec. }
  pose proof (init_inv sfun init_n init_pt point pair_ok Rtr Rany Hsf H_init true s Hi) as H1.
  destruct (init_phase sfun init_n init_pt true s) as [s1| |s1|] eqn:Ei; try discriminate.
  2:{ destruct (init_phase_cur sfun init_n init_pt true s) as [(s2 & E2 & _)|(s2 & e & E2 & _)]; rewrite Ei in E2; discriminate. }
  assert (Em : model s1 = model s). { destruct (init_phase_cur sfun init_n init_pt true s) as [(s2 & E2 & _ & E3)|(s2 & e & E2 & _)]; rewrite Ei in E2; [|discriminate]. injection E2 as <-. exact E3. }
  assert (El : length (samples s1) = init_n).
  { clear -Ei. unfold init_phase in Ei. cbn in Ei. revert Ei. set (s2 := log _ _). assert (L : length (samples s2) = 0%nat) by reflexivity.
    replace init_n with (length (samples s2) + init_n)%nat at 2 by (rewrite L; reflexivity). clearbody s2. clear L. generalize 0%nat at 1 as i. revert s2.
    induction init_n as [|n IH]; intros s2 i; cbn [run_init]; [intros H; injection H as <-; lia|]. destruct (init_pt i (world s2)) as [x w].
    unfold eval_and_add, add_new_sample. destruct (sfun _ x) as [[v|e] w']; [|discriminate]. destruct (is_nan_or_inf v); [discriminate|].
    intros H. apply IH in H. rewrite H. cbn. rewrite app_length. cbn. lia. }
  destruct H1 as (A & B' & _). rewrite Em, Eg in *.
  assert (Hne : samples s1 <> []) by (intro H; rewrite H in El; cbn in El; lia).
  destruct (observations s1) as [|o obs] eqn:Eo; [inversion A as [H|]; congruence|]. rewrite <- Eo in *.
  pose proof (pairs_shape _ _ A) as (L & Fx & Fy & Dx & Dy).
  destruct (Rtr_comp (world s1) (Done g) (samples s1) (observations s1) B' Hne A) as (g' & _ & _ & _ & E' & _).
  destruct (gm_compute K M (world s1) (Done g) (samples s1) (observations s1)) as [m2 w2] eqn:Ec. cbn [fst] in E'. subst m2.
  intro H. cbn [loop] in H. injection H as <-. exists g'. split; [reflexivity|]. split; [exact El|].
  unfold gm_compute in Ec. cbn [bind] in Ec. rewrite (reals_values _ Fx), (reals_values _ Fy) in Ec. injection Ec as Ec _.
  destruct B' as (g1 & g0 & s0 & os' & E1 & F & Er & Hs). injection E1 as <-.
  assert (I : inv K M KO MO g (meaning K M s0 os')) by (eapply run_inv; eauto; now apply fresh_inv).
  pose proof (comp_inv K M KO MO g _ _ _ true g' (inv_linv _ _ _ _ _ _ I) Ec) as I'.
  rewrite (v_k _ _ _ _ _ _ I'), (v_m _ _ _ _ _ _ I'), (v_k _ _ _ _ _ _ I), (v_m _ _ _ _ _ _ I).
  rewrite (v_din _ _ _ _ _ _ I) in Ed. destruct Hs as [[Hs _]|(Hs1 & Hs2 & _)]; [congruence|].
  cbn [s_step s_k s_m]. destruct (samples s1) as [|x xs]; [congruence|]. rewrite Eo in *. cbn [values map hd].
  cbn [values map] in Dx, Dy. inversion Dx as [|? ? Dx1 _]. inversion Dy as [|? ? Dy1 _]. rewrite Dx1, Dy1, Hs1, Hs2. cbn [same]. rewrite !Nat.eqb_refl. auto.
Qed.
End Run.
