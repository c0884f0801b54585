(** C42: EI is the expected improvement.  C43: the incumbent used by EI. *)
From Coq Require Import Reals List Bool ZArith Lia Lra.
From Coquelicot Require Import Coquelicot.
From Verif Require Import LinAlgModel LinAlg MatCalc GaussInt KernelModel GPModel AcquiModel.
Import ListNotations.
Open Scope R_scope.

(** * Specification *)
(** the complementary error function (std::erfc, not part of limbo) *)
Definition is_erfc (erfc : R -> R) : Prop :=
  forall x, is_RInt_gen (fun t => 2 / sqrt PI * exp (- (t * t))) (at_point x) (Rbar_locally p_infty) (erfc x).
(** density of the normal distribution of mean [m] and standard deviation [s] *)
Definition density (m s y : R) : R := exp (- (((y - m) / s) ^ 2) / 2) / (s * sqrt (2 * PI)).
(** [v] is the expectation of max(0, Y - t) for Y normal *)
Definition expected_improvement (m s t v : R) : Prop :=
  is_RInt_gen (fun y => Rmax 0 (y - t) * density m s y) (Rbar_locally m_infty) (Rbar_locally p_infty) v.

(** * The integrals *)
Lemma sqrtPI_pos : 0 < sqrt PI. Proof. apply sqrt_lt_R0, PI_RGT_0. Qed.
Lemma sqrt2PI : sqrt (2 * PI) = sqrt 2 * sqrt PI. Proof. apply sqrt_mult_alt. lra. Qed.
Lemma sqrt2_pos : 0 < sqrt 2. Proof. apply sqrt_lt_R0. lra. Qed.
Lemma E_odd x : E (- x) = - E x.
Proof.
  unfold E. pose proof (RInt_comp_lin ge (-1) 0 0 x (ge_int _ _)) as H. unfold scal in H; simpl in H; unfold mult in H; simpl in H.
  replace ((-1) * 0 + 0)%R with 0%R in H by ring. replace ((-1) * x + 0)%R with (- x)%R in H by ring. rewrite <- H.
  transitivity (RInt (fun y => opp (ge y)) 0 x).
  - apply RInt_ext. intros y _. unfold opp; simpl. unfold ge. replace ((-1 * y + 0) * (-1 * y + 0)) with (y * y) by ring. req. ring.
  - rewrite (RInt_opp ge) by apply ge_int. reflexivity.
Qed.
(** closed form of erfc *)
Definition erfc0 (x : R) : R := 1 - 2 / sqrt PI * E x.
Lemma erfc0_ok : is_erfc erfc0.
Proof.
  intros x P HP. assert (L : is_lim (fun b => 2 / sqrt PI * (E b - E x)) p_infty (erfc0 x)).
  { unfold erfc0. replace (1 - 2 / sqrt PI * E x) with (2 / sqrt PI * (sqrt PI / 2 - E x)) by (field; apply Rgt_not_eq, sqrtPI_pos).
    apply (is_lim_scal_l (fun b => E b - E x) (2 / sqrt PI) p_infty (sqrt PI / 2 - E x)).
    apply (is_lim_minus' E (fun _ => E x) p_infty (sqrt PI / 2) (E x)); [apply gauss_integral|apply is_lim_const]. }
  specialize (L P HP). destruct L as (b0 & Hb).
  exists (fun a => a = x) (fun b => b0 < b).
  - reflexivity.
  - exists b0. auto.
  - intros a b -> Hlt. exists (2 / sqrt PI * (E b - E x)). split; [|apply Hb, Hlt]. cbn [fst snd].
    apply (is_RInt_scal ge x b (2 / sqrt PI) (E b - E x)).
    apply (is_RInt_derive E ge); intros; [apply E_derive|apply ge_cont].
Qed.
Lemma erfc_unique erfc x : is_erfc erfc -> erfc x = erfc0 x.
Proof.
  intro H. apply (is_RInt_gen_unique (fun t => 2 / sqrt PI * exp (- (t * t)))) in H as H1 || idtac.
  transitivity (RInt_gen (fun t => 2 / sqrt PI * exp (- (t * t))) (at_point x) (Rbar_locally p_infty)).
  - symmetry. apply is_RInt_gen_unique. apply H.
  - apply is_RInt_gen_unique. apply erfc0_ok.
Qed.
(** the contract of erfc can be met, and erfc(x) + erfc(-x) = 2 *)
Theorem erfc_exists : exists erfc, is_erfc erfc. Proof. exists erfc0. apply erfc0_ok. Qed.

Section Improvement.
Variables (m s t : R).
Hypothesis Hs : 0 < s.
Let phi (u : R) := exp (- (1 / 2) * u ^ 2) / sqrt (2 * PI).
(** antiderivative of (y - t) * density *)
Let A (y : R) := (m - t) * / sqrt PI * E ((y - m) / (s * sqrt 2)) - s * phi ((y - m) / s).
Lemma A_derive y : is_derive A y ((y - t) * density m s y).
Proof.
  pose proof sqrt2_pos as H2. pose proof sqrtPI_pos as HP.
  assert (DE : is_derive (fun y => E ((y - m) / (s * sqrt 2))) y (/ (s * sqrt 2) * ge ((y - m) / (s * sqrt 2)))).
  { apply (is_derive_comp E (fun y => (y - m) / (s * sqrt 2))); [apply E_derive|]. auto_derive; [auto|]. field. split; lra. }
  assert (Dp : is_derive (fun y => phi ((y - m) / s)) y (- ((y - m) / s) * / s * phi ((y - m) / s))).
  { unfold phi. auto_derive; [auto|]. cbn [pow]. set (ee := exp _). field. split; [apply Rgt_not_eq; rewrite sqrt2PI; now apply Rmult_lt_0_compat|lra]. }
  unfold A. eapply is_derive_val'.
  - apply @is_derive_minus; [apply is_derive_scal, DE|apply is_derive_scal, Dp].
  - unfold minus, plus, opp; simpl. unfold scal; simpl; unfold mult; simpl. req. unfold density, phi, ge. rewrite sqrt2PI.
    replace (- ((y - m) / (s * sqrt 2) * ((y - m) / (s * sqrt 2)))) with (- (1 / 2) * ((y - m) / s) ^ 2).
    2:{ assert (Q : sqrt 2 * sqrt 2 = 2) by (apply sqrt_sqrt; lra).
        replace ((y - m) / (s * sqrt 2) * ((y - m) / (s * sqrt 2))) with (((y - m) / s) ^ 2 * / (sqrt 2 * sqrt 2)) by (field; split; lra). rewrite Q. field. lra. }
    replace (- ((y - m) / s) ^ 2 / 2) with (- (1 / 2) * ((y - m) / s) ^ 2) by (field; lra).
    field. repeat split; lra.
Qed.
Lemma dens_cont y : continuous (fun y => (y - t) * density m s y) y.
Proof.
  apply (ex_derive_continuous (fun y => (y - t) * density m s y)). unfold density. auto_derive; auto.
Qed.
Lemma dens_pos y : 0 <= density m s y.
Proof.
  apply Rlt_le, Rdiv_lt_0_compat; [apply exp_pos|]. apply Rmult_lt_0_compat; [exact Hs|]. rewrite sqrt2PI. apply Rmult_lt_0_compat; [apply sqrt2_pos|apply sqrtPI_pos].
Qed.
Lemma lin_lim (a : R) : 0 < a -> is_lim (fun y => (y - m) / a) p_infty p_infty.
Proof.
  intro Ha. apply is_lim_ext with (f := fun y => / a * (y - m)); [intro; field; lra|].
  replace p_infty with (Rbar_mult (/ a) p_infty) at 2.
  - apply (is_lim_scal_l (fun y => y - m) (/ a) p_infty p_infty).
    apply is_lim_minus with p_infty m; [apply is_lim_id|apply is_lim_const|reflexivity].
  - apply Rinv_0_lt_compat in Ha. cbn. destruct (Rle_dec 0 (/ a)) as [H|H]; [|lra]. destruct (Rle_lt_or_eq_dec 0 (/ a) H); [reflexivity|lra].
Qed.
Lemma A_lim : is_lim A p_infty ((m - t) / 2).
Proof.
  pose proof sqrt2_pos as H2. pose proof sqrtPI_pos as HP. unfold A.
  replace ((m - t) / 2) with ((m - t) * / sqrt PI * (sqrt PI / 2) - s * 0) by (field; lra).
  apply (is_lim_minus' (fun y => (m - t) * / sqrt PI * E ((y - m) / (s * sqrt 2))) (fun y => s * phi ((y - m) / s)) p_infty ((m - t) * / sqrt PI * (sqrt PI / 2)) (s * 0)).
  - apply (is_lim_scal_l (fun y => E ((y - m) / (s * sqrt 2))) ((m - t) * / sqrt PI) p_infty (sqrt PI / 2)).
    apply (is_lim_comp E (fun y => (y - m) / (s * sqrt 2)) p_infty (sqrt PI / 2) p_infty).
    + apply gauss_integral.
    + apply lin_lim. now apply Rmult_lt_0_compat.
    + exists 0. intros; discriminate.
  - apply (is_lim_scal_l (fun y => phi ((y - m) / s)) s p_infty 0).
    apply is_lim_ext with (f := fun y => / sqrt (2 * PI) * ge ((y - m) / (s * sqrt 2))).
    { intro y. unfold phi, ge. assert (Q : sqrt 2 * sqrt 2 = 2) by (apply sqrt_sqrt; lra).
      replace (- ((y - m) / (s * sqrt 2) * ((y - m) / (s * sqrt 2)))) with (- (1 / 2) * ((y - m) / s) ^ 2); [unfold Rdiv; ring|].
      replace ((y - m) / (s * sqrt 2) * ((y - m) / (s * sqrt 2))) with (((y - m) / s) ^ 2 * / (sqrt 2 * sqrt 2)) by (field; split; lra). rewrite Q. field. lra. }
    replace 0 with (/ sqrt (2 * PI) * 0) by ring.
    apply (is_lim_scal_l (fun y => ge ((y - m) / (s * sqrt 2))) (/ sqrt (2 * PI)) p_infty 0).
    apply (is_lim_comp ge (fun y => (y - m) / (s * sqrt 2)) p_infty 0 p_infty).
    + apply ge_lim.
    + apply lin_lim. now apply Rmult_lt_0_compat.
    + exists 0. intros; discriminate.
Qed.
Lemma ei_value_eq erfc : is_erfc erfc -> ei_value erfc (m - t) s = (m - t) / 2 - A t.
Proof.
  intro He. unfold ei_value. cbn zeta. rewrite (erfc_unique erfc _ He). unfold erfc0, A, phi.
  pose proof sqrt2_pos as H2. pose proof sqrtPI_pos as HP.
  replace (- ((m - t) / s) / sqrt 2) with ((t - m) / (s * sqrt 2)) by (field; split; lra).
  replace ((t - m) / s) with (- ((m - t) / s)) by (field; lra).
  replace ((- ((m - t) / s)) ^ 2) with (((m - t) / s) ^ 2) by ring. field. rewrite sqrt2PI. split; [|lra]. apply Rgt_not_eq. now apply Rmult_lt_0_compat.
Qed.
Lemma partial_int a b : a < t -> t < b -> is_RInt (fun y => Rmax 0 (y - t) * density m s y) a b (A b - A t).
Proof.
  intros Ha Hb. replace (A b - A t) with (plus 0 (A b - A t)) by (unfold plus; simpl; ring).
  apply (@is_RInt_Chasles R_NormedModule _ a t b 0 (A b - A t)).
  - apply is_RInt_ext with (f := fun _ => 0).
    + intros y [_ Hy]. rewrite Rmax_right in Hy by lra. rewrite Rmax_left by lra. unfold zero. simpl. req. ring.
    + pose proof (is_RInt_const a t (0 : R)) as H. unfold scal in H; simpl in H; unfold mult in H; simpl in H. now rewrite Rmult_0_r in H.
  - apply is_RInt_ext with (f := fun y => (y - t) * density m s y).
    + intros y [Hy _]. rewrite Rmin_left in Hy by lra. rewrite Rmax_right by lra. reflexivity.
    + apply (is_RInt_derive A (fun y => (y - t) * density m s y)); intros; [apply A_derive|apply dens_cont].
Qed.
Theorem ei_is_expectation erfc : is_erfc erfc -> expected_improvement m s t (ei_value erfc (m - t) s).
Proof.
  intros He. rewrite (ei_value_eq erfc He). intros P HP.
  assert (L : is_lim (fun b => A b - A t) p_infty ((m - t) / 2 - A t)).
  { apply (is_lim_minus' A (fun _ => A t) p_infty ((m - t) / 2) (A t)); [apply A_lim|apply is_lim_const]. }
  specialize (L P HP). destruct L as (b0 & Hb).
  exists (fun a => a < t) (fun b => Rmax b0 t < b).
  - exists t. auto.
  - exists (Rmax b0 t). auto.
  - intros a b Ha Hlt. cbn beta in Ha, Hlt. cbn [fst snd]. pose proof (Rmax_l b0 t). pose proof (Rmax_r b0 t). exists (A b - A t). split; [apply partial_int; lra|apply Hb; lra].
Qed.
Lemma ei_nonneg erfc : is_erfc erfc -> 0 <= ei_value erfc (m - t) s.
Proof.
  intro He. rewrite (ei_value_eq erfc He).
  assert (L : is_lim (fun b => A b - A t) p_infty ((m - t) / 2 - A t)).
  { apply (is_lim_minus' A (fun _ => A t) p_infty ((m - t) / 2) (A t)); [apply A_lim|apply is_lim_const]. }
  apply (is_lim_le_loc (fun _ => 0) (fun b => A b - A t) p_infty 0 ((m - t) / 2 - A t)); [|apply is_lim_const|exact L].
  exists t. intros b Hb. assert (Hi := partial_int (t - 1) b ltac:(lra) Hb).
  apply (is_RInt_ge_0 (fun y => Rmax 0 (y - t) * density m s y) (t - 1) b); [lra|exact Hi|].
  intros y _. apply Rmult_le_pos; [apply Rmax_l|apply dens_pos].
Qed.
End Improvement.

(** at least the improvement of the mean *)
Lemma ei_above erfc X s : 0 < s -> is_erfc erfc -> X <= ei_value erfc X s.
Proof.
  intros Hs He. pose proof (ei_nonneg (- X) s 0 Hs erfc He) as H. rewrite Rminus_0_r in H.
  assert (D : ei_value erfc X s = X + ei_value erfc (- X) s); [|lra].
  unfold ei_value. cbn zeta. rewrite !(erfc_unique erfc _ He). unfold erfc0. pose proof sqrt2_pos as H2.
  replace (- (- X / s) / sqrt 2) with (X / (s * sqrt 2)) by (field; split; lra).
  replace (- (X / s) / sqrt 2) with (- (X / (s * sqrt 2))) by (field; split; lra).
  rewrite E_odd. replace ((- X / s) ^ 2) with ((X / s) ^ 2) by (field; lra).
  field. rewrite sqrt2PI. pose proof sqrtPI_pos. split; [|lra]. apply Rgt_not_eq. now apply Rmult_lt_0_compat.
Qed.

(** * C42 and C43 for any model *)
(** [f] is the largest element of [l] *)
Definition is_best (l : list R) (f : R) : Prop := In f l /\ List.Forall (fun x => x <= f) l.
Lemma max_element_best l f : max_element l = Done f -> is_best l f.
Proof.
  destruct l as [|x r]; [discriminate|]. intro H. cbn in H. apply (f_equal (fun o => match o with Done v => v | _ => 0 end)) in H. cbv beta iota in H. subst f.
  assert (G : forall r x, (In (fold_left (fun a b => if Rlt_dec a b then b else a) r x) (x :: r)) /\ List.Forall (fun z => z <= fold_left (fun a b => if Rlt_dec a b then b else a) r x) (x :: r)).
  { clear. induction r as [|y r IH]; intro x; cbn [fold_left].
    - split; [now left|repeat constructor; lra].
    - destruct (IH (if Rlt_dec x y then y else x)) as [H1 H2]. inversion H2 as [|? ? H3 H4]; subst. split.
      + destruct H1 as [H1|H1]; [rewrite <- H1; destruct (Rlt_dec x y); cbn; auto|right; now right].
      + constructor; [|constructor; [|exact H4]]; destruct (Rlt_dec x y); lra. }
  apply G.
Qed.
Lemma max_element_done l : l <> [] -> exists f, max_element l = Done f.
Proof. destruct l; [congruence|]. intros _. eexists. reflexivity. Qed.

Section Any.
Variable Md : Type.
Variable query_ : Md -> vec -> outcome (vec * R).
Variable mu_of : Md -> vec -> outcome vec.
Variable samples_ : Md -> list vec.
Variable erfc : R -> R.
Variables (jitter : R) (afun : vec -> R).
Notation EI := (ei Md query_ mu_of samples_ erfc jitter afun).

(** the best aggregated predicted value over the samples of the model *)
Definition incumbent (m : Md) (f : R) : Prop :=
  exists us, Forall2 (fun x u => mu_of m x = Done u) (samples_ m) us /\ is_best (map afun us) f.
(** what a call of EI on model [m] at [v] should return *)
Definition ei_correct (m : Md) (v : vec) (val : R) : Prop :=
  exists u s2, query_ m v = Done (u, s2) /\ 0 <= s2 /\
    (sqrt s2 < / 10 ^ 10 \/ samples_ m = [] -> val = 0) /\
    (/ 10 ^ 10 <= sqrt s2 -> samples_ m <> [] ->
       exists f, incumbent m f /\ expected_improvement (afun u) (sqrt s2) (f + jitter) val /\
                 0 <= val /\ afun u - f - jitter <= val).

Lemma rewards_done m xs l : rewards Md mu_of afun m xs = Done l -> exists us, Forall2 (fun x u => mu_of m x = Done u) xs us /\ l = map afun us.
Proof.
  revert l. induction xs as [|x r IH]; intros l H; cbn in H.
  - exists []. split; [constructor|]. now apply (f_equal (fun o => match o with Done v => v | _ => l end)) in H.
  - destruct (mu_of m x) as [u| |] eqn:Eu; try discriminate. cbn in H. destruct (rewards Md mu_of afun m r) as [l'| |] eqn:Er; try discriminate. cbn in H.
    apply (f_equal (fun o => match o with Done v => v | _ => l end)) in H. cbv beta iota in H. destruct (IH l' eq_refl) as (us & H1 & ->).
    exists (u :: us). split; [now constructor|]. now subst l.
Qed.
Lemma best_unique l f g : is_best l f -> is_best l g -> f = g.
Proof. intros [H1 H2] [H3 H4]. rewrite List.Forall_forall in *. apply Rle_antisym; auto. Qed.
Lemma incumbent_unique m f g : incumbent m f -> incumbent m g -> f = g.
Proof.
  intros (us & H1 & H2) (us' & H3 & H4). assert (us = us') as <-; [|eapply best_unique; eauto].
  clear -H1 H3. revert us us' H1 H3. generalize (samples_ m). induction l as [|x r IH]; intros us us' H1 H3; inversion H1; inversion H3; subst; auto.
  f_equal; [congruence|now apply IH].
Qed.

(** the cache agrees with the model *)
Definition cache_ok (m : Md) (st : ei_state) : Prop :=
  e_nb st = Z.of_nat (length (samples_ m)) -> exists f, e_fmax st = Some f /\ incumbent m f.
Lemma new_cache_ok m : cache_ok m ei_new.
Proof. unfold cache_ok. cbn. lia. Qed.

Lemma call_correct m st v st' val : is_erfc erfc -> cache_ok m st -> EI m st v = Done (st', val) ->
  ei_correct m v val /\ cache_ok m st' /\ (st' = st \/ e_nb st' = Z.of_nat (length (samples_ m))).
Proof.
  intros He C H. unfold ei in H. destruct (query_ m v) as [[u s2]| |] eqn:Eq; try discriminate. cbn [bind fst snd] in H.
  unfold xsqrt in H. destruct (Rle_dec 0 s2) as [Hs2|]; [|discriminate]. cbn [bind] in H.
  destruct (Rlt_dec (sqrt s2) (/ 10 ^ 10)) as [Hlt|Hlt]; cbn [orb] in H.
  { apply (f_equal (fun o => match o with Done v => v | _ => (st', val) end)) in H. cbv beta iota in H.
    assert (st' = st) as -> by congruence. assert (val = 0) as -> by congruence. split; [|auto].
    exists u, s2. repeat split; auto. intros; lra. }
  destruct (length (samples_ m) <? 1)%nat eqn:El.
  { apply Nat.ltb_lt in El. apply (f_equal (fun o => match o with Done v => v | _ => (st', val) end)) in H. cbv beta iota in H.
    assert (st' = st) as -> by congruence. assert (val = 0) as -> by congruence. split; [|auto].
    exists u, s2. repeat split; auto. intros _ Hn. destruct (samples_ m); [congruence|cbn in El; lia]. }
  apply Nat.ltb_ge in El. apply Rnot_lt_le in Hlt.
  set (c := if (e_nb st =? Z.of_nat (length (samples_ m)))%Z then _ else _) in H.
  destruct c as [st1| |] eqn:Ec; try discriminate. cbn [bind] in H.
  assert (C1 : exists f, e_fmax st1 = Some f /\ incumbent m f /\ e_nb st1 = Z.of_nat (length (samples_ m))).
  { unfold c in Ec. destruct (Z.eqb_spec (e_nb st) (Z.of_nat (length (samples_ m)))) as [E0|E0].
    - apply (f_equal (fun o => match o with Done v => v | _ => st1 end)) in Ec. cbv beta iota in Ec. subst st1.
      destruct (C E0) as (f & H1 & H2). exists f. auto.
    - destruct (rewards Md mu_of afun m (samples_ m)) as [l| |] eqn:Er; try discriminate. cbn [bind] in Ec.
      destruct (max_element l) as [f| |] eqn:Ef; try discriminate. cbn [bind] in Ec.
      apply (f_equal (fun o => match o with Done v => v | _ => st1 end)) in Ec. cbv beta iota in Ec. subst st1.
      exists f. cbn [e_fmax e_nb]. split; [reflexivity|]. split; [|reflexivity]. destruct (rewards_done _ _ _ Er) as (us & H1 & ->). exists us. split; [exact H1|].
      now apply max_element_best. }
  destruct C1 as (f & F1 & F2 & F3). rewrite F1 in H.
  apply (f_equal (fun o => match o with Done v => v | _ => (st', val) end)) in H. cbv beta iota in H.
  assert (Hv : ei_value erfc (afun u - f - jitter) (sqrt s2) = val) by congruence. assert (st' = st1) as -> by congruence.
  assert (S0 : 0 < sqrt s2) by (eapply Rlt_le_trans; [|exact Hlt]; apply Rinv_0_lt_compat, pow_lt; lra).
  split; [|split; [intros _; eauto|auto]].
  exists u, s2. split; [exact Eq|]. split; [exact Hs2|]. split.
  { intros [H1|H1]; [lra|]. rewrite H1 in El. cbn in El. lia. }
  intros _ _. exists f. split; [exact F2|]. rewrite <- Hv. split; [|split].
  - replace (afun u - f - jitter) with (afun u - (f + jitter)) by ring. now apply ei_is_expectation.
  - replace (afun u - f - jitter) with (afun u - (f + jitter)) by ring. now apply ei_nonneg.
  - now apply ei_above.
Qed.

(** Histories of an EI object: calls, and changes of the model it refers to *)
Inductive event := Ask (v : vec) | Becomes (m : Md).
Fixpoint play (m : Md) (st : ei_state) (es : list event) : outcome (list (Md * vec * R)) :=
  match es with
  | [] => Done []
  | Ask v :: r => bind (EI m st v) (fun x => bind (play m (fst x) r) (fun l => Done ((m, v, snd x) :: l)))
  | Becomes m' :: r => play m' st r
  end.
(** every change of the model adds samples *)
Fixpoint grows (m : Md) (es : list event) : Prop :=
  match es with
  | [] => True
  | Ask _ :: r => grows m r
  | Becomes m' :: r => (length (samples_ m) < length (samples_ m'))%nat /\ grows m' r
  end.
Lemma play_correct es : forall m st l, is_erfc erfc -> cache_ok m st -> (e_nb st <= Z.of_nat (length (samples_ m)))%Z -> grows m es ->
  play m st es = Done l -> List.Forall (fun x => ei_correct (fst (fst x)) (snd (fst x)) (snd x)) l.
Proof.
  induction es as [|[v|m'] r IH]; intros m st l He C Hb Hg H; cbn in H.
  - apply (f_equal (fun o => match o with Done v => v | _ => l end)) in H. cbv beta iota in H. subst l. constructor.
  - destruct (EI m st v) as [[st' val]| |] eqn:Ee; try discriminate. cbn [bind fst snd] in H.
    destruct (play m st' r) as [l'| |] eqn:Ep; try discriminate. cbn [bind] in H.
    apply (f_equal (fun o => match o with Done v => v | _ => l end)) in H. cbv beta iota in H. subst l.
    destruct (call_correct _ _ _ _ _ He C Ee) as (H1 & H2 & H3). constructor; [exact H1|].
    apply (IH m st' l' He H2); auto. destruct H3 as [->| ->]; lia.
  - destruct Hg as [Hg1 Hg2]. apply (IH m' st l He); auto; [|lia]. intro E0. exfalso. lia.
Qed.

(** ** C42: the value of the first call, and of any sequence of calls on an unchanged model *)
Theorem C42_expected_improvement m vs l : is_erfc erfc ->
  play m ei_new (map Ask vs) = Done l ->
  map (fun x => fst (fst x)) l = map (fun _ => m) vs /\ map (fun x => snd (fst x)) l = vs /\
  List.Forall (fun x => ei_correct m (snd (fst x)) (snd x)) l.
Proof.
  intros He H.
  assert (Sh : forall vs st l, play m st (map Ask vs) = Done l -> map (fun x => fst (fst x)) l = map (fun _ => m) vs /\ map (fun x => snd (fst x)) l = vs).
  { clear. induction vs as [|v r IH]; intros st l H; cbn in H.
    - apply (f_equal (fun o => match o with Done v => v | _ => l end)) in H. cbv beta iota in H. subst l. auto.
    - destruct (EI m st v) as [[st' val]| |]; try discriminate. cbn [bind fst snd] in H. destruct (play m st' (map Ask r)) as [l'| |] eqn:Ep; try discriminate. cbn [bind] in H.
      apply (f_equal (fun o => match o with Done v => v | _ => l end)) in H. cbv beta iota in H. subst l. destruct (IH _ _ Ep) as [H1 H2]. cbn. now rewrite H1, H2. }
  destruct (Sh _ _ _ H) as [H1 H2]. split; [exact H1|]. split; [exact H2|].
  assert (G : grows m (map Ask vs)) by (clear; induction vs; cbn; auto).
  pose proof (play_correct _ _ _ _ He (new_cache_ok m) ltac:(cbn; lia) G H) as F.
  rewrite List.Forall_forall in *. intros x Hx. specialize (F x Hx). assert (fst (fst x) = m) as <-; [|exact F].
  apply (in_map (fun x => fst (fst x))) in Hx. rewrite H1 in Hx. apply in_map_iff in Hx. destruct Hx as (? & ? & _). congruence.
Qed.

(** ** C43, when every change of the model adds samples *)
Theorem C43_current_incumbent_partial m es l : is_erfc erfc -> grows m es -> play m ei_new es = Done l ->
  List.Forall (fun x => ei_correct (fst (fst x)) (snd (fst x)) (snd x)) l.
Proof. intros He Hg H. eapply play_correct; eauto using new_cache_ok. cbn. lia. Qed.
End Any.
