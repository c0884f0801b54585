(** C30: the log-likelihood and its gradients; C31: the leave-one-out score and its gradient. *)
From Coq Require Import Reals List Bool ZArith Lia Lra.
From Coquelicot Require Import Coquelicot.
From Verif Require Import LinAlgModel LinAlg MatCalc Det KernelModel GPModel GPSpec GPFacts Prop_GP KernelSpec KernelGrad.
Import ListNotations.
Open Scope R_scope.

(** logarithm of the density of the normal distribution N(mean, S) at [y], with [r = y - mean] and
    [B] the inverse of [S] *)
Definition log_gauss (n : nat) (S B : nat -> nat -> R) (r : nat -> R) : R :=
  - (1 / 2) * rsum n (fun a => rsum n (fun b => r a * B a b * r b)) - 1 / 2 * ln (det n S) - INR n / 2 * ln (2 * PI).
(** the same for one variable of mean [m] and variance [v] *)
Definition log_normal (m v y : R) : R := - (1 / 2) * ((y - m) * (y - m) / v) - 1 / 2 * ln v - 1 / 2 * ln (2 * PI).

Lemma log_gauss_sum p n S B (r : nat -> nat -> R) :
  rsum p (fun o => log_gauss n S B (r o)) + (INR p - 1) / 2 * (ln (det n S) + INR n * ln (2 * PI)) =
  - (1 / 2) * rsum p (fun o => rsum n (fun a => rsum n (fun b => r o a * B a b * r o b))) - 1 / 2 * ln (det n S) - 1 / 2 * INR n * ln (2 * PI).
Proof.
  unfold log_gauss. generalize (ln (det n S)) as x. generalize (ln (2 * PI)) as y. intros y x.
  rewrite (rsum_ext p _ (fun o => - (1 / 2) * rsum n (fun a => rsum n (fun b => r o a * B a b * r o b)) + - (1 / 2 * x + INR n / 2 * y))) by (intros; ring).
  rewrite rsum_plus, rsum_const, rsum_scal_l. field.
Qed.

(** Contracts: gradients are derivatives (C22, C33) *)
Record KernDiff {K : Kern} (KO : KernOK K) : Prop := {
  kd_len : forall d st, kok KO d st -> length (k_hparams K st) = k_hsize K st;
  kd_id : forall d st, kok KO d st -> k_set K st (k_hparams K st) = st;
  kd_grad : forall d st x y i j q, kok KO d st -> (q < k_hsize K st)%nat ->
    is_derive (fun t => kop K (k_set K st (vupd (k_hparams K st) q t)) x y i j) (vget (k_hparams K st) q)
      (vget (k_grad K st x y i j) q) }.
Record MeanDiff {M : Mean} (MO : MeanOK M) : Prop := {
  md_len : forall d st, mok MO d st -> length (m_hparams M st) = m_hsize M st;
  md_id : forall d st, mok MO d st -> m_set M st (m_hparams M st) = st;
  md_grad : forall d st x mo o q, mok MO d st -> length mo = d -> (o < d)%nat -> (q < m_hsize M st)%nat ->
    is_derive (fun t => vget (m_val M (m_set M st (vupd (m_hparams M st) q t)) x mo) o) (vget (m_hparams M st) q)
      (vget (nth o (m_grad M st x mo) []) q) }.

Section Lik.
Variables (K : Kern) (M : Mean).
Variables (KO : KernOK K) (MO : MeanOK M).
Notation gp := (gp K M). Notation sp := (sp K M).
Notation linv := (linv K M KO MO). Notation inv := (inv K M KO MO). Notation alpha_ok := (alpha_ok K M).
Notation N := (N K M). Notation P := (P K M). Notation G := (G K M). Notation Rs := (Rs K M).

Lemma gram_chol d k (xs : list vec) : kok KO d k -> List.Forall (fun x => length x = d) xs -> exists L, chol (length xs) (gram K k xs) = Some L /\ is_chol (length xs) L (gram K k xs).
Proof.
  intros Hk Hx. pose proof (gram_symm K KO d k xs Hk Hx) as Sy. destruct (chol_succeeds _ _ Sy (gram_pd K KO d k xs Hk Hx)) as (L & E).
  exists L. split; auto. now apply chol_is_chol.
Qed.
(** the current Cholesky factor, as a function of the kernel parameters *)
Definition Lof (k : kst K) (xs : list vec) : nat -> nat -> R := match chol (length xs) (gram K k xs) with Some L => L | None => fun _ _ => 0 end.
Lemma Lof_ok d k (xs : list vec) : kok KO d k -> List.Forall (fun x => length x = d) xs -> is_chol (length xs) (Lof k xs) (gram K k xs).
Proof. intros Hk Hx. destruct (gram_chol d k xs Hk Hx) as (L & E & H). unfold Lof. now rewrite E. Qed.

(** value of the log-likelihood *)
Lemma lik_value g s L : inv g s -> s_xs K M s <> [] -> s_dk K M s = false -> s_dm K M s = false ->
  is_chol (N s) L (G s) ->
  compute_log_lik K M g = Done (- (1 / 2) * rsum (P s) (fun o => rsum (N s) (fun i => Rs s i o * bwd (N s) L (fwd (N s) L (fun a => Rs s a o)) i))
    - 1 / 2 * (2 * rsum (N s) (fun i => ln (L i i))) - 1 / 2 * INR (N s) * ln (2 * PI)).
Proof.
  intros I Hx Hk Hm HL. destruct (v_nonempty _ _ _ _ _ _ I Hx) as (_ & _ & _ & _ & _ & _ & A7 & A8 & A9 & A10).
  destruct (A10 Hk) as (L1 & L2 & L3 & _ & AL). destruct (AL Hm) as (B1 & B2 & B3). specialize (A9 Hm).
  unfold compute_log_lik. rewrite A7, A8, B1, B2, L1, L2, !Nat.eqb_refl. cbn [andb check].
  pose proof (chol_unique _ _ _ _ L3 HL) as U.
  assert (AP : all_pos (N s) (fun i => at_ (g_L K M g) i i) = true).
  { destruct L3 as [[_ Hd] _]. clear - Hd. revert Hd. generalize (at_ (g_L K M g)). intros L Hd. induction (N s) as [|n IH]; [reflexivity|].
    cbn [all_pos]. rewrite IH by (intros; apply Hd; lia). destruct Rlt_dec as [|Hn]; [reflexivity|]. exfalso. apply Hn, Hd. lia. }
  rewrite AP. f_equal. f_equal. f_equal.
  - f_equal. apply rsum_ext. intros o Ho. apply rsum_ext. intros i Hi. rewrite A9 by auto. f_equal.
    apply (pd_unique (N s) (G s) (col (g_alpha K M g) o) (bwd (N s) L (fwd (N s) L (fun a => Rs s a o)))); [now apply chol_pd with L| |auto].
    intros j Hj. etransitivity; [exact (B3 o Ho j Hj)|]. symmetry. apply (solve_both (N s) L (G s) (fun a => Rs s a o) HL j Hj).
  - f_equal. f_equal. apply rsum_ext. intros i Hi. now rewrite U.
Qed.

(** C30: the value.  [p] outputs; [lik] is the sum of the quadratic terms of all outputs but counts the
    normalisation once. *)
Theorem C30_log_likelihood_value g0 s0 os g :
  fresh K M g0 s0 -> run K M g0 os = Done g ->
  let s := meaning K M s0 os in
  let n := length (s_xs K M s) in
  let p := oget (s_dout K M s) in
  let S := gram K (s_k K M s) (s_xs K M s) in
  let r := fun o i => resid M (s_m K M s) (s_xs K M s) (s_ys K M s) p i o in
  s_xs K M s <> [] -> s_dk K M s = false -> s_dm K M s = false ->
  0 < det n S /\ (exists B, is_inv n S B) /\
  forall B, is_inv n S B ->
    compute_log_lik K M g = Done (rsum p (fun o => log_gauss n S B (r o)) + (INR p - 1) / 2 * (ln (det n S) + INR n * ln (2 * PI))) /\
    (p = 1%nat -> compute_log_lik K M g = Done (log_gauss n S B (r 0%nat))).
Proof.
  intros F E s n p S r Hx Hk Hm. assert (I : inv g s) by (eapply run_inv; eauto; now apply fresh_inv).
  destruct (v_nonempty _ _ _ _ _ _ I Hx) as ((d & D1 & D2 & D3) & _).
  pose proof (Lof_ok d (s_k K M s) (s_xs K M s) (v_kok _ _ _ _ _ _ I d D1) D3) as HL.
  pose proof (lik_value g s _ I Hx Hk Hm HL) as V. change (N s) with (length (s_xs K M s)) in V. destruct (logdet_chol _ _ _ HL) as [DP DE].
  split; [exact DP|]. split; [eexists; apply (inv_of_is_inv _ _ _ HL)|]. intros B HB.
  assert (V' : compute_log_lik K M g = Done (rsum p (fun o => log_gauss n S B (r o)) + (INR p - 1) / 2 * (ln (det n S) + INR n * ln (2 * PI)))).
  { rewrite V. f_equal. rewrite <- DE. change (P s) with p. change (GPFacts.G K M s) with S. fold S n.
    rewrite log_gauss_sum. f_equal. f_equal. f_equal.
    apply rsum_ext. intros o _. apply rsum_ext. intros i Hi. change (Rs s i o) with (r o i).
    transitivity (r o i * mvec n B (r o) i).
    - f_equal. exact (inv_solves n S B (r o) (bwd n (Lof (s_k K M s) (s_xs K M s)) (fwd n (Lof (s_k K M s) (s_xs K M s)) (r o))) HB (solve_both n _ S (r o) HL) i Hi).
    - unfold mvec. rewrite <- rsum_scal_l. apply rsum_ext. intros; ring. }
  split; [exact V'|]. intro Hp. rewrite V'. f_equal. clearbody r S. clear -Hp. rewrite Hp. cbn [rsum INR]. clearbody n. field.
Qed.

(** the inverse that the gradients use *)
Lemma need_inv_ok g s : inv g s -> s_xs K M s <> [] -> s_dk K M s = false ->
  exists g', need_inv K M g = Done g' /\ rows (g_inv K M g') = N s /\ cols (g_inv K M g') = N s /\ is_inv (N s) (G s) (at_ (g_inv K M g')) /\
    g_k K M g' = g_k K M g /\ g_m K M g' = g_m K M g /\ g_alpha K M g' = g_alpha K M g /\ g_obs_mean K M g' = g_obs_mean K M g /\
    g_samples K M g' = g_samples K M g /\ g_dout K M g' = g_dout K M g /\ g_mean_obs K M g' = g_mean_obs K M g.
Proof.
  intros I Hx Hk. destruct (v_nonempty _ _ _ _ _ _ I Hx) as (_ & _ & _ & _ & _ & _ & A7 & _ & _ & A10).
  destruct (A10 Hk) as (L1 & L2 & L3 & L4 & _). unfold need_inv.
  destruct (g_inv_updated K M g) eqn:Eu; [exists g; destruct (L4 eq_refl) as (Q1 & Q2 & Q3); repeat split; auto; apply Q3|].
  unfold compute_inv_kernel. rewrite A7, L1, L2, Nat.eqb_refl. cbn [andb check]. rewrite lower_diag_ok by apply L3.
  eexists. split; [reflexivity|]. cbn [g_inv rows cols at_ g_k g_m g_alpha g_obs_mean g_samples g_dout g_mean_obs].
  split; [reflexivity|]. split; [reflexivity|]. split; [apply (inv_of_is_inv (N s) _ _ L3)|]. repeat split.
Qed.

Lemma all_pos_true m f : (forall i, (i < m)%nat -> 0 < f i) -> all_pos m f = true.
Proof.
  induction m as [|m IH]; intro H; [reflexivity|]. cbn [all_pos]. rewrite IH by (intros; apply H; lia).
  destruct Rlt_dec as [|Hn]; [reflexivity|]. exfalso. apply Hn, H. lia.
Qed.
Lemma nonzero_dec m (f : nat -> R) : (exists a, (a < m)%nat /\ f a <> 0) \/ (forall a, (a < m)%nat -> f a = 0).
Proof.
  induction m as [|m [(a & Ha & H)|IH]]; [right; intros; lia|left; exists a; split; [lia|exact H]|].
  destruct (Req_dec (f m) 0) as [E|E]; [right|left; exists m; split; [lia|exact E]].
  intros a Ha. destruct (Nat.eq_dec a m) as [->|Ne]; [exact E|apply IH; lia].
Qed.
Lemma inv_diag_pos m A B i : pd m A -> is_inv m A B -> (i < m)%nat -> 0 < B i i.
Proof.
  intros HA [HB _] Hi. assert (Q : quad m A (fun a => B a i) = B i i).
  { rewrite quad_mvec. rewrite (rsum_ext m _ (fun a => B a i * delta a i)); [now rewrite (delta_sum' m i (fun a => B a i))|].
    intros a Ha. f_equal. exact (HB a i Ha Hi). }
  rewrite <- Q. apply HA. destruct (nonzero_dec m (fun a => B a i)) as [H|H]; [exact H|exfalso].
  pose proof (HB i i Hi Hi) as H1. unfold mmul, delta in H1. rewrite Nat.eqb_refl, rsum_0 in H1; [lra|].
  intros k Hk. rewrite H by exact Hk. ring.
Qed.
(** value of the leave-one-out score *)
Lemma loo_value g s L : inv g s -> s_xs K M s <> [] -> s_dk K M s = false -> s_dm K M s = false ->
  is_chol (N s) L (G s) ->
  exists g', compute_log_loo_cv K M g = Done (g', rsum (P s) (fun o => rsum (N s) (fun i =>
    let al := bwd (N s) L (fwd (N s) L (fun a => Rs s a o)) i in
    - (1 / 2) * (al * al * / inv_of (N s) L i i) - 1 / 2 * ln (/ inv_of (N s) L i i) - 1 / 2 * ln (2 * PI)))).
Proof.
  intros I Hx Hk Hm HL. destruct (need_inv_ok g s I Hx Hk) as (g' & E & R1 & R2 & HB & F1 & F2 & F3 & F4 & F5 & F6 & F7).
  destruct (inv_alpha _ _ _ _ _ _ I Hk Hm Hx) as (B1 & B2 & B3).
  destruct (inv_of_is_inv _ _ _ HL) as [HI SI]. pose proof (inv_unique _ _ _ _ HB HI) as U.
  exists g'. unfold compute_log_loo_cv. rewrite E. cbn [bind]. rewrite R1, R2, F3, B1, B2, Nat.eqb_refl. cbn [andb check].
  rewrite all_pos_true.
  2:{ intros i Hi. rewrite U by auto. apply (inv_diag_pos (N s) (G s)); auto. now apply chol_pd with L. }
  f_equal. f_equal. apply rsum_ext. intros o Ho. apply rsum_ext. intros i Hi. cbn zeta. rewrite U by auto.
  replace (at_ (g_alpha K M g) i o) with (bwd (N s) L (fwd (N s) L (fun a => Rs s a o)) i); [reflexivity|].
  symmetry. apply (pd_unique (N s) (G s) (col (g_alpha K M g) o) (bwd (N s) L (fwd (N s) L (fun a => Rs s a o)))); [now apply chol_pd with L| |auto].
  intros j Hj. etransitivity; [exact (B3 o Ho j Hj)|]. symmetry. apply (solve_both (N s) L (G s) (fun a => Rs s a o) HL j Hj).
Qed.

(** ** Derivative with respect to a kernel parameter *)
Section KGrad.
Hypothesis KD : KernDiff KO.
Variables (g : gp) (s : sp) (q d : nat).
Hypotheses (I : inv g s) (Hx : s_xs K M s <> []) (Hk : s_dk K M s = false) (Hm : s_dm K M s = false).
Hypotheses (Hd : s_din K M s = Some d) (Hq : (q < k_hsize K (s_k K M s))%nat).
Let h := k_hparams K (s_k K M s).
Let t0 := vget h q.
Let kt t := k_set K (s_k K M s) (vupd h q t).
Let xs := s_xs K M s.
Let n := length xs.
Let Kt t := gram K (kt t) xs.
Let Lt t := Lof (kt t) xs.
Let dK i j := if (j <=? i)%nat then vget (k_grad K (s_k K M s) (x_ xs i) (x_ xs j) (Z.of_nat i) (Z.of_nat j)) q
              else vget (k_grad K (s_k K M s) (x_ xs j) (x_ xs i) (Z.of_nat j) (Z.of_nat i)) q.

Lemma kg_kok : kok KO d (s_k K M s). Proof. exact (v_kok _ _ _ _ _ _ I d Hd). Qed.
Lemma kg_rect : List.Forall (fun x => length x = d) xs.
Proof. destruct (v_nonempty _ _ _ _ _ _ I Hx) as ((d' & D1 & _ & D3) & _). rewrite Hd in D1. now injection D1 as <-. Qed.
Lemma kg_hlen : length h = k_hsize K (s_k K M s). Proof. exact (kd_len KO KD d _ kg_kok). Qed.
Lemma kg_okt t : kok KO d (kt t).
Proof. apply kok_set; [exact kg_kok|]. rewrite vupd_len; [exact kg_hlen|]. now rewrite kg_hlen. Qed.
Lemma kg_t0 : kt t0 = s_k K M s.
Proof. unfold kt, t0. rewrite vupd_id by (now rewrite kg_hlen). exact (kd_id KO KD d _ kg_kok). Qed.
Lemma kg_chol t : is_chol n (Lt t) (Kt t). Proof. apply (Lof_ok d); [apply kg_okt|exact kg_rect]. Qed.
Lemma kg_derive i j : (i < n)%nat -> (j < n)%nat -> is_derive (fun t => Kt t i j) t0 (dK i j).
Proof.
  intros Hi Hj. unfold dK. destruct (Nat.leb_spec j i).
  - apply is_derive_ext with (f := fun t => kop K (kt t) (x_ xs i) (x_ xs j) (Z.of_nat i) (Z.of_nat j)).
    + intro t. apply (kop_gram K (kt t) xs i j). auto.
    + exact (kd_grad KO KD d _ _ _ _ _ q kg_kok Hq).
  - apply is_derive_ext with (f := fun t => kop K (kt t) (x_ xs j) (x_ xs i) (Z.of_nat j) (Z.of_nat i)).
    + intro t. etransitivity; [apply (kop_gram K (kt t) xs j i); lia|]. apply (gram_symm K KO d (kt t) xs (kg_okt t) kg_rect); auto.
    + exact (kd_grad KO KD d _ _ _ _ _ q kg_kok Hq).
Qed.
Lemma dK_sym i j : dK i j = dK j i.
Proof. unfold dK. destruct (Nat.leb_spec j i), (Nat.leb_spec i j); try lia; auto. replace j with i by lia. auto. Qed.

(** the GP with the [q]-th parameter set to [t] *)
Definition at_param (t : R) : list (op K M) := [SetK (vupd h q t); Recompute false true].
Lemma kg_gt t : exists gt, run K M g (at_param t) = Done gt /\ inv gt (meaning K M s (at_param t)).
Proof.
  apply (run_progress K M KO MO (at_param t) g s I). cbn [valid_all valid at_param s_step s_xs]. split; [|split; [split; [exact Hx|discriminate]|exact Logic.I]].
  rewrite vupd_len; [exact kg_hlen|]. now rewrite kg_hlen.
Qed.
Definition lik_at (t : R) : R :=
  - (1 / 2) * rsum (P s) (fun o => rsum n (fun i => Rs s i o * sol n Lt (fun _ a => Rs s a o) t i))
    - 1 / 2 * (2 * rsum n (fun i => ln (Lt t i i))) - 1 / 2 * INR n * ln (2 * PI).
Lemma kg_lik_at t : exists gt, run K M g (at_param t) = Done gt /\ compute_log_lik K M gt = Done (lik_at t).
Proof.
  destruct (kg_gt t) as (gt & E & It). exists gt. split; [exact E|].
  rewrite (lik_value gt _ (Lt t) It); auto.
  - cbn [meaning fold_left at_param s_step s_dm]. rewrite Hm. reflexivity.
  - apply kg_chol.
Qed.
Lemma kg_lik_now : compute_log_lik K M g = Done (lik_at t0).
Proof. rewrite (lik_value g s (Lt t0) I Hx Hk Hm); [reflexivity|]. pose proof (kg_chol t0) as H. unfold Kt in H. now rewrite kg_t0 in H. Qed.

Lemma kg_inv0 B : is_inv (N s) (G s) B -> is_inv n (Kt t0) B.
Proof. unfold Kt. now rewrite kg_t0. Qed.
Lemma inv_symm B : is_inv (N s) (G s) B -> symm n B.
Proof.
  intro HB. destruct (right_inv_symm (N s) (G s) B) as [H _]; auto. 2:{ apply HB. } apply (gram_symm K KO d); [exact kg_kok|exact kg_rect].
Qed.
(** current alpha *)
Lemma kg_alpha o i : (o < P s)%nat -> (i < n)%nat -> at_ (g_alpha K M g) i o = sol n Lt (fun _ a => Rs s a o) t0 i.
Proof.
  intros Ho Hi. destruct (inv_alpha _ _ _ _ _ _ I Hk Hm Hx) as (_ & _ & B3).
  apply (pd_unique n (G s) (col (g_alpha K M g) o) (sol n Lt (fun _ a => Rs s a o) t0)); auto.
  - apply (gram_pd K KO d); [exact kg_kok|exact kg_rect].
  - intros j Hj. etransitivity; [exact (B3 o Ho j Hj)|]. symmetry. pose proof (kg_chol t0) as H. unfold Kt in H. rewrite kg_t0 in H.
    apply (solve_both n (Lt t0) (G s) (fun a => Rs s a o) H j Hj).
Qed.
(** derivative of alpha *)
Lemma kg_alpha_derive B o i : is_inv (N s) (G s) B -> (o < P s)%nat -> (i < n)%nat ->
  is_derive (fun t => sol n Lt (fun _ a => Rs s a o) t i) t0
    (- rsum n (fun a => rsum n (fun b => B i a * dK a b * at_ (g_alpha K M g) b o))).
Proof.
  intros HB Ho Hi.
  eapply is_derive_val'; [apply (sol_derive n Kt dK t0 Lt (kg_derive) kg_chol B (fun _ a => Rs s a o) (fun _ => 0) (kg_inv0 B HB)); auto; intros; apply @is_derive_const|].
  unfold mvec. rewrite <- rsum_opp. apply rsum_ext. intros a Ha. rewrite Rminus_0_l.
  rewrite (rsum_ext n (fun b => B i a * dK a b * at_ (g_alpha K M g) b o) (fun b => B i a * (dK a b * sol n Lt (fun (_ : R) a0 => Rs s a0 o) t0 b))).
  - rewrite rsum_scal_l. ring.
  - intros b Hb. rewrite kg_alpha by auto. ring.
Qed.
Lemma lik_derive B : is_inv (N s) (G s) B ->
  is_derive lik_at t0 (1 / 2 * rsum n (fun i => rsum n (fun j =>
    (rsum (P s) (fun o => at_ (g_alpha K M g) i o * at_ (g_alpha K M g) j o) - B i j) * dK i j))).
Proof.
  intro HB. pose proof (inv_symm B HB) as SB. unfold lik_at.
  assert (DA : is_derive (fun t => rsum (P s) (fun o => rsum n (fun i => Rs s i o * sol n Lt (fun _ a => Rs s a o) t i))) t0
    (rsum (P s) (fun o => rsum n (fun i => Rs s i o * - rsum n (fun a => rsum n (fun b => B i a * dK a b * at_ (g_alpha K M g) b o)))))).
  { apply (is_derive_sum (P s) (fun o t => rsum n (fun i => Rs s i o * sol n Lt (fun _ a => Rs s a o) t i))). intros o Ho.
    apply (is_derive_sum n (fun i t => Rs s i o * sol n Lt (fun _ a => Rs s a o) t i)). intros i Hi.
    apply is_derive_scal. now apply kg_alpha_derive. }
  pose proof (logdet_derive n Kt dK t0 Lt kg_derive kg_chol B (kg_inv0 B HB) SB) as DL.
  eapply is_derive_val'.
  - apply @is_derive_minus; [apply @is_derive_minus; [apply is_derive_scal, DA|apply is_derive_scal, DL]|apply @is_derive_const].
  - unfold minus, plus, opp, zero; simpl. req.
    assert (E : rsum (P s) (fun o => rsum n (fun i => Rs s i o * - rsum n (fun a => rsum n (fun b => B i a * dK a b * at_ (g_alpha K M g) b o))))
      = - rsum n (fun i => rsum n (fun j => rsum (P s) (fun o => at_ (g_alpha K M g) i o * at_ (g_alpha K M g) j o) * dK i j))).
    { rewrite <- rsum_opp.
      transitivity (rsum (P s) (fun o => rsum n (fun a => - rsum n (fun b => at_ (g_alpha K M g) a o * at_ (g_alpha K M g) b o * dK a b)))).
      - apply rsum_ext. intros o Ho.
        transitivity (rsum n (fun i => rsum n (fun a => rsum n (fun b => - (Rs s i o * B i a) * (dK a b * at_ (g_alpha K M g) b o))))).
        + apply rsum_ext. intros i Hi. rewrite <- rsum_opp, <- rsum_scal_l. apply rsum_ext. intros a Ha. rewrite <- rsum_opp, <- rsum_scal_l. apply rsum_ext. intros; ring.
        + rewrite rsum_swap. apply rsum_ext. intros a Ha. rewrite rsum_swap, <- rsum_opp. apply rsum_ext. intros b Hb. rewrite rsum_scal_r.
          replace (rsum n (fun i => - (Rs s i o * B i a))) with (- at_ (g_alpha K M g) a o); [ring|]. rewrite rsum_opp. f_equal.
          destruct (inv_alpha _ _ _ _ _ _ I Hk Hm Hx) as (_ & _ & B3).
          rewrite (inv_solves n (G s) B (fun i => Rs s i o) (col (g_alpha K M g) o) HB (B3 o Ho) a Ha : at_ (g_alpha K M g) a o = _).
          apply rsum_ext. intros i Hi. rewrite (SB a i) by auto. ring.
      - rewrite rsum_swap. apply rsum_ext. intros a Ha. rewrite rsum_opp. f_equal. rewrite rsum_swap. apply rsum_ext. intros b Hb. now rewrite rsum_scal_r. }
    rewrite E.
    rewrite (rsum_ext n (fun i => rsum n (fun j => (rsum (P s) (fun o => at_ (g_alpha K M g) i o * at_ (g_alpha K M g) j o) - B i j) * dK i j))
      (fun i => rsum n (fun j => rsum (P s) (fun o => at_ (g_alpha K M g) i o * at_ (g_alpha K M g) j o) * dK i j) - rsum n (fun j => B i j * dK i j))).
    + rewrite rsum_minus. field.
    + intros i _. rewrite <- rsum_minus. apply rsum_ext. intros; ring.
Qed.
(** a sum over a symmetric matrix from its lower triangle *)
Lemma rsum_lower m f : (forall i j, (i < m)%nat -> (j < m)%nat -> f i j = f j i) ->
  rsum m (fun i => rsum (S i) (fun j => if (i =? j)%nat then f i j * (1 / 2) else f i j)) = 1 / 2 * rsum m (fun i => rsum m (fun j => f i j)).
Proof.
  intro Hf. induction m as [|m IH]; [simpl; ring|]. cbn [rsum] in IH |- *. rewrite IH by (intros; apply Hf; lia). rewrite rsum_plus.
  rewrite (rsum_ext m (fun j => if (m =? j)%nat then f m j * (1 / 2) else f m j) (fun j => f m j)).
  - rewrite Nat.eqb_refl. rewrite (rsum_ext m (fun i => f i m) (fun i => f m i)) by (intros; apply Hf; lia). field.
  - intros j Hj. destruct (Nat.eqb_spec m j); [lia|auto].
Qed.
Lemma kgrad_value : exists g' gr, compute_kernel_grad_log_lik K M g = Done (g', gr) /\ length gr = k_hsize K (s_k K M s) /\
  is_derive lik_at t0 (vget gr q).
Proof.
  destruct (need_inv_ok g s I Hx Hk) as (g' & E & R1 & R2 & HB & F1 & F2 & F3 & F4 & F5 & F6 & F7).
  destruct (v_nonempty _ _ _ _ _ _ I Hx) as (_ & _ & _ & _ & _ & _ & A7 & A8 & _ & A10).
  destruct (A10 Hk) as (_ & _ & _ & _ & AL). destruct (AL Hm) as (B1 & B2 & _).
  unfold compute_kernel_grad_log_lik. rewrite E. cbn [bind]. unfold nb_samples. rewrite A7, R1, R2, F3, B1, F5, (v_samples _ _ _ _ _ _ I).
  change (length (s_xs K M s)) with (N s). rewrite Nat.eqb_refl, Nat.leb_refl. cbn [andb check].
  eexists. eexists. split; [reflexivity|]. rewrite F1, (v_k _ _ _ _ _ _ I). split; [apply GPFacts.vec_of_length|]. rewrite GPFacts.vget_vec_of by exact Hq.
  rewrite B2. eapply is_derive_val'; [apply (lik_derive _ HB)|].
  rewrite <- (rsum_lower n (fun i j => (rsum (P s) (fun o => at_ (g_alpha K M g) i o * at_ (g_alpha K M g) j o) - at_ (g_inv K M g') i j) * dK i j)).
  - apply rsum_ext. intros i Hi. apply rsum_ext. intros j Hj. unfold dK. destruct (Nat.leb_spec j i); [|lia].
    unfold sample. rewrite F5, (v_samples _ _ _ _ _ _ I). reflexivity.
  - intros i j Hi Hj. rewrite dK_sym. f_equal. f_equal; [apply rsum_ext; intros; ring|]. now apply (inv_symm _ HB).
Qed.

(** leave-one-out score with the [q]-th parameter set to [t] *)
Definition loo_at (t : R) : R :=
  rsum (P s) (fun o => rsum n (fun i => - (1 / 2) * (sol n Lt (fun _ a => Rs s a o) t i * sol n Lt (fun _ a => Rs s a o) t i * / inv_of n (Lt t) i i)
    - 1 / 2 * ln (/ inv_of n (Lt t) i i) - 1 / 2 * ln (2 * PI))).
Lemma loo_derive B : is_inv (N s) (G s) B ->
  is_derive loo_at t0 (rsum (P s) (fun o => rsum n (fun i =>
    (at_ (g_alpha K M g) i o * rsum n (fun a => rsum n (fun b => B i a * dK a b * at_ (g_alpha K M g) b o))
     - 1 / 2 * ((1 + at_ (g_alpha K M g) i o * at_ (g_alpha K M g) i o * / B i i) * rsum n (fun a => rsum n (fun b => B i a * dK a b * B b i)))) * / B i i))).
Proof.
  intro HB. assert (SB := inv_symm B HB).
  assert (EB : meq n n (inv_of n (Lt t0)) B).
  { apply (inv_unique n (G s)); [|exact HB]. pose proof (kg_chol t0) as H. unfold Kt in H. rewrite kg_t0 in H. apply (inv_of_is_inv n _ _ H). }
  assert (Bpos : forall i, (i < n)%nat -> 0 < B i i).
  { intros i Hi. apply (inv_diag_pos n (G s)); auto. apply (gram_pd K KO d); [exact kg_kok|exact kg_rect]. }
  unfold loo_at. apply (is_derive_sum (P s) (fun o t => rsum n (fun i => - (1 / 2) * (sol n Lt (fun _ a => Rs s a o) t i * sol n Lt (fun _ a => Rs s a o) t i * / inv_of n (Lt t) i i)
    - 1 / 2 * ln (/ inv_of n (Lt t) i i) - 1 / 2 * ln (2 * PI)))). intros o Ho.
  apply (is_derive_sum n (fun i t => - (1 / 2) * (sol n Lt (fun _ a => Rs s a o) t i * sol n Lt (fun _ a => Rs s a o) t i * / inv_of n (Lt t) i i)
    - 1 / 2 * ln (/ inv_of n (Lt t) i i) - 1 / 2 * ln (2 * PI))). intros i Hi.
  pose proof (kg_alpha_derive B o i HB Ho Hi) as DA. pose proof (inv_derive n Kt dK t0 Lt kg_derive kg_chol i i Hi Hi) as DB.
  assert (E0 : inv_of n (Lt t0) i i = B i i) by (apply EB; auto). pose proof (Bpos i Hi) as Bp.
  assert (DI : is_derive (fun t => / inv_of n (Lt t) i i) t0 (rsum n (fun a => rsum n (fun b => B i a * dK a b * B b i)) / (B i i * B i i))).
  { eapply is_derive_val'; [apply is_derive_inv; [exact DB|rewrite E0; apply Rgt_not_eq, Bp]|]. req. cbn beta.
    rewrite E0. rewrite (rsum_ext n (fun a => rsum n (fun b => inv_of n (Lt t0) i a * dK a b * inv_of n (Lt t0) b i)) (fun a => rsum n (fun b => B i a * dK a b * B b i))).
    - field. apply Rgt_not_eq, Bp.
    - intros a Ha. apply rsum_ext. intros b Hb. rewrite !EB by auto. reflexivity. }
  assert (DLn : is_derive (fun t => ln (/ inv_of n (Lt t) i i)) t0 (B i i * (rsum n (fun a => rsum n (fun b => B i a * dK a b * B b i)) / (B i i * B i i)))).
  { eapply is_derive_val'.
    - apply (is_derive_comp ln (fun t => / inv_of n (Lt t) i i)); [apply is_derive_Reals, derivable_pt_lim_ln|exact DI]. rewrite E0. now apply Rinv_0_lt_compat.
    - unfold scal; simpl; unfold mult; simpl. req. rewrite E0, Rinv_inv. ring. }
  pose proof (is_derive_mul _ _ _ _ _ (is_derive_mul _ _ _ _ _ DA DA) DI) as DQ. cbn beta in DQ.
  eapply is_derive_val'.
  - apply @is_derive_minus; [apply @is_derive_minus; [apply is_derive_scal, DQ|apply is_derive_scal, DLn]|apply @is_derive_const].
  - unfold minus, plus, opp, zero; simpl. req. rewrite E0, <- (kg_alpha o i) by auto. field. apply Rgt_not_eq, Bp.
Qed.
Lemma kg_loo_at t : exists gt gt', run K M g (at_param t) = Done gt /\ compute_log_loo_cv K M gt = Done (gt', loo_at t).
Proof.
  destruct (kg_gt t) as (gt & E & It). exists gt.
  destruct (loo_value gt (meaning K M s (at_param t)) (Lt t) It) as (gt' & H); auto.
  - cbn [meaning fold_left at_param s_step s_dm]. rewrite Hm. reflexivity.
  - apply kg_chol.
  - exists gt'. split; [exact E|exact H].
Qed.
Lemma kg_loo_now : exists g', compute_log_loo_cv K M g = Done (g', loo_at t0).
Proof. destruct (loo_value g s (Lt t0) I Hx Hk Hm) as (g' & H); [|exists g'; exact H]. pose proof (kg_chol t0) as H. unfold Kt in H. now rewrite kg_t0 in H. Qed.
Lemma kgrad_loo_value : exists g' gr, compute_kernel_grad_log_loo_cv K M g = Done (g', gr) /\ length gr = k_hsize K (s_k K M s) /\
  is_derive loo_at t0 (vget gr q).
Proof.
  destruct (need_inv_ok g s I Hx Hk) as (g' & E & R1 & R2 & HB & F1 & F2 & F3 & F4 & F5 & F6 & F7).
  destruct (v_nonempty _ _ _ _ _ _ I Hx) as (_ & (p & P1 & _) & _ & _ & _ & _ & A7 & A8 & _ & A10).
  destruct (A10 Hk) as (_ & _ & _ & _ & AL). destruct (AL Hm) as (B1 & B2 & _).
  unfold compute_kernel_grad_log_loo_cv. rewrite E. cbn [bind]. unfold nb_samples. rewrite A7, R1, R2, F3, B1, B2, F5, F6, (v_samples _ _ _ _ _ _ I), (v_dout _ _ _ _ _ _ I).
  change (length (s_xs K M s)) with (N s). change (oget (s_dout K M s)) with (P s). rewrite !Nat.eqb_refl, Nat.leb_refl. cbn [andb check].
  rewrite all_pos_true.
  2:{ intros i Hi. apply (inv_diag_pos (N s) (G s)); auto; apply (gram_pd K KO d); [exact kg_kok|exact kg_rect]. }
  eexists. eexists. split; [reflexivity|]. rewrite F1, (v_k _ _ _ _ _ _ I). split; [apply GPFacts.vec_of_length|]. rewrite GPFacts.vget_vec_of by exact Hq.
  eapply is_derive_val'; [apply (loo_derive _ HB)|]. apply rsum_ext. intros o Ho. apply rsum_ext. intros i Hi.
  assert (DK : forall a b, vget (if (b <=? a)%nat then k_grad K (s_k K M s) (sample K M g' a) (sample K M g' b) (Z.of_nat a) (Z.of_nat b)
      else k_grad K (s_k K M s) (sample K M g' b) (sample K M g' a) (Z.of_nat b) (Z.of_nat a)) q = dK a b).
  { intros a b. unfold dK, sample. rewrite F5, (v_samples _ _ _ _ _ _ I). now destruct (b <=? a)%nat. }
  assert (Z1 : forall (x : nat -> R), rsum n (fun m => rsum n (fun m0 => at_ (g_inv K M g') i m0 * dK m0 m) * x m)
     = rsum n (fun a => rsum n (fun b => at_ (g_inv K M g') i a * dK a b * x b))).
  { intro x. rewrite rsum_swap. apply rsum_ext. intros b Hb. now rewrite rsum_scal_r. }
  rewrite <- !Z1. change (N s) with n.
  f_equal. f_equal.
  - f_equal. apply rsum_ext. intros m Hm0. f_equal. apply rsum_ext. intros m0 Hm1. now rewrite DK.
  - f_equal. f_equal. apply rsum_ext. intros m Hm0. f_equal. apply rsum_ext. intros m0 Hm1. now rewrite DK.
Qed.
End KGrad.

(** ** Derivative with respect to a parameter of the mean *)
Section MGrad.
Hypothesis MD : MeanDiff MO.
Variables (g : gp) (s : sp) (q p : nat).
Hypotheses (I : inv g s) (Hx : s_xs K M s <> []) (Hk : s_dk K M s = false) (Hm : s_dm K M s = false).
Hypotheses (Hp : s_dout K M s = Some p) (Hq : (q < m_hsize M (s_m K M s))%nat).
Let h := m_hparams M (s_m K M s).
Let t0 := vget h q.
Let mt t := m_set M (s_m K M s) (vupd h q t).
Let xs := s_xs K M s.
Let n := length xs.
Let mo := data_mean (s_ys K M s) p.
Let L := Lof (s_k K M s) xs.
Let Rt t i o := resid M (mt t) xs (s_ys K M s) p i o.
Let dM i o := vget (nth o (m_grad M (s_m K M s) (x_ xs i) mo) []) q.

Lemma mg_mok : mok MO p (s_m K M s). Proof. exact (v_mok _ _ _ _ _ _ I p Hp). Qed.
Lemma mg_hlen : length h = m_hsize M (s_m K M s). Proof. exact (md_len MO MD p _ mg_mok). Qed.
Lemma mg_t0 : mt t0 = s_m K M s.
Proof. unfold mt, t0. rewrite vupd_id by (now rewrite mg_hlen). exact (md_id MO MD p _ mg_mok). Qed.
Lemma mg_chol : is_chol n L (G s).
Proof.
  destruct (v_nonempty _ _ _ _ _ _ I Hx) as ((d & D1 & _ & D3) & _). apply (Lof_ok d); [exact (v_kok _ _ _ _ _ _ I d D1)|exact D3].
Qed.
Lemma mg_derive i o : (o < p)%nat -> is_derive (fun t => Rt t i o) t0 (- dM i o).
Proof.
  intro Ho. unfold Rt, resid, prior_mean. fold mo. eapply is_derive_val'.
  - apply @is_derive_minus; [apply @is_derive_const|]. apply (md_grad MO MD p _ (x_ xs i) mo o q mg_mok); auto. apply GPFacts.data_mean_length.
  - unfold minus, plus, opp, zero; simpl. unfold dM. req. ring.
Qed.
Definition at_mean_param (t : R) : list (op K M) := [SetM (vupd h q t); Recompute true false].
Definition lik_at_mean (t : R) : R :=
  - (1 / 2) * rsum p (fun o => rsum n (fun i => Rt t i o * bwd n L (fwd n L (fun a => Rt t a o)) i))
    - 1 / 2 * (2 * rsum n (fun i => ln (L i i))) - 1 / 2 * INR n * ln (2 * PI).
Lemma mg_P : P s = p. Proof. unfold GPFacts.P. now rewrite Hp. Qed.
Lemma mg_lik_at t : exists gt, run K M g (at_mean_param t) = Done gt /\ compute_log_lik K M gt = Done (lik_at_mean t).
Proof.
  destruct (run_progress K M KO MO (at_mean_param t) g s I) as (gt & E & It).
  { cbn [valid_all valid at_mean_param s_step s_xs s_dk]. split; [|split; [split; [exact Hx|auto]|exact Logic.I]].
    rewrite vupd_len; [exact mg_hlen|]. now rewrite mg_hlen. }
  exists gt. split; [exact E|]. rewrite (lik_value gt _ L It); auto.
  - unfold lik_at_mean. unfold GPFacts.P, GPFacts.Rs. cbn [meaning fold_left at_mean_param s_step s_dout s_m s_xs s_ys]. rewrite Hp. reflexivity.
  - cbn [meaning fold_left at_mean_param s_step s_dk]. now rewrite Hk.
  - exact mg_chol.
Qed.
Lemma mg_lik_now : compute_log_lik K M g = Done (lik_at_mean t0).
Proof.
  rewrite (lik_value g s L I Hx Hk Hm mg_chol). unfold lik_at_mean, Rt. rewrite mg_t0, mg_P. unfold GPFacts.Rs. rewrite Hp. reflexivity.
Qed.
Lemma mgrad_value : exists g' gr, compute_mean_grad_log_lik K M g = Done (g', gr) /\ length gr = m_hsize M (s_m K M s) /\
  is_derive lik_at_mean t0 (vget gr q).
Proof.
  destruct (need_inv_ok g s I Hx Hk) as (g' & E & R1 & R2 & HB & F1 & F2 & F3 & F4 & F5 & F6 & F7).
  destruct (v_nonempty _ _ _ _ _ _ I Hx) as (_ & (p' & P1 & P2) & _ & _ & _ & A6 & A7 & A8 & A9 & _).
  assert (p' = p) by congruence. subst p'.
  assert (SB : symm n (at_ (g_inv K M g'))).
  { destruct (right_inv_symm (N s) (G s) (at_ (g_inv K M g'))) as [H _]; auto; [|apply HB]. pose proof mg_chol as (_ & H). now apply factors_symm in H. }
  unfold compute_mean_grad_log_lik. rewrite E. cbn [bind]. unfold nb_samples, dout_pos. rewrite A7, R1, R2, F4, A8, F5, F6, F2, (v_samples _ _ _ _ _ _ I), (v_dout _ _ _ _ _ _ I), (v_m _ _ _ _ _ _ I), mg_P, Hp.
  change (length (s_xs K M s)) with (N s). cbn [oget]. rewrite !Nat.eqb_refl, Nat.leb_refl.
  assert (Eq1 : (0 <? p)%nat = true) by now apply Nat.ltb_lt.
  assert (Eq2 : (0 <? m_hsize M (s_m K M s))%nat = true) by (apply Nat.ltb_lt; lia).
  rewrite Eq1, Eq2. cbn [andb check].
  eexists. eexists. split; [reflexivity|]. split; [apply GPFacts.vec_of_length|]. rewrite GPFacts.vget_vec_of by exact Hq.
  set (B := at_ (g_inv K M g')) in *.
  assert (Sol : forall t o i, (i < n)%nat -> bwd n L (fwd n L (fun a => Rt t a o)) i = rsum n (fun j => B i j * Rt t j o)).
  { intros t o i Hi. exact (inv_solves n (G s) B (fun a => Rt t a o) _ HB (solve_both n L (G s) (fun a => Rt t a o) mg_chol) i Hi). }
  assert (DA : is_derive (fun t => rsum p (fun o => rsum n (fun i => Rt t i o * bwd n L (fwd n L (fun a => Rt t a o)) i))) t0
    (rsum p (fun o => rsum n (fun i => - dM i o * rsum n (fun j => B i j * Rt t0 j o) + Rt t0 i o * rsum n (fun j => B i j * - dM j o))))).
  { apply is_derive_ext with (f := fun t => rsum p (fun o => rsum n (fun i => Rt t i o * rsum n (fun j => B i j * Rt t j o)))).
    { intro t. apply rsum_ext. intros o _. apply rsum_ext. intros i Hi. now rewrite Sol. }
    apply (is_derive_sum p (fun o t => rsum n (fun i => Rt t i o * rsum n (fun j => B i j * Rt t j o)))). intros o Ho.
    apply (is_derive_sum n (fun i t => Rt t i o * rsum n (fun j => B i j * Rt t j o))). intros i Hi.
    apply is_derive_mul; [now apply mg_derive|]. apply (is_derive_sum n (fun j t => B i j * Rt t j o)). intros j Hj.
    apply is_derive_scal. now apply mg_derive. }
  eapply is_derive_val'.
  - unfold lik_at_mean. apply @is_derive_minus; [apply @is_derive_minus; [apply is_derive_scal, DA|apply @is_derive_const]|apply @is_derive_const].
  - unfold minus, plus, opp, zero; simpl. req. rewrite !Ropp_0, !Rplus_0_r. rewrite <- rsum_scal_l. apply rsum_ext. intros o Ho.
    rewrite rsum_plus.
    assert (Z1 : rsum n (fun i => Rt t0 i o * rsum n (fun j => B i j * - dM j o)) = rsum n (fun i => - dM i o * rsum n (fun j => B i j * Rt t0 j o))).
    { transitivity (rsum n (fun i => rsum n (fun j => Rt t0 i o * (B i j * - dM j o)))).
      - apply rsum_ext. intros. now rewrite rsum_scal_l.
      - rewrite rsum_swap. apply rsum_ext. intros j Hj. rewrite <- rsum_scal_l. apply rsum_ext. intros i Hi. rewrite (SB i j) by auto. ring. }
    rewrite Z1. rewrite <- (rsum_scal_l n (- (1 / 2))), <- rsum_plus || rewrite <- rsum_plus, <- rsum_scal_l.
    apply rsum_ext. intros i Hi. change (N s) with n.
    replace (rsum n (fun k => at_ (g_obs_mean K M g) k o * B k i)) with (rsum n (fun j => B i j * Rt t0 j o)).
    + unfold dM. unfold mean_observation. rewrite F5, (v_samples _ _ _ _ _ _ I), F7, A6, mg_P.
      unfold sample. rewrite F5, (v_samples _ _ _ _ _ _ I). unfold mo, x_, xs.
      destruct (s_xs K M s) eqn:Ex; [congruence|]. field.
    + apply rsum_ext. intros j Hj. rewrite (SB i j) by auto. assert (Z2 : at_ (g_obs_mean K M g) j o = Rt t0 j o); [|rewrite Z2; ring].
      rewrite (A9 Hm j o Hj) by (now rewrite mg_P). unfold Rt. rewrite mg_t0. unfold GPFacts.Rs. rewrite Hp. reflexivity.
Qed.
End MGrad.

(** C30: the gradients are derivatives.  [ll t] is what compute_log_lik() returns when the [q]-th
    parameter is set to [t] and the GP recomputed. *)
Theorem C30_kernel_gradient g0 s0 os g q (KD : KernDiff KO) :
  fresh K M g0 s0 -> run K M g0 os = Done g ->
  let s := meaning K M s0 os in
  s_xs K M s <> [] -> s_dk K M s = false -> s_dm K M s = false ->
  let h := k_hparams K (g_k K M g) in
  (q < k_hsize K (g_k K M g))%nat ->
  exists g' gr ll, compute_kernel_grad_log_lik K M g = Done (g', gr) /\ length gr = k_hsize K (g_k K M g) /\
    (forall t, exists gt, run K M g [SetK (vupd h q t); Recompute false true] = Done gt /\ compute_log_lik K M gt = Done (ll t)) /\
    compute_log_lik K M g = Done (ll (vget h q)) /\
    derivable_pt_lim ll (vget h q) (vget gr q).
Proof.
  intros F E s Hx Hk Hm h Hq. assert (I : inv g s) by (eapply run_inv; eauto; now apply fresh_inv).
  destruct (v_nonempty _ _ _ _ _ _ I Hx) as ((d & D1 & _) & _). unfold h in *. rewrite (v_k _ _ _ _ _ _ I) in *.
  destruct (kgrad_value KD g s q d I Hx Hk Hm D1 Hq) as (g' & gr & E' & Hl & HD).
  exists g', gr, (lik_at s q). split; [exact E'|]. split; [exact Hl|].
  split; [intro t; exact (kg_lik_at KD g s q d I Hx Hm D1 Hq t)|]. split; [exact (kg_lik_now KD g s q d I Hx Hk Hm D1 Hq)|].
  now apply is_derive_Reals.
Qed.
Theorem C30_mean_gradient g0 s0 os g q (MD : MeanDiff MO) :
  fresh K M g0 s0 -> run K M g0 os = Done g ->
  let s := meaning K M s0 os in
  s_xs K M s <> [] -> s_dk K M s = false -> s_dm K M s = false ->
  let h := m_hparams M (g_m K M g) in
  (q < m_hsize M (g_m K M g))%nat ->
  exists g' gr ll, compute_mean_grad_log_lik K M g = Done (g', gr) /\ length gr = m_hsize M (g_m K M g) /\
    (forall t, exists gt, run K M g [SetM (vupd h q t); Recompute true false] = Done gt /\ compute_log_lik K M gt = Done (ll t)) /\
    compute_log_lik K M g = Done (ll (vget h q)) /\
    derivable_pt_lim ll (vget h q) (vget gr q).
Proof.
  intros F E s Hx Hk Hm h Hq. assert (I : inv g s) by (eapply run_inv; eauto; now apply fresh_inv).
  destruct (v_nonempty _ _ _ _ _ _ I Hx) as (_ & (p & P1 & _) & _). unfold h in *. rewrite (v_m _ _ _ _ _ _ I) in *.
  destruct (mgrad_value MD g s q p I Hx Hk Hm P1 Hq) as (g' & gr & E' & Hl & HD).
  exists g', gr, (lik_at_mean s q p). split; [exact E'|]. split; [exact Hl|].
  split; [intro t; exact (mg_lik_at MD g s q p I Hx Hk P1 Hq t)|]. split; [exact (mg_lik_now MD g s q p I Hx Hk Hm P1 Hq)|].
  now apply is_derive_Reals.
Qed.
(** C31: the gradient of the leave-one-out score *)
Theorem C31_loo_gradient g0 s0 os g q (KD : KernDiff KO) :
  fresh K M g0 s0 -> run K M g0 os = Done g ->
  let s := meaning K M s0 os in
  s_xs K M s <> [] -> s_dk K M s = false -> s_dm K M s = false ->
  let h := k_hparams K (g_k K M g) in
  (q < k_hsize K (g_k K M g))%nat ->
  exists g' gr ll, compute_kernel_grad_log_loo_cv K M g = Done (g', gr) /\ length gr = k_hsize K (g_k K M g) /\
    (forall t, exists gt gt', run K M g [SetK (vupd h q t); Recompute false true] = Done gt /\ compute_log_loo_cv K M gt = Done (gt', ll t)) /\
    (exists g'', compute_log_loo_cv K M g = Done (g'', ll (vget h q))) /\
    derivable_pt_lim ll (vget h q) (vget gr q).
Proof.
  intros F E s Hx Hk Hm h Hq. assert (I : inv g s) by (eapply run_inv; eauto; now apply fresh_inv).
  destruct (v_nonempty _ _ _ _ _ _ I Hx) as ((d & D1 & _) & _). unfold h in *. rewrite (v_k _ _ _ _ _ _ I) in *.
  destruct (kgrad_loo_value KD g s q d I Hx Hk Hm D1 Hq) as (g' & gr & E' & Hl & HD).
  exists g', gr, (loo_at s q). split; [exact E'|]. split; [exact Hl|].
  split; [intro t; exact (kg_loo_at KD g s q d I Hx Hm D1 Hq t)|]. split; [exact (kg_loo_now KD g s q d I Hx Hk Hm D1 Hq)|].
  now apply is_derive_Reals.
Qed.
End Lik.
