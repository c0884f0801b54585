(** C40 (UCB) and C41 (GP-UCB) over the reals; C42 and C43 (EI) for the Gaussian processes of limbo. *)
From Coq Require Import Reals List Bool ZArith Lia Lra.
From Verif Require Import LinAlgModel LinAlg KernelModel GPModel GPSpec GPFacts Prop_GP Prop_GP2 KernelSpec KernelFacts Prop_Kernel
  MeanSpec MeanFacts Prop_Mean Prop_Lik2 AcquiModel Prop_EI.
Import ListNotations.
Open Scope R_scope.

(** * C40 for any model *)
Section Any.
Variable Md : Type.
Variable query_ : Md -> vec -> outcome (vec * R).
Lemma ucb_eq alpha afun m v u s2 : query_ m v = Done (u, s2) -> 0 <= s2 -> ucb Md query_ alpha afun m v = Done (afun u + alpha * sqrt s2).
Proof. intros E H. unfold ucb. rewrite E. cbn [bind fst snd]. unfold xsqrt. destruct (Rle_dec 0 s2); [reflexivity|lra]. Qed.
(** a larger mean and a larger variance give a larger value (two predictions of any two models) *)
Theorem C40_monotone alpha (afun : vec -> R) m v u s2 m' v' u' s2' :
  0 <= alpha -> query_ m v = Done (u, s2) -> query_ m' v' = Done (u', s2') -> 0 <= s2 ->
  afun u <= afun u' -> s2 <= s2' ->
  exists a b, ucb Md query_ alpha afun m v = Done a /\ ucb Md query_ alpha afun m' v' = Done b /\ a <= b /\
    (afun u < afun u' \/ (0 < alpha /\ s2 < s2') -> a < b).
Proof.
  intros Ha E E' H0 Hu Hs. eexists _, _. split; [apply ucb_eq; eauto|]. split; [apply ucb_eq; eauto; lra|].
  pose proof (sqrt_le_1 s2 s2' H0 ltac:(lra) Hs) as Hq. pose proof (Rmult_le_compat_l _ _ _ Ha Hq). split; [lra|].
  intros [H1|[H1 H2]]; [lra|]. pose proof (sqrt_lt_1 s2 s2' H0 ltac:(lra) H2) as Hq'. pose proof (Rmult_lt_compat_l _ _ _ H1 Hq'). lra.
Qed.
End Any.

Section Limbo.
Variables (sf2 l : R) (k : nat) (C : CKern) (noise0 : R) (opt : bool) (M : Mean).
Hypotheses (Hs : 0 < sf2) (Hl : 0 < l) (HC : In C (kernels sf2 l k)) (Hn : 0 <= noise0) (Ho : opt = true -> 0 < noise0) (HM : means M).
Notation K := (BaseKernel C noise0 opt).

(** the prediction of a GP after a valid history: the prior without data, the posterior otherwise *)
Definition predicted (s : sp K M) (v : vec) (u : vec) (s2 : R) : Prop :=
  let p := oget (s_dout K M s) in
  (s_xs K M s = [] -> u = m_val M (s_m K M s) v (repeat 0 p) /\ s2 = k_ker K (s_k K M s) v v + k_noise K (s_k K M s)) /\
  (s_xs K M s <> [] -> exists B, is_inv (length (s_xs K M s)) (gram K (s_k K M s) (s_xs K M s)) B /\
     u = vec_of p (post_mean K M (s_k K M s) (s_m K M s) (s_xs K M s) (s_ys K M s) p B v) /\
     s2 = clamp (post_var K (s_k K M s) (s_xs K M s) B v) + k_noise K (s_k K M s)).

Lemma prediction g0 s0 os : fresh K M g0 s0 -> valid_all K M s0 os ->
  let s := meaning K M s0 os in
  s_dk K M s = false -> s_dm K M s = false ->
  exists g, run K M g0 os = Done g /\ g_samples K M g = s_xs K M s /\
  forall v p, s_din K M s = Some (length v) -> s_dout K M s = Some p -> (0 < p)%nat ->
  exists u s2, mu K M g v = Done u /\ query K M g v = Done (u, s2) /\ 0 <= s2 /\ predicted s v u s2.
Proof.
  intros F V s Hk Hm. destruct (kernels_OK _ _ _ _ Hs Hl HC) as [O]. destruct (means_RT M HM) as [T].
  set (KO := reach_KO C noise0 opt Hn Ho O). set (MO := reach_MO M T).
  destruct (C24_valid_histories_succeed K M KO MO g0 s0 os F V) as (g & E). exists g. split; [exact E|].
  pose proof (run_inv K M KO MO os g0 s0 g (fresh_inv _ _ _ _ _ _ F) E) as I. fold s in I. split; [exact (v_samples _ _ _ _ _ _ I)|].
  intros v p Hv Hp P0. pose proof (v_kok _ _ _ _ _ _ I _ Hv) as Hok. pose proof (kok_noise KO _ _ Hok) as Hno.
  pose proof (ker_diag_nonneg K KO _ _ v Hok eq_refl) as Hd.
  destruct (s_xs K M s) as [|x r] eqn:Ex.
  - exists (m_val M (s_m K M s) v (repeat 0 p)), (k_ker K (s_k K M s) v v + k_noise K (s_k K M s)).
    unfold mu, query, dout_pos, mean_at, mean_observation. rewrite (v_samples _ _ _ _ _ _ I), Ex, (v_din _ _ _ _ _ _ I), (v_dout _ _ _ _ _ _ I), Hv, Hp, (v_k _ _ _ _ _ _ I), (v_m _ _ _ _ _ _ I).
    cbn [onat_eqb oget]. rewrite Nat.eqb_refl, (proj2 (Nat.ltb_lt 0 p) P0). cbn [andb check]. rewrite kop0_ker.
    split; [reflexivity|]. split; [reflexivity|]. split; [lra|]. unfold predicted. rewrite Ex, Hp. cbn [oget]. split; [auto|congruence].
  - assert (Hx : s_xs K M s <> []) by (rewrite Ex; discriminate).
    destruct (C24_exact_posterior K M KO MO g0 s0 os g F E Hx Hk Hm v Hv) as [(B & HB) Hpr]. destruct (Hpr B HB) as (H1 & _ & H3). fold s in H1, H3, HB.
    eexists _, _. split; [exact H1|]. split; [exact H3|]. split; [pose proof (clamp_nonneg (post_var K (s_k K M s) (s_xs K M s) B v)); lra|].
    unfold predicted. split; [congruence|]. intros _. exists B. auto.
Qed.

(** ** C40: the value of UCB.  The last part of C40 (an unexplored point is ranked at least as high as
    an explored one with the same mean) is false, see [Prop_Acqui2.C40_unexplored_refuted]. *)
Theorem C40_ucb_value_partial g0 s0 os : fresh K M g0 s0 -> valid_all K M s0 os ->
  let s := meaning K M s0 os in
  s_dk K M s = false -> s_dm K M s = false ->
  exists g, run K M g0 os = Done g /\
  forall alpha (afun : vec -> R) v p, s_din K M s = Some (length v) -> s_dout K M s = Some p -> (0 < p)%nat ->
  exists u s2, predicted s v u s2 /\ ucb_gp K M alpha afun g v = Done (afun u + alpha * sqrt s2).
Proof.
  intros F V s Hk Hm. destruct (prediction g0 s0 os F V Hk Hm) as (g & E & _ & Hq). exists g. split; [exact E|].
  intros alpha afun v p Hv Hp P0. destruct (Hq v p Hv Hp P0) as (u & s2 & _ & H2 & H3 & H4). exists u, s2. split; [exact H4|]. now apply ucb_eq.
Qed.

(** ** C42 for the GPs of limbo: every call returns, and returns the expected improvement *)
Theorem C42_limbo_gp erfc jitter (afun : vec -> R) g0 s0 os : is_erfc erfc -> fresh K M g0 s0 -> valid_all K M s0 os ->
  let s := meaning K M s0 os in
  s_dk K M s = false -> s_dm K M s = false ->
  exists g, run K M g0 os = Done g /\
  forall v p, s_din K M s = Some (length v) -> s_dout K M s = Some p -> (0 < p)%nat ->
  exists u s2 st val, predicted s v u s2 /\ ei_gp K M erfc jitter afun g ei_new v = Done (st, val) /\
    (sqrt s2 < / 10 ^ 10 \/ s_xs K M s = [] -> val = 0) /\
    (/ 10 ^ 10 <= sqrt s2 -> s_xs K M s <> [] -> exists us f,
       Forall2 (fun x u' => exists s2', predicted s x u' s2') (s_xs K M s) us /\ is_best (map afun us) f /\
       expected_improvement (afun u) (sqrt s2) (f + jitter) val /\ 0 <= val /\ afun u - f - jitter <= val).
Proof.
  intros He F V s Hk Hm. destruct (prediction g0 s0 os F V Hk Hm) as (g & E & Eg & Hq). fold s in Eg, Hq. exists g. split; [exact E|].
  intros v p Hv Hp P0. destruct (Hq v p Hv Hp P0) as (u & s2 & _ & H2 & H3 & H4).
  assert (Len : List.Forall (fun x => length x = length v) (s_xs K M s)).
  { destruct (kernels_OK _ _ _ _ Hs Hl HC) as [O]. destruct (means_RT M HM) as [T].
    pose proof (run_inv K M (reach_KO C noise0 opt Hn Ho O) (reach_MO M T) os g0 s0 g (fresh_inv _ _ _ _ _ _ F) E) as I. fold s in I.
    destruct (s_xs K M s) as [|x r] eqn:Ex; [constructor|]. rewrite <- Ex.
    destruct (w_nonempty _ _ _ _ _ _ (inv_linv _ _ _ _ _ _ I)) as ((d & D1 & _ & D2) & _); [now rewrite Ex|]. rewrite Hv in D1. injection D1 as <-. exact D2. }
  assert (Rw : forall xs : list vec, List.Forall (fun x => length x = length v) xs ->
    exists us, rewards (gp K M) (mu K M) afun g xs = Done (map afun us) /\ Forall2 (fun x u' => exists s2', predicted s x u' s2') xs us).
  { clear -Hq Hp P0 Hv. intros xs Lx. induction Lx as [|x r Hx Hr IH]; [exists []; split; [reflexivity|constructor]|]. destruct IH as (us & I1 & I2).
    destruct (Hq x p) as (u' & s2' & Q1 & _ & _ & Q4); [now rewrite Hx|exact Hp|exact P0|]. exists (u' :: us). split; [|constructor; eauto].
    cbn [rewards]. rewrite Q1. cbn [bind]. rewrite I1. reflexivity. }
  destruct (Rw _ Len) as (us & R1 & R2).
  assert (Dn : exists st val, ei_gp K M erfc jitter afun g ei_new v = Done (st, val)).
  { unfold ei_gp, ei, gp_samples. rewrite H2, Eg. cbn [bind fst snd]. unfold xsqrt. destruct (Rle_dec 0 s2); [|lra]. cbn [bind].
    destruct (Rlt_dec (sqrt s2) (/ 10 ^ 10)); cbn [orb]; [eauto|]. destruct (length (s_xs K M s) <? 1)%nat eqn:El; [eauto|]. apply Nat.ltb_ge in El.
    cbn [ei_new e_nb]. destruct (Z.eqb_spec (-1) (Z.of_nat (length (s_xs K M s)))) as [H|_]; [lia|]. rewrite R1. cbn [bind].
    destruct (max_element_done (map afun us)) as (f & Ef).
    { intro H. apply map_eq_nil in H. subst us. inversion R2 as [H0|]. rewrite <- H0 in El. cbn in El. lia. }
    rewrite Ef. cbn [bind e_fmax]. eauto. }
  destruct Dn as (st & val & Ev). exists u, s2, st, val. split; [exact H4|]. split; [exact Ev|].
  destruct (call_correct _ _ _ _ _ _ _ _ _ _ _ _ He (new_cache_ok _ _ _ _ g) Ev) as [(u1 & s21 & Q1 & Q2 & Q3 & Q4) _].
  rewrite H2 in Q1. assert (u1 = u) as -> by congruence. assert (s21 = s2) as -> by congruence. unfold gp_samples in Q3, Q4. rewrite Eg in Q3, Q4.
  split; [exact Q3|]. intros A B. destruct (Q4 A B) as (f & (us' & U1 & U2) & Q5 & Q6 & Q7). unfold gp_samples in U1. rewrite Eg in U1.
  exists us', f. split; [|auto]. clear -U1 Len Hq Hp P0 Hv. revert us' U1. generalize dependent (s_xs K M s). intros xs Lx. induction Lx as [|x r Hx Hr IH]; intros us' U1; inversion U1; subst; constructor; [|now apply IH].
  destruct (Hq x p) as (u' & s2' & Q1 & _ & _ & Q4); [now rewrite Hx|exact Hp|exact P0|]. exists s2'. rewrite Q1 in H1. assert (y = u') as -> by congruence. exact Q4.
Qed.
End Limbo.

(** a history that meets the hypotheses of [C40_ucb_value_partial] and [C42_limbo_gp] *)
Example C42_hypotheses :
  let K := BaseKernel (SquaredExpARD 1 1) (1 / 100) true in let M := Data in
  let os := [Compute [[0; 0]; [1; 2]] [[1]; [5]] true; Add (fun _ _ => 0) (fun _ _ => 7) [0; 0] [2]] in
  (exists erfc, is_erfc erfc) /\ means M /\ fresh K M (gp_default K M) (s_default K M) /\ valid_all K M (s_default K M) os /\
  let s := meaning K M (s_default K M) os in
  s_xs K M s <> [] /\ s_dk K M s = false /\ s_dm K M s = false /\ s_din K M s = Some (length [3; 4]) /\ s_dout K M s = Some 1%nat.
Proof.
  split; [apply erfc_exists|]. split; [constructor|]. split; [constructor|]. split; [|cbn; repeat split; discriminate].
  cbn. repeat split; try discriminate; try lia; repeat constructor; auto.
Qed.
