(** C54: expected constrained improvement; C55: the upper bound used by IMGPO. *)
From Coq Require Import Reals List Bool ZArith Lia Lra.
From Coquelicot Require Import Coquelicot.
From Verif Require Import LinAlgModel LinAlg KernelModel KernelSpec KernelFacts GPModel GPSpec GPFacts MeanSpec MeanFacts Prop_GP AcquiModel GaussInt Prop_EI EciModel.
Import ListNotations.
Open Scope R_scope.

(** [p] is the probability that a normal variable exceeds [t] *)
Definition prob_above (m s t p : R) : Prop := is_RInt_gen (density m s) (at_point t) (Rbar_locally p_infty) p.

Section Above.
Variables (m s t : R).
Hypothesis Hs : 0 < s.
Let A (y : R) := / sqrt PI * E ((y - m) / (s * sqrt 2)).
Lemma A_der y : is_derive A y (density m s y).
Proof.
  pose proof sqrt2_pos as H2. pose proof sqrtPI_pos as HP.
  assert (DE : is_derive (fun y => E ((y - m) / (s * sqrt 2))) y (/ (s * sqrt 2) * ge ((y - m) / (s * sqrt 2)))).
  { apply (is_derive_comp E (fun y => (y - m) / (s * sqrt 2))); [apply E_derive|]. auto_derive; [auto|]. field. split; lra. }
  unfold A. replace (density m s y) with (/ sqrt PI * (/ (s * sqrt 2) * ge ((y - m) / (s * sqrt 2)))).
  - apply (is_derive_scal (fun y => E ((y - m) / (s * sqrt 2))) y (/ sqrt PI)). exact DE.
  - unfold density, ge. rewrite sqrt2PI.
    replace (- ((y - m) / (s * sqrt 2) * ((y - m) / (s * sqrt 2)))) with (- ((y - m) / s) ^ 2 / 2).
    + field. repeat split; lra.
    + replace ((y - m) / (s * sqrt 2) * ((y - m) / (s * sqrt 2))) with (((y - m) / s) ^ 2 / (sqrt 2 * sqrt 2)) by (field; split; lra).
      rewrite sqrt_sqrt by lra. field. lra.
Qed.
Lemma density_cont y : continuous (density m s) y.
Proof. apply (ex_derive_continuous (density m s)). unfold density. auto_derive; auto. Qed.
Lemma A_inf : is_lim A p_infty (1 / 2).
Proof.
  pose proof sqrt2_pos as H2. pose proof sqrtPI_pos as HP. unfold A.
  replace (1 / 2) with (/ sqrt PI * (sqrt PI / 2)) by (field; lra).
  apply (is_lim_scal_l (fun y => E ((y - m) / (s * sqrt 2))) (/ sqrt PI) p_infty (sqrt PI / 2)).
  apply (is_lim_comp E (fun y => (y - m) / (s * sqrt 2)) p_infty (sqrt PI / 2) p_infty).
  - apply gauss_integral.
  - apply lin_lim. apply Rmult_lt_0_compat; lra.
  - exists 0. intros y Hy. discriminate.
Qed.
Lemma prob_above_value erfc : is_erfc erfc -> prob_above m s t (1 / 2 * erfc (- ((m - t) / s) / sqrt 2)).
Proof.
  intro He. pose proof sqrt2_pos as H2. pose proof sqrtPI_pos as HP.
  assert (V : 1 / 2 * erfc (- ((m - t) / s) / sqrt 2) = 1 / 2 - A t).
  { rewrite (erfc_unique erfc _ He). unfold erfc0, A. replace (- ((m - t) / s) / sqrt 2) with ((t - m) / (s * sqrt 2)) by (field; split; lra). field. lra. }
  rewrite V. intros P HQ.
  assert (L : is_lim (fun b => A b - A t) p_infty (1 / 2 - A t)) by (apply (is_lim_minus' A (fun _ => A t) p_infty (1 / 2) (A t)); [apply A_inf|apply is_lim_const]).
  specialize (L P HQ). destruct L as (b0 & Hb).
  exists (fun a => a = t) (fun b => b0 < b); [reflexivity|exists b0; auto|].
  intros a b -> Hb'. exists (A b - A t). split; [|now apply Hb]. cbn.
  apply (is_RInt_derive A (density m s)); intros; [apply A_der|apply density_cont].
Qed.
Lemma prob_above_range p : prob_above m s t p -> 0 <= p <= 1.
Proof.
  intro H. assert (He := erfc0_ok). pose proof (prob_above_value erfc0 He) as H0.
  assert (p = 1 / 2 * erfc0 (- ((m - t) / s) / sqrt 2)) as ->.
  { apply (is_RInt_gen_unique (density m s)) in H. apply (is_RInt_gen_unique (density m s)) in H0. congruence. }
  assert (Hg : forall x, 0 <= erfc0 x).
  { intro x. unfold erfc0. pose proof sqrtPI_pos as HP.
    assert (Hx : E x <= sqrt PI / 2).
    { apply (is_lim_le_loc (fun _ => E x) E p_infty (E x) (sqrt PI / 2)); [|apply is_lim_const|apply gauss_integral].
      exists x. intros y Hy. assert (HK : E y = E x + RInt ge x y). { unfold E. rewrite <- (RInt_Chasles ge 0 x y); try apply ge_int. reflexivity. }
      rewrite HK. assert (0 <= RInt ge x y); [|lra]. apply RInt_ge_0; [lra|apply ge_int|]. intros z _. apply Rlt_le, ge_pos. }
    assert (2 / sqrt PI * E x <= 2 / sqrt PI * (sqrt PI / 2)) by (apply Rmult_le_compat_l; [apply Rlt_le, Rdiv_lt_0_compat; lra|exact Hx]).
    replace (2 / sqrt PI * (sqrt PI / 2)) with 1 in * by (field; lra). lra. }
  assert (Hsym : forall x, erfc0 x + erfc0 (- x) = 2) by (intro x; unfold erfc0; rewrite E_odd; ring).
  set (x := - ((m - t) / s) / sqrt 2). pose proof (Hg x). pose proof (Hg (- x)). pose proof (Hsym x). lra.
Qed.
End Above.

Section Any.
Variables Md Cm : Type.
Variable query_ : Md -> vec -> outcome (vec * R).
Variable mu_of : Md -> vec -> outcome vec.
Variable samples_ : Md -> list vec.
Variable cquery_ : Cm -> vec -> outcome (vec * R).
Variable csamples_ : Cm -> list vec.
Variables (jitter : R) (afun : vec -> R).
Variable erfc : R -> R.
Hypothesis He : is_erfc erfc.
Notation ECI := (eci Md Cm query_ mu_of samples_ cquery_ csamples_ erfc jitter afun).
Notation EI := (ei Md query_ mu_of samples_ erfc jitter afun).

(** probability of being feasible (constraint value at least 1) at [v]; 1 without any observation of the constraint *)
Definition feasibility (cm : Cm) (v : vec) (p : R) : Prop :=
  exists u s2, cquery_ cm v = Done (u, s2) /\ 0 <= s2 /\
    (csamples_ cm = [] -> p = 1) /\
    (csamples_ cm <> [] -> 0 < s2 -> prob_above (afun u) (sqrt s2) 1 p) /\
    (csamples_ cm <> [] -> s2 = 0 -> p = if Rle_dec 1 (afun u) then 1 else 0).
(** what a call should return *)
Definition eci_correct (m : Md) (cm : Cm) (v : vec) (val : R) : Prop :=
  exists u s2, query_ m v = Done (u, s2) /\ 0 <= s2 /\
    (sqrt s2 < / 10 ^ 10 \/ samples_ m = [] -> val = 0) /\
    (/ 10 ^ 10 <= sqrt s2 -> samples_ m <> [] ->
       exists f e p, incumbent Md mu_of samples_ afun m f /\ expected_improvement (afun u) (sqrt s2) (f + jitter) e /\
         feasibility cm v p /\ val = p * e /\ 0 <= val <= e).

Lemma eci_is m cm st v st' val : ECI m cm st v = Done (st', val) ->
  exists e, EI m st v = Done (st', e) /\ ((exists p, pf Cm cquery_ csamples_ erfc afun cm v = Done p /\ val = p * e) \/
    (val = 0 /\ exists u s2, query_ m v = Done (u, s2) /\ (sqrt s2 < / 10 ^ 10 \/ samples_ m = []))).
Proof.
  unfold eci, ei. intro H. destruct (query_ m v) as [[u s2]| |] eqn:Eq; try discriminate. cbn [bind fst snd] in *.
  destruct (xsqrt s2) as [sg| |] eqn:Es; try discriminate. cbn [bind] in *.
  destruct ((if Rlt_dec sg (/ 10 ^ 10) then true else false) || (length (samples_ m) <? 1)%nat)%bool eqn:Eb.
  - apply (f_equal (fun o => match o with Done v => v | _ => (st', val) end)) in H. cbv beta iota in H.
    exists 0. split; [f_equal; f_equal; congruence|]. right. split; [congruence|]. exists u, s2. split; [reflexivity|].
    unfold xsqrt in Es. destruct (Rle_dec 0 s2); [|discriminate]. apply (f_equal (fun o => match o with Done v => v | _ => 0 end)) in Es. cbv beta iota in Es. subst sg.
    apply orb_prop in Eb. destruct Eb as [Eb|Eb]; [left; destruct (Rlt_dec (sqrt s2) (/ 10 ^ 10)); [assumption|discriminate]|].
    right. apply Nat.ltb_lt in Eb. destruct (samples_ m); [reflexivity|cbn in Eb; lia].
  - destruct (if (e_nb st =? Z.of_nat (length (samples_ m)))%Z then Done st else _) as [st1| |]; try discriminate. cbn [bind] in *.
    destruct (e_fmax st1) as [f|]; [|discriminate].
    destruct (pf Cm cquery_ csamples_ erfc afun cm v) as [p| |]; try discriminate. cbn [bind] in *.
    apply (f_equal (fun o => match o with Done v => v | _ => (st', val) end)) in H. cbv beta iota in H.
    assert (st' = st1) as -> by congruence. eexists. split; [reflexivity|]. left. exists p. split; [reflexivity|]. unfold ei_value. cbn zeta. congruence.
Qed.
Lemma pf_value cm v p : pf Cm cquery_ csamples_ erfc afun cm v = Done p ->
  (forall u s2, cquery_ cm v = Done (u, s2) -> csamples_ cm <> [] -> / 10 ^ 10 <= sqrt s2) -> feasibility cm v p /\ 0 <= p <= 1.
Proof.
  unfold pf. intros H Hc. destruct (cquery_ cm v) as [[u s2]| |] eqn:Eq; try discriminate. cbn [bind fst snd] in H.
  specialize (Hc u s2 eq_refl). unfold xsqrt in H. destruct (Rle_dec 0 s2) as [H0|]; [|discriminate]. cbn [bind] in H.
  assert (T : 0 < / 10 ^ 10) by (apply Rinv_0_lt_compat, pow_lt; lra).
  destruct (csamples_ cm) as [|c0 cs] eqn:Ec.
  - cbn [length Nat.ltb Nat.leb] in H. rewrite orb_true_r in H. apply (f_equal (fun o => match o with Done v => v | _ => p end)) in H. cbv beta iota in H. subst p.
    split; [|lra]. exists u, s2. split; [exact Eq|]. split; [exact H0|]. split; [auto|]. split; intros N; rewrite Ec in N; congruence.
  - specialize (Hc ltac:(discriminate)). destruct (Rlt_dec (sqrt s2) (/ 10 ^ 10)) as [Hl|_]; [lra|]. cbn [length Nat.ltb Nat.leb orb] in H.
    apply (f_equal (fun o => match o with Done v => v | _ => p end)) in H. cbv beta iota in H.
    assert (S2 : 0 < sqrt s2) by lra. pose proof (prob_above_value (afun u) (sqrt s2) 1 S2 erfc He) as HP. rewrite H in HP.
    split; [|now apply (prob_above_range (afun u) (sqrt s2) 1 S2)].
    exists u, s2. split; [exact Eq|]. split; [exact H0|]. split; [intro N; rewrite Ec in N; discriminate|]. split; [intros _ _; exact HP|].
    intros _ ->. rewrite sqrt_0 in S2. lra.
Qed.

(** C54.  Partial: a constraint known with a standard deviation below 1e-10 is taken to be satisfied, see below *)
Theorem C54_eci_partial m cm st v st' val : cache_ok Md mu_of samples_ afun m st -> ECI m cm st v = Done (st', val) ->
  (forall u s2, cquery_ cm v = Done (u, s2) -> csamples_ cm <> [] -> / 10 ^ 10 <= sqrt s2) ->
  eci_correct m cm v val /\ cache_ok Md mu_of samples_ afun m st'.
Proof.
  intros C H Hc. destruct (eci_is _ _ _ _ _ _ H) as (e & E1 & Hv).
  destruct (call_correct Md query_ mu_of samples_ erfc jitter afun m st v st' e He C E1) as ((u & s2 & Eq & H0 & Z1 & Z2) & C' & _).
  split; [|exact C']. exists u, s2. split; [exact Eq|]. split; [exact H0|].
  destruct Hv as [(p & Ep & ->)|(-> & u' & s2' & Eq' & Hz)].
  - split; [intro Hz; rewrite (Z1 Hz); ring|]. intros Hs Hn. destruct (Z2 Hs Hn) as (f & If & Ex & Hpos & _).
    destruct (pf_value cm v p Ep Hc) as [HF HR]. exists f, e, p. split; [exact If|]. split; [exact Ex|]. split; [exact HF|]. split; [reflexivity|].
    split; [apply Rmult_le_pos; lra|]. rewrite <- (Rmult_1_l e) at 2. apply Rmult_le_compat_r; lra.
  - rewrite Eq in Eq'. apply (f_equal (fun o => match o with Done v => v | _ => (u, s2) end)) in Eq'. cbv beta iota in Eq'. assert (s2' = s2) as -> by congruence.
    split; [auto|]. intros Hs Hn. destruct Hz as [Hz|Hz]; [lra|congruence].
Qed.
End Any.

(** ** A GP trained with the single observation 0 at 0 *)
Section One.
Variable sf2 : R.
Hypothesis Hsf : 0 < sf2.
Let C := Exp sf2 1.
Definition K1 := BaseKernel C 0 false.
Let M := NullFunction.
Let Ho : false = true -> 0 < 0. Proof. discriminate. Qed.
Let O := exp_OK sf2 1 Hsf Rlt_0_1.
Let KO : KernOK K1 := base_OK C O 0 false (Rle_refl 0) Ho.
Let MO := RT_OK M null_RT.
Definition b1 := exp (- (1 / 2)).
Lemma b1_range : 0 < b1 < 1.
Proof. unfold b1. split; [apply exp_pos|]. apply Rlt_le_trans with (exp 0); [apply exp_increasing; lra|rewrite exp_0; lra]. Qed.
Lemma k1_xx x : k_ker K1 (k_new K1 1) [x] [x] = sf2.
Proof.
  unfold K1, C. cbn [k_ker BaseKernel c_ker Exp k_new b_c c_new]. unfold exp_kernel, iso_new. cbn [i_l i_sf2].
  replace (- (1 / 2) * (sqdist [x] [x] / (1 * 1))) with 0; [rewrite exp_0; ring|]. unfold sqdist. cbn. field.
Qed.
Lemma k1_01 : k_ker K1 (k_new K1 1) [0] [1] = sf2 * b1.
Proof.
  unfold K1, C. cbn [k_ker BaseKernel c_ker Exp k_new b_c c_new]. unfold exp_kernel, iso_new. cbn [i_l i_sf2].
  unfold b1. do 2 f_equal. unfold sqdist; cbn; field.
Qed.
Lemma one_sample : exists g, run K1 M (gp_default K1 M) [Compute [[0]] [[0]] true] = Done g /\ g_samples K1 M g = [[0]] /\
  mu K1 M g [0] = Done [0] /\ query K1 M g [1] = Done ([0], clamp (sf2 - sf2 * b1 * (sf2 * b1) / (sf2 + / 100000000)) + 0).
Proof.
  set (os := [Compute [[0]] [[0]] true] : list (op K1 M)).
  assert (V : valid_all K1 M (s_default K1 M) os) by (cbn; repeat split; try discriminate; try lia; repeat constructor; auto).
  assert (F : fresh K1 M (gp_default K1 M) (s_default K1 M)) by constructor.
  destruct (C24_valid_histories_succeed K1 M KO MO _ _ os F V) as (g & E). exists g. split; [exact E|].
  pose proof (run_inv K1 M KO MO os _ _ g (fresh_inv _ _ _ _ _ _ F) E) as I. split; [rewrite (v_samples _ _ _ _ _ _ I); reflexivity|].
  assert (Pr : forall z, exists B, is_inv 1 (gram K1 (k_new K1 1) [[0]]) B /\
    mu K1 M g [z] = Done (vec_of 1 (post_mean K1 M (k_new K1 1) 1%nat [[0]] [[0]] 1 B [z])) /\
    query K1 M g [z] = Done (vec_of 1 (post_mean K1 M (k_new K1 1) 1%nat [[0]] [[0]] 1 B [z]), clamp (post_var K1 (k_new K1 1) [[0]] B [z]) + 0)).
  { intro z. destruct (C24_exact_posterior K1 M KO MO _ _ os g F E) with (v := [z]) as [(B & HB) Hp]; [discriminate|reflexivity|reflexivity|reflexivity|].
    destruct (Hp B HB) as (P1 & _ & P3). exists B. auto. }
  assert (Pm : forall B z, vec_of 1 (post_mean K1 M (k_new K1 1) 1%nat [[0]] [[0]] 1 B z) = [0]).
  { intros B z. unfold vec_of. cbn [seq map]. f_equal. unfold post_mean, resid, prior_mean, y_, data_mean. cbn -[cov]. ring. }
  split; [destruct (Pr 0) as (B & _ & P1 & _); rewrite P1, Pm; reflexivity|].
  destruct (Pr 1) as (B & [HI _] & _ & P3). rewrite P3, Pm. do 3 f_equal.
  assert (IB : B 0%nat 0%nat = / (sf2 + / 100000000)).
  { specialize (HI 0%nat 0%nat ltac:(lia) ltac:(lia)). unfold mmul, delta in HI. cbn [rsum Nat.eqb] in HI.
    unfold gram, x_ in HI. cbn [nth Nat.eqb] in HI. rewrite (k1_xx 0) in HI. change (k_noise K1 (k_new K1 1)) with 0 in HI.
    apply Rmult_eq_reg_l with (sf2 + / 100000000); [|lra]. rewrite Rinv_r by lra. rewrite <- HI. ring. }
  unfold post_var, cov, x_. cbn zeta. cbn [length rsum nth]. rewrite (k1_xx 1), k1_01, IB. f_equal. field. lra.
Qed.
End One.

(** The constraint GP has seen the violated constraint value 0 and predicts 0 at [v] with deviation 0
    (its signal variance is below the threshold under which [GP::query] rounds to 0), yet the code takes
    it to be satisfied and returns the plain, positive, expected improvement. *)
Theorem C54_certain_constraint_refuted erfc : is_erfc erfc ->
  let c := K1 (/ 2 ^ 52) in let k := K1 1 in let M := NullFunction in let afun := fun u : vec => vget u 0 in
  exists g gc v st val,
    run k M (gp_default k M) [Compute [[0]] [[0]] true] = Done g /\ run c M (gp_default c M) [Compute [[0]] [[0]] true] = Done gc /\
    eci (gp k M) (gp c M) (query k M) (mu k M) (gp_samples k M) (query c M) (gp_samples c M) erfc 0 afun g gc ei_new v = Done (st, val) /\
    0 < val /\ feasibility (gp c M) (query c M) (gp_samples c M) afun gc v 0 /\
    ~ eci_correct (gp k M) (gp c M) (query k M) (mu k M) (gp_samples k M) (query c M) (gp_samples c M) 0 afun g gc v val.
Proof.
  intros He c k M afun. subst c k M. pose proof b1_range as Hb.
  assert (P52 : 0 < / 2 ^ 52) by (apply Rinv_0_lt_compat, pow_lt; lra).
  destruct (one_sample 1 Rlt_0_1) as (g & E1 & S1 & M1 & Q1). destruct (one_sample (/ 2 ^ 52) P52) as (gc & E2 & S2 & _ & Q2).
  unfold clamp in Q2.
  destruct (Rle_dec _ (/ 2 ^ 52)) as [_|N] in Q2.
  2:{ exfalso. apply N. set (z := / 2 ^ 52) in *. assert (0 <= z * b1 * (z * b1) / (z + / 100000000)); [|lra].
      apply Rmult_le_pos; [apply Rle_0_sqr|]. apply Rlt_le, Rinv_0_lt_compat. lra. }
  assert (Hv : 1 / 100000000 < 1 - 1 * b1 * (1 * b1) / (1 + / 100000000)).
  { set (a := 1 + / 100000000). assert (Ha : 0 < a < 2) by (unfold a; lra).
    assert (b1 * b1 < 1 / 2).
    { unfold b1. rewrite <- exp_plus. replace (- (1 / 2) + - (1 / 2)) with (- (1)) by lra. rewrite exp_Ropp.
      assert (1 + 1 < exp 1) by (apply exp_ineq1; lra). apply Rmult_lt_reg_r with (exp 1); [lra|]. rewrite Rinv_l by lra. lra. }
    assert (1 * b1 * (1 * b1) / a < 1 / 2). { apply Rmult_lt_reg_r with a; [lra|]. unfold Rdiv at 1. rewrite Rmult_assoc, Rinv_l by lra. unfold a. lra. } lra. }
  set (va := 1 - 1 * b1 * (1 * b1) / (1 + / 100000000)) in *. clearbody va.
  assert (Hcl : clamp va = va).
  { unfold clamp. destruct (Rle_dec va (/ 2 ^ 52)) as [H|]; [|reflexivity]. exfalso.
    assert (/ 2 ^ 52 < / 2 ^ 27). { apply Rinv_lt_contravar; [apply Rmult_lt_0_compat; apply pow_lt; lra|]. apply Rlt_pow; [lra|lia]. } lra. }
  rewrite Hcl in Q1. replace (va + 0) with va in Q1 by ring. replace (0 + 0) with 0 in Q2 by ring.
  assert (Hsq : / 10 ^ 10 < sqrt va).
  { apply Rlt_trans with (1 / 10000); [lra|]. replace (1 / 10000) with (sqrt (1 / 100000000)); [apply sqrt_lt_1; lra|].
    replace (1 / 100000000) with (Rsqr (1 / 10000)) by (unfold Rsqr; field). apply sqrt_Rsqr. lra. }
  assert (P10 : 0 < / 10 ^ 10) by (apply Rinv_0_lt_compat, pow_lt; lra).
  set (val := 1 * ((0 - 0 - 0) * (1 / 2 * erfc (- ((0 - 0 - 0) / sqrt va) / sqrt 2)) + sqrt va * (exp (- (1 / 2) * ((0 - 0 - 0) / sqrt va) ^ 2) / sqrt (2 * PI)))).
  assert (Pv : 0 < val).
  { unfold val. replace (0 - 0 - 0) with 0 by ring. rewrite Rmult_0_l, Rplus_0_l, Rmult_1_l. apply Rmult_lt_0_compat; [lra|].
    apply Rdiv_lt_0_compat; [apply exp_pos|]. apply sqrt_lt_R0. pose proof PI_RGT_0. lra. }
  assert (Ff : feasibility (gp (K1 (/ 2 ^ 52)) NullFunction) (query _ _) (gp_samples _ _) afun gc [1] 0).
  { exists [0], 0. split; [exact Q2|]. split; [lra|]. unfold gp_samples. split; [intro H; rewrite S2 in H; discriminate|]. split; [lra|].
    intros _ _. unfold afun. cbn [vget nth]. destruct (Rle_dec 1 0); [lra|reflexivity]. }
  exists g, gc, [1], {| e_nb := 1; e_fmax := Some 0 |}, val. split; [exact E1|]. split; [exact E2|]. split.
  { unfold eci, pf, gp_samples. rewrite Q1, Q2, S1. cbn [bind fst snd]. unfold xsqrt. destruct (Rle_dec 0 va); [|lra]. cbn [bind].
    destruct (Rlt_dec (sqrt va) (/ 10 ^ 10)); [lra|]. cbn [orb length Nat.ltb Nat.leb ei_new e_nb Z.of_nat Pos.of_succ_nat Z.eqb rewards]. rewrite M1. cbn [bind max_element fold_left afun vget nth e_fmax fst snd e_nb].
    destruct (Rle_dec 0 0); [|lra]. cbn [bind]. rewrite sqrt_0. destruct (Rlt_dec 0 (/ 10 ^ 10)); [|lra]. cbn [orb bind]. reflexivity. }
  split; [exact Pv|]. split; [exact Ff|].
  intros (u & s2 & H1 & H2 & _ & H4). rewrite Q1 in H1. assert (s2 = va) as -> by congruence.
  destruct (H4 ltac:(lra)) as (f & e & p & _ & _ & (u' & s2' & C1 & _ & _ & _ & C5) & Hp & _); [unfold gp_samples; rewrite S1; discriminate|].
  rewrite Q2 in C1. assert (u' = [0]) as -> by congruence. assert (s2' = 0) as -> by congruence.
  rewrite C5 in Hp; [|unfold gp_samples; rewrite S2; discriminate|reflexivity].
  unfold afun in Hp. cbn [vget nth] in Hp. destruct (Rle_dec 1 0); lra.
Qed.

(** the hypotheses of [C54_eci_partial] are met: both models trained, the constraint model uncertain *)
Example C54_nontrivial erfc : is_erfc erfc ->
  let k := K1 1 in let M := NullFunction in let afun := fun u : vec => vget u 0 in
  exists g st val, run k M (gp_default k M) [Compute [[0]] [[0]] true] = Done g /\
    cache_ok (gp k M) (mu k M) (gp_samples k M) afun g ei_new /\
    eci (gp k M) (gp k M) (query k M) (mu k M) (gp_samples k M) (query k M) (gp_samples k M) erfc 0 afun g g ei_new [1] = Done (st, val) /\
    gp_samples k M g <> [] /\
    (forall u s2, query k M g [1] = Done (u, s2) -> gp_samples k M g <> [] -> / 10 ^ 10 <= sqrt s2).
Proof.
  intros He k M afun. subst k M. pose proof b1_range as Hb.
  destruct (one_sample 1 Rlt_0_1) as (g & E1 & S1 & M1 & Q1).
  assert (Hv : 1 / 100000000 < 1 - 1 * b1 * (1 * b1) / (1 + / 100000000)).
  { set (a := 1 + / 100000000). assert (Ha : 0 < a < 2) by (unfold a; lra).
    assert (b1 * b1 < 1 / 2).
    { unfold b1. rewrite <- exp_plus. replace (- (1 / 2) + - (1 / 2)) with (- (1)) by lra. rewrite exp_Ropp.
      assert (1 + 1 < exp 1) by (apply exp_ineq1; lra). apply Rmult_lt_reg_r with (exp 1); [lra|]. rewrite Rinv_l by lra. lra. }
    assert (1 * b1 * (1 * b1) / a < 1 / 2). { apply Rmult_lt_reg_r with a; [lra|]. unfold Rdiv at 1. rewrite Rmult_assoc, Rinv_l by lra. unfold a. lra. } lra. }
  set (va := 1 - 1 * b1 * (1 * b1) / (1 + / 100000000)) in *. clearbody va.
  assert (Hcl : clamp va = va).
  { unfold clamp. destruct (Rle_dec va (/ 2 ^ 52)) as [H|]; [|reflexivity]. exfalso.
    assert (/ 2 ^ 52 < / 2 ^ 27). { apply Rinv_lt_contravar; [apply Rmult_lt_0_compat; apply pow_lt; lra|]. apply Rlt_pow; [lra|lia]. } lra. }
  rewrite Hcl in Q1. replace (va + 0) with va in Q1 by ring.
  assert (Hsq : / 10 ^ 10 < sqrt va).
  { apply Rlt_trans with (1 / 10000); [lra|]. replace (1 / 10000) with (sqrt (1 / 100000000)); [apply sqrt_lt_1; lra|].
    replace (1 / 100000000) with (Rsqr (1 / 10000)) by (unfold Rsqr; field). apply sqrt_Rsqr. lra. }
  eexists g, _, _. split; [exact E1|]. split; [apply new_cache_ok|]. split.
  { unfold eci, pf, gp_samples. rewrite Q1, S1. cbn [bind fst snd]. unfold xsqrt. destruct (Rle_dec 0 va); [|exfalso; lra]. cbn [bind].
    destruct (Rlt_dec (sqrt va) (/ 10 ^ 10)); [exfalso; lra|]. cbn [orb length Nat.ltb Nat.leb ei_new e_nb Z.of_nat Pos.of_succ_nat Z.eqb rewards]. rewrite M1. cbn [bind max_element fold_left afun vget nth e_fmax fst snd e_nb]. reflexivity. }
  split; [unfold gp_samples; rewrite S1; discriminate|]. intros u s2 H _. rewrite Q1 in H. assert (s2 = va) as -> by congruence. lra.
Qed.

(** * C55: the optimistic bound of IMGPO *)
Section Imgpo.
Variable Md : Type.
Variable query_ : Md -> vec -> outcome (vec * R).
Notation UCB := (ucb_imgpo Md query_).
(** the confidence the bound is built for: [nu] shared over the [M] cells labelled so far *)
Definition enough (nu : R) (M : nat) : Prop := 12 * nu <= PI ^ 2 * INR M ^ 2.

Lemma weight_value nu M : 0 < nu -> enough nu M ->
  imgpo_weight nu M = Done (sqrt (2 * ln (PI ^ 2 * INR M ^ 2 / (12 * nu))) + 2 / 10) /\ 1 <= PI ^ 2 * INR M ^ 2 / (12 * nu).
Proof.
  unfold enough, imgpo_weight. intros Hn H. set (r := PI ^ 2 * INR M ^ 2) in *.
  assert (R1 : 1 <= r / (12 * nu)). { apply Rmult_le_reg_r with (12 * nu); [lra|]. unfold Rdiv. rewrite Rmult_assoc, Rinv_l by lra. lra. }
  split; [|exact R1]. unfold xlog. destruct (Rlt_dec 0 (r / (12 * nu))); [|lra]. cbn [bind].
  assert (0 <= ln (r / (12 * nu))). { rewrite <- ln_1. destruct R1 as [R1| <-]; [apply Rlt_le, ln_increasing; lra|lra]. }
  unfold xsqrt. destruct (Rle_dec 0 (2 * ln (r / (12 * nu)))); [reflexivity|lra].
Qed.
Lemma weight_nan nu M : 0 < nu -> ~ enough nu M -> imgpo_weight nu M = NotFinite.
Proof.
  unfold enough, imgpo_weight. intros Hn H. set (r := PI ^ 2 * INR M ^ 2) in *.
  assert (R1 : r / (12 * nu) < 1). { apply Rmult_lt_reg_r with (12 * nu); [lra|]. unfold Rdiv. rewrite Rmult_assoc, Rinv_l by lra. lra. }
  unfold xlog. destruct (Rlt_dec 0 (r / (12 * nu))) as [R0|]; [|reflexivity]. cbn [bind].
  assert (ln (r / (12 * nu)) < 0) by (rewrite <- ln_1; apply ln_increasing; lra).
  unfold xsqrt. destruct (Rle_dec 0 (2 * ln (r / (12 * nu)))); [lra|reflexivity].
Qed.
Lemma enough_le nu M M' : (M <= M')%nat -> enough nu M -> enough nu M'.
Proof.
  unfold enough. intros HM H. apply le_INR in HM. pose proof (pos_INR M). eapply Rle_trans; [exact H|].
  apply Rmult_le_compat_l; [apply pow2_ge_0|]. apply pow_incr. lra.
Qed.
Lemma enough_small nu M : nu <= 3 / 4 -> (1 <= M)%nat -> enough nu M.
Proof.
  intros Hn HM. apply (enough_le nu 1); [exact HM|]. unfold enough. cbn [INR pow]. pose proof PI2_3_2. assert (9 < PI * PI) by nra. lra.
Qed.

(** C55: the value of the acquisition; it is at least the mean, at least the bound with fewer labelled cells,
    and it is not a number exactly when [12 nu] exceeds [(pi M)^2] *)
Theorem C55_ucb_imgpo nu M (afun : vec -> R) m v u s2 : 0 < nu -> query_ m v = Done (u, s2) -> 0 <= s2 ->
  (enough nu M -> UCB nu M afun m v = Done (afun u + (sqrt (2 * ln (PI ^ 2 * INR M ^ 2 / (12 * nu))) + 2 / 10) * sqrt s2)) /\
  (enough nu M <-> exists val, UCB nu M afun m v = Done val) /\
  (~ enough nu M -> UCB nu M afun m v = NotFinite) /\
  (forall val, UCB nu M afun m v = Done val -> afun u + 2 / 10 * sqrt s2 <= val /\
     forall M', (M < M')%nat -> exists val', UCB nu M' afun m v = Done val' /\ val <= val' /\ (0 < s2 -> val < val')).
Proof.
  intros Hn Hq Hs.
  assert (W : forall M, enough nu M -> UCB nu M afun m v = Done (afun u + (sqrt (2 * ln (PI ^ 2 * INR M ^ 2 / (12 * nu))) + 2 / 10) * sqrt s2)).
  { intros N HN. unfold ucb_imgpo. rewrite Hq, (proj1 (weight_value nu N Hn HN)). cbn [bind fst snd]. unfold xsqrt. destruct (Rle_dec 0 s2); [reflexivity|lra]. }
  assert (Wn : ~ enough nu M -> UCB nu M afun m v = NotFinite).
  { intro HN. unfold ucb_imgpo. rewrite Hq, (weight_nan nu M Hn HN). reflexivity. }
  assert (Dec : enough nu M \/ ~ enough nu M) by (unfold enough; destruct (Rle_dec (12 * nu) (PI ^ 2 * INR M ^ 2)); auto).
  split; [apply W|]. split; [|split; [exact Wn|]].
  { split; [intro H; eexists; apply W, H|]. intros (val & Hv). destruct Dec as [D|D]; [exact D|]. rewrite (Wn D) in Hv. discriminate. }
  intros val Hv. destruct Dec as [D|D]; [|rewrite (Wn D) in Hv; discriminate].
  rewrite (W M D) in Hv. apply (f_equal (fun o => match o with Done v => v | _ => 0 end)) in Hv. cbv beta iota in Hv. subst val.
  pose proof (sqrt_pos s2) as S0. set (r := fun M => PI ^ 2 * INR M ^ 2 / (12 * nu)).
  assert (Hr : forall M, enough nu M -> 1 <= r M) by (intros N HN; exact (proj2 (weight_value nu N Hn HN))).
  fold (r M). pose proof (sqrt_pos (2 * ln (r M))) as S1. split; [assert (0 <= sqrt (2 * ln (r M)) * sqrt s2) by (apply Rmult_le_pos; lra); lra|].
  intros M' HM. pose proof (enough_le nu M M' ltac:(lia) D) as D'. eexists. split; [apply W, D'|]. fold (r M').
  assert (Hl : sqrt (2 * ln (r M)) < sqrt (2 * ln (r M'))).
  { assert (0 <= ln (r M)). { rewrite <- ln_1. destruct (Hr M D) as [R1| <-]; [apply Rlt_le, ln_increasing; lra|lra]. }
    assert (r M < r M').
    { unfold r. apply Rmult_lt_compat_r; [apply Rinv_0_lt_compat; lra|]. apply Rmult_lt_compat_l; [pose proof PI_RGT_0; apply pow_lt; lra|].
      apply lt_INR in HM. pose proof (pos_INR M). cbn [pow]. nra. }
    assert (ln (r M) < ln (r M')) by (apply ln_increasing; [pose proof (Hr M D); lra|assumption]).
    apply sqrt_lt_1; lra. }
  split; [nra|]. intro P. assert (0 < sqrt s2) by now apply sqrt_lt_R0. nra.
Qed.
(** with the default parameter the bound is always a number (IMGPO counts from 1) *)
Theorem C55_default_is_finite M (afun : vec -> R) m v u s2 : (1 <= M)%nat -> query_ m v = Done (u, s2) -> 0 <= s2 ->
  exists val, UCB (5 / 100) M afun m v = Done val /\ afun u <= val.
Proof.
  intros HM Hq Hs. destruct (C55_ucb_imgpo (5 / 100) M afun m v u s2 ltac:(lra) Hq Hs) as (W1 & _ & _ & W4).
  eexists. split; [apply W1, enough_small; [lra|exact HM]|]. destruct (W4 _ (W1 (enough_small (5 / 100) M ltac:(lra) HM))) as [B _]. pose proof (sqrt_pos s2). lra.
Qed.
(** the value IMGPO records for a cell it does not evaluate is the bound that made it skip the cell:
    true for the default parameter … *)
Theorem C55_label_is_the_bound_partial M m v l i : (1 <= M)%nat -> imgpo_label Md query_ M m v = Done l -> (i < length l)%nat ->
  UCB (5 / 100) M (fun u => vget u i) m v = Done (vget l i).
Proof.
  intros HM. unfold imgpo_label, ucb_imgpo. destruct (query_ m v) as [[u s2]| |]; try discriminate. cbn [bind fst snd].
  destruct (imgpo_weight (5 / 100) M) as [w| |]; try discriminate. cbn [bind]. destruct (xsqrt s2) as [s| |]; try discriminate. cbn [bind].
  intros H Hi. apply (f_equal (fun o => match o with Done v => v | _ => l end)) in H. cbv beta iota in H. subst l. rewrite map_length in Hi.
  f_equal. unfold vget. rewrite (nth_indep (map (fun u => u + w * s) u) 0 (0 + w * s)); [now rewrite (map_nth (fun u => u + w * s))|]. rewrite (map_length (fun u => u + w * s)). exact Hi.
Qed.
End Imgpo.

(** … and false for another one: the label is computed with the constant 0.05 *)
Theorem C55_label_refuted : let k := K1 1 in let M := NullFunction in
  exists g v l val, run k M (gp_default k M) [Compute [[0]] [[0]] true] = Done g /\
    imgpo_label (gp k M) (query k M) 1 g v = Done l /\
    ucb_imgpo (gp k M) (query k M) (1 / 2) 1 (fun u => vget u 0) g v = Done val /\ val < vget l 0.
Proof.
  intros k M. subst k M. destruct (one_sample 1 Rlt_0_1) as (g & E1 & _ & _ & Q1). pose proof b1_range as Hb.
  match type of Q1 with _ = Done (_, ?z) => set (s2 := z) in Q1; assert (Hs : 0 < s2) end.
  { unfold s2, clamp. destruct (Rle_dec _ _) as [H|N].
    2:{ apply Rnot_le_lt in N. rewrite Rplus_0_r. eapply Rlt_trans; [|exact N]. apply Rinv_0_lt_compat, pow_lt. lra. }
    exfalso. set (a := 1 + / 100000000) in *. assert (Ha : 0 < a < 2) by (unfold a; lra).
    assert (b1 * b1 < 1 / 2).
    { unfold b1. rewrite <- exp_plus. replace (- (1 / 2) + - (1 / 2)) with (- (1)) by lra. rewrite exp_Ropp.
      assert (1 + 1 < exp 1) by (apply exp_ineq1; lra). apply Rmult_lt_reg_r with (exp 1); [lra|]. rewrite Rinv_l by lra. lra. }
    assert (1 * b1 * (1 * b1) / a < 1 / 2). { apply Rmult_lt_reg_r with a; [lra|]. unfold Rdiv at 1. rewrite Rmult_assoc, Rinv_l by lra. unfold a. lra. }
    assert (/ 2 ^ 52 < / 2 ^ 1). { apply Rinv_lt_contravar; [apply Rmult_lt_0_compat; apply pow_lt; lra|]. apply Rlt_pow; [lra|lia]. } lra. }
  clearbody s2.
  destruct (weight_value (5 / 100) 1 ltac:(lra) (enough_small (5 / 100) 1 ltac:(lra) ltac:(lia))) as [W1 _].
  destruct (weight_value (1 / 2) 1 ltac:(lra) (enough_small (1 / 2) 1 ltac:(lra) ltac:(lia))) as [W2 W3].
  exists g, [1]. eexists _, _. split; [exact E1|]. split; [|split].
  - unfold imgpo_label. rewrite Q1, W1. cbn [bind fst snd]. unfold xsqrt. destruct (Rle_dec 0 s2); [|exfalso; lra]. cbn [bind map]. reflexivity.
  - unfold ucb_imgpo. rewrite Q1, W2. cbn [bind fst snd]. unfold xsqrt. destruct (Rle_dec 0 s2); [|exfalso; lra]. cbn [bind map]. reflexivity.
  - cbn [vget nth]. apply Rplus_lt_compat_l, Rmult_lt_compat_r; [now apply sqrt_lt_R0|]. apply Rplus_lt_compat_r.
    set (r := PI ^ 2 * INR 1 ^ 2) in *.
    assert (0 < r) by (unfold r; pose proof PI_RGT_0; cbn [INR pow]; nra).
    assert (L0 : 0 <= ln (r / (12 * (1 / 2)))). { rewrite <- ln_1. destruct W3 as [R1| <-]; [apply Rlt_le, ln_increasing; lra|lra]. }
    assert (r / (12 * (1 / 2)) < r / (12 * (5 / 100))). { apply Rmult_lt_compat_l; [assumption|]. apply Rinv_lt_contravar; lra. }
    assert (ln (r / (12 * (1 / 2))) < ln (r / (12 * (5 / 100)))) by (apply ln_increasing; lra).
    apply sqrt_lt_1; lra.
Qed.
(** the bound is not a number for a large parameter and the first cell *)
Theorem C55_not_a_number_refuted : let k := K1 1 in let M := NullFunction in
  exists g v, run k M (gp_default k M) [Compute [[0]] [[0]] true] = Done g /\
    ucb_imgpo (gp k M) (query k M) (95 / 100) 1 (fun u => vget u 0) g v = NotFinite.
Proof.
  intros k M. subst k M. destruct (one_sample 1 Rlt_0_1) as (g & E1 & _ & _ & Q1). exists g, [1]. split; [exact E1|].
  unfold ucb_imgpo. rewrite Q1. cbn [bind]. rewrite weight_nan; [reflexivity|lra|]. unfold enough. cbn [INR pow].
  pose proof PI_RGT_0. assert (PI < 336 / 100) by (pose proof (PI_ineq 2) as [_ H2]; cbn in H2; unfold tg_alt, PI_tg in H2; cbn in H2; lra).
  nra.
Qed.
