(** Where C40, C41 and C43 fail, and the exploration weight of GP-UCB. *)
From Coq Require Import Reals List Bool ZArith Lia Lra.
From Coquelicot Require Import Coquelicot.
From Verif Require Import LinAlgModel LinAlg MatCalc GaussInt KernelModel GPModel GPSpec GPFacts Prop_GP Prop_GP2 KernelSpec KernelFacts Prop_Kernel
  MeanSpec MeanFacts Prop_Mean Prop_Lik2 AcquiModel Prop_EI Prop_Acqui.
Import ListNotations.
Open Scope R_scope.

(** * C41 *)
Section Beta.
Variable Md : Type.
Variable dim_in : Md -> nat.
Notation beta := (gp_ucb_beta Md dim_in).
(** from the first iteration on, the weight is the one of the literature, positive, and grows *)
Theorem C41_weight_partial delta m i : 0 < delta <= 1 -> (1 <= i)%Z ->
  let nt := Rpower (IZR i) (INR (dim_in m) / 2 + 2) in
  beta delta m i = Done (sqrt (2 * ln (nt * PI ^ 2 / (3 * delta)))) /\
  0 < sqrt (2 * ln (nt * PI ^ 2 / (3 * delta))) /\
  forall j, (i < j)%Z -> exists b b', beta delta m i = Done b /\ beta delta m j = Done b' /\ b < b'.
Proof.
  intros Hd Hi nt.
  assert (He : 0 < INR (dim_in m) / 2 + 2) by (pose proof (pos_INR (dim_in m)); lra).
  assert (P3 : 3 < PI) by (pose proof PI2_3_2; lra).
  assert (G : forall i, (1 <= i)%Z -> let n := Rpower (IZR i) (INR (dim_in m) / 2 + 2) in
    beta delta m i = Done (sqrt (2 * ln (n * PI ^ 2 / (3 * delta)))) /\ 1 <= n /\ 1 < n * PI ^ 2 / (3 * delta)).
  { clear i Hi nt. intros i Hi n. unfold gp_ucb_beta, xpow.
    destruct (Z.eqb_spec i 0); [lia|]. destruct (Z.ltb_spec 0 i); [|lia]. cbn [bind]. fold n.
    assert (N1 : 1 <= n).
    { unfold n. rewrite <- (Rpower_O (IZR i)) by (apply IZR_lt; lia).
      destruct (Z.eq_dec i 1) as [->|]. { unfold Rpower. rewrite ln_1, !Rmult_0_r. lra. }
      apply Rle_Rpower; [apply IZR_le in Hi; exact Hi|lra]. }
    assert (N2 : 1 < n * PI ^ 2 / (3 * delta)).
    { apply Rmult_lt_reg_r with (3 * delta); [lra|]. unfold Rdiv. rewrite Rmult_assoc, Rinv_l, Rmult_1_r, Rmult_1_l by lra.
      assert (9 < PI ^ 2) by (simpl; nra). nra. }
    split; [|split; assumption].
    destruct (Req_EM_T (delta * 3) 0); [lra|]. cbn [bind].
    replace (n * (PI * PI) / (delta * 3)) with (n * PI ^ 2 / (3 * delta)) by (field; lra).
    unfold xlog. destruct (Rlt_dec 0 (n * PI ^ 2 / (3 * delta))); [|lra]. cbn [bind].
    assert (0 < ln (n * PI ^ 2 / (3 * delta))) by (rewrite <- ln_1; apply ln_increasing; lra).
    unfold xsqrt. destruct (Rle_dec 0 (2 * ln (n * PI ^ 2 / (3 * delta)))); [reflexivity|lra]. }
  destruct (G i Hi) as (G1 & G2 & G3). fold nt in G1, G2, G3.
  assert (L : 0 < ln (nt * PI ^ 2 / (3 * delta))) by (rewrite <- ln_1; apply ln_increasing; lra).
  split; [exact G1|]. split; [apply sqrt_lt_R0; lra|]. intros j Hj. destruct (G j ltac:(lia)) as (J1 & J2 & J3).
  eexists _, _. split; [exact G1|]. split; [exact J1|]. apply sqrt_lt_1; [lra| |].
  - assert (0 < ln (Rpower (IZR j) (INR (dim_in m) / 2 + 2) * PI ^ 2 / (3 * delta))) by (rewrite <- ln_1; apply ln_increasing; lra). lra.
  - apply Rmult_lt_compat_l; [lra|]. apply ln_increasing; [lra|]. apply Rmult_lt_compat_r; [apply Rinv_0_lt_compat; lra|].
    apply Rmult_lt_compat_r; [simpl; nra|]. unfold nt, Rpower. apply exp_increasing, Rmult_lt_compat_l; [exact He|].
    apply ln_increasing; [apply IZR_lt; lia|apply IZR_lt; exact Hj].
Qed.
(** at iteration 0, the one every first acquisition is built with, the weight is not a number *)
Theorem C41_iteration_zero_refuted delta m : 0 < delta <= 1 -> beta delta m 0 = NotFinite.
Proof.
  intro Hd. unfold gp_ucb_beta, xpow. cbn [Z.eqb bind]. destruct (Req_EM_T (delta * 3) 0); [reflexivity|]. cbn [bind].
  unfold xlog. destruct (Rlt_dec 0 (0 * (PI * PI) / (delta * 3))) as [H|]; [|reflexivity]. exfalso. unfold Rdiv in H. rewrite !Rmult_0_l in H. lra.
Qed.
End Beta.

(** * C40: an unexplored point can be ranked below an explored one with the same mean *)
Section Unexplored.
Let C := Exp 1 1.
Let n0 := 1 - / 100000000.
Let K := BaseKernel C n0 false.
Let M := NullFunction.
Let Hn0 : 0 <= n0. Proof. unfold n0. lra. Qed.
Let Ho : false = true -> 0 < n0. Proof. discriminate. Qed.
Let O := exp_OK 1 1 Rlt_0_1 Rlt_0_1.
Let KO : KernOK K := base_OK C O n0 false Hn0 Ho.
Let MO := RT_OK M null_RT.
Lemma kerd x y : k_ker K (k_new K 1) [x] [y] = exp (- (1 / 2) * ((x - y) * (x - y))).
Proof.
  unfold K, C. cbn [k_ker BaseKernel c_ker Exp k_new b_c c_new]. unfold exp_kernel, iso_new. cbn [i_l i_sf2].
  rewrite Rmult_1_l. f_equal. unfold sqdist. cbn. field.
Qed.
Lemma noise_n0 : k_noise K (k_new K 1) = n0. Proof. reflexivity. Qed.

Theorem C40_unexplored_refuted : exists (os : list (op K M)) g (x v : vec) a b,
  valid_all K M (s_default K M) os /\ run K M (gp_default K M) os = Done g /\
  In x (g_samples K M g) /\ ~ In v (g_samples K M g) /\ mu K M g x = mu K M g v /\
  ucb_gp K M (1 / 2) (fun u => vget u 0) g x = Done a /\ ucb_gp K M (1 / 2) (fun u => vget u 0) g v = Done b /\ b < a.
Proof.
  set (os := [Compute [[- (1 / 2)]; [1 / 2]] [[0]; [0]] true] : list (op K M)).
  assert (V : valid_all K M (s_default K M) os) by (cbn; repeat split; try discriminate; try lia; repeat constructor; auto).
  assert (F : fresh K M (gp_default K M) (s_default K M)) by constructor.
  destruct (C24_valid_histories_succeed K M KO MO _ _ os F V) as (g & E).
  pose proof (run_inv K M KO MO os _ _ g (fresh_inv _ _ _ _ _ _ F) E) as I. set (s := meaning K M (s_default K M) os) in *.
  set (G := gram K (k_new K 1) [[- (1 / 2)]; [1 / 2]]).
  set (q := exp (- (1 / 4))). set (r := exp (- (1 / 8))).
  assert (Erq : r * r = q) by (unfold r, q; rewrite <- exp_plus; f_equal; lra).
  assert (Eqq : exp (- (1 / 2)) = q * q) by (unfold q; rewrite <- exp_plus; f_equal; lra).
  assert (Hq : 3 / 4 < q < 1). { split; [unfold q; eapply Rle_lt_trans; [|apply exp_ineq1; lra]; lra|]. unfold q. apply Rlt_le_trans with (exp 0); [apply exp_increasing; lra|rewrite exp_0; lra]. }
  assert (Hr : r = exp (- (1 / 8))) by reflexivity. clearbody q r.
  assert (kd : forall x, k_ker K (k_new K 1) [x] [x] = 1) by (intro x; rewrite kerd; replace (- (1 / 2) * ((x - x) * (x - x))) with 0 by ring; apply exp_0).
  assert (k1 : k_ker K (k_new K 1) [- (1 / 2)] [1 / 2] = q * q) by (rewrite kerd, <- Eqq; f_equal; field).
  assert (k2 : k_ker K (k_new K 1) [1 / 2] [- (1 / 2)] = q * q) by (rewrite kerd, <- Eqq; f_equal; field).
  assert (k3 : k_ker K (k_new K 1) [- (1 / 2)] [0] = r) by (rewrite kerd, Hr; f_equal; field).
  assert (k4 : k_ker K (k_new K 1) [1 / 2] [0] = r) by (rewrite kerd, Hr; f_equal; field).
  assert (G00 : G 0%nat 0%nat = 2) by (unfold G, gram, x_; cbn [nth Nat.eqb]; rewrite kd, noise_n0; unfold n0; ring).
  assert (G11 : G 1%nat 1%nat = 2) by (unfold G, gram, x_; cbn [nth Nat.eqb]; rewrite kd, noise_n0; unfold n0; ring).
  assert (G01 : G 0%nat 1%nat = q * q) by (unfold G, gram, x_; cbn [nth Nat.eqb]; rewrite k1; ring).
  assert (G10 : G 1%nat 0%nat = q * q) by (unfold G, gram, x_; cbn [nth Nat.eqb]; rewrite k2; ring).
  assert (Q : forall v, length v = 1%nat -> exists B, is_inv 2 G B /\ mu K M g v = Done [0] /\
     query K M g v = Done ([0], clamp (post_var K (k_new K 1) [[- (1 / 2)]; [1 / 2]] B v) + n0)).
  { intros v Hv. destruct (C24_exact_posterior K M KO MO _ _ os g F E) with (v := v) as [(B & HB) Hp]; [discriminate|reflexivity|reflexivity|cbn; now rewrite Hv|].
    exists B. split; [exact HB|]. destruct (Hp B HB) as (P1 & _ & P3).
    assert (Z : forall (f : nat -> R) , f 0%nat = 0 -> vec_of 1 f = [0]) by (intros f H; unfold vec_of; cbn; now rewrite H).
    change (oget (s_dout K M (meaning K M (s_default K M) os))) with 1%nat in P1, P3. 
    match type of P1 with _ = Done (vec_of _ ?f) => assert (Ef : f 0%nat = 0) end.
    { unfold post_mean, resid, prior_mean, y_, data_mean. cbn -[cov gram]. ring. }
    rewrite (Z _ Ef) in P1, P3. split; [exact P1|exact P3]. }
  assert (Inv : forall B, is_inv 2 G B -> B 0%nat 0%nat = 2 / (4 - q * q * (q * q)) /\ B 1%nat 1%nat = 2 / (4 - q * q * (q * q)) /\
     B 0%nat 1%nat = - (q * q) / (4 - q * q * (q * q)) /\ B 1%nat 0%nat = - (q * q) / (4 - q * q * (q * q))).
  { intros B [HI _]. pose proof (HI 0%nat 0%nat ltac:(lia) ltac:(lia)) as I00. pose proof (HI 0%nat 1%nat ltac:(lia) ltac:(lia)) as I01.
    pose proof (HI 1%nat 0%nat ltac:(lia) ltac:(lia)) as I10. pose proof (HI 1%nat 1%nat ltac:(lia) ltac:(lia)) as I11.
    unfold mmul, delta in I00, I01, I10, I11. cbn [rsum Nat.eqb] in I00, I01, I10, I11. rewrite ?G00, ?G01, ?G10, ?G11 in *.
    assert (D : 2 * 2 - q * q * (q * q) <> 0) by (apply Rgt_not_eq; assert (q * q < 1) by nra; nra).
    destruct (lin2 _ _ _ _ _ _ D I00 I10) as [B00 B10]. destruct (lin2 _ _ _ _ _ _ D I01 I11) as [B01 B11].
    replace (4 - q * q * (q * q)) with (2 * 2 - q * q * (q * q)) by ring. rewrite B00, B01, B10, B11. repeat split; field; exact D. }
  assert (D : 0 < 4 - q * q * (q * q)) by (assert (q * q < 1) by nra; nra).
  assert (D2 : 0 < 2 + q * q) by nra.
  assert (Vx : forall B, is_inv 2 G B -> post_var K (k_new K 1) [[- (1 / 2)]; [1 / 2]] B [1 / 2] = 1 - 2 / (4 - q * q * (q * q))).
  { intros B HB. destruct (Inv B HB) as (B1 & B2 & B3 & B4). unfold post_var, cov, x_. cbn zeta. cbn [length rsum nth]. rewrite !kd, !k1, B1, B2, B3, B4. field. lra. }
  assert (Vv : forall B, is_inv 2 G B -> post_var K (k_new K 1) [[- (1 / 2)]; [1 / 2]] B [0] = 1 - 2 * q / (2 + q * q)).
  { intros B HB. destruct (Inv B HB) as (B1 & B2 & B3 & B4). unfold post_var, cov, x_. cbn zeta. cbn [length rsum nth]. rewrite !kd, !k3, !k4, B1, B2, B3, B4. rewrite <- Erq. 
    field. rewrite !Erq. split; lra. }
  assert (Cmp : 1 - 2 * q / (2 + q * q) < 1 - 2 / (4 - q * q * (q * q))).
  { assert (2 / (4 - q * q * (q * q)) < 2 * q / (2 + q * q)); [|lra].
    apply Rmult_lt_reg_r with (4 - q * q * (q * q)); [exact D|]. unfold Rdiv at 1. rewrite Rmult_assoc, Rinv_l, Rmult_1_r by lra.
    replace (2 * q / (2 + q * q) * (4 - q * q * (q * q))) with (2 * q * (2 - q * q)) by (field; lra).
    assert (0 < (1 - q) * (q * q + q - 1)) by (apply Rmult_lt_0_compat; nra). nra. }
  assert (Pos : / 2 ^ 52 < 1 - 2 * q / (2 + q * q)).
  { assert (2 * q / (2 + q * q) < 2 / 2). { apply Rmult_lt_reg_r with (2 + q * q); [lra|]. unfold Rdiv at 1. rewrite Rmult_assoc, Rinv_l by lra. nra. }
    assert (2 * q / (2 + q * q) <= 3 / 4). { apply Rmult_le_reg_r with (2 + q * q); [lra|]. unfold Rdiv at 1. rewrite Rmult_assoc, Rinv_l by lra. nra. }
    assert (/ 2 ^ 52 < / 2 ^ 2). { apply Rinv_lt_contravar; [apply Rmult_lt_0_compat; apply pow_lt; lra|]. apply Rlt_pow; [lra|lia]. } lra. }
  destruct (Q [1 / 2] eq_refl) as (Bx & Hx1 & Hx2 & Hx3). destruct (Q [0] eq_refl) as (Bv & Hv1 & Hv2 & Hv3).
  rewrite (Vx _ Hx1) in Hx3. rewrite (Vv _ Hv1) in Hv3.
  assert (Cl : forall z, / 2 ^ 52 < z -> clamp z = z) by (intros z H; unfold clamp; destruct (Rle_dec z (/ 2 ^ 52)); [lra|reflexivity]).
  rewrite Cl in Hx3 by lra. rewrite Cl in Hv3 by lra.
  assert (Gs : g_samples K M g = [[- (1 / 2)]; [1 / 2]]) by exact (v_samples _ _ _ _ _ _ I).
  exists os, g, [1 / 2], [0]. eexists _, _. split; [exact V|]. split; [exact E|]. rewrite Gs.
  assert (E0 : 0 < / 2 ^ 52) by (apply Rinv_0_lt_compat, pow_lt; lra).
  assert (N0 : 0 <= n0) by exact Hn0.
  split; [right; now left|]. split. { intros [H|[H|[]]]; injection H as H; lra. }
  split; [congruence|]. split; [apply ucb_eq; [exact Hx3|lra]|]. split; [apply ucb_eq; [exact Hv3|lra]|].
  cbn [vget nth]. apply Rplus_lt_compat_l, Rmult_lt_compat_l; [lra|]. apply sqrt_lt_1; lra.
Qed.
End Unexplored.

(** * C43: the cached incumbent *)
Lemma E_le x : E x <= sqrt PI / 2.
Proof.
  apply (is_lim_le_loc (fun _ => E x) E p_infty (E x) (sqrt PI / 2)); [|apply is_lim_const|apply gauss_integral].
  exists x. intros b Hb. unfold E. pose proof (RInt_Chasles ge 0 x b (ge_int _ _) (ge_int _ _)) as H. unfold plus in H; simpl in H. rewrite <- H.
  assert (0 <= RInt ge x b) by (apply RInt_ge_0; [lra|apply ge_int|intros; apply Rlt_le, exp_pos]). lra.
Qed.
(** without improvement of the mean, EI is at most the deviation *)
Lemma ei_small erfc X s : is_erfc erfc -> 0 < s -> X <= 0 -> ei_value erfc X s <= s.
Proof.
  intros He Hs HX. unfold ei_value. cbn zeta. rewrite (erfc_unique erfc _ He). unfold erfc0.
  pose proof (E_le (- (X / s) / sqrt 2)) as HE. set (e := E _) in *. clearbody e. pose proof sqrtPI_pos as HP.
  assert (H1 : 2 / sqrt PI * e <= 1). { apply Rmult_le_reg_l with (sqrt PI / 2); [lra|]. field_simplify; lra. }
  assert (H2 : exp (- (1 / 2) * (X / s) ^ 2) / sqrt (2 * PI) <= 1).
  { assert (exp (- (1 / 2) * (X / s) ^ 2) <= 1). { apply Rle_trans with (exp 0); [|rewrite exp_0; lra]. assert (0 <= (X / s) ^ 2) by apply pow2_ge_0. destruct (Req_dec ((X / s) ^ 2) 0) as [->|]; [rewrite Rmult_0_r; lra|]. apply Rlt_le, exp_increasing. lra. }
    assert (1 < sqrt (2 * PI)). { rewrite <- sqrt_1 at 1. apply sqrt_lt_1; pose proof PI2_1; lra. }
    apply Rmult_le_reg_r with (sqrt (2 * PI)); [lra|]. unfold Rdiv. rewrite Rmult_assoc, Rinv_l by lra. lra. }
  assert (0 <= 1 / 2 * (1 - 2 / sqrt PI * e)) by lra. nra.
Qed.

Lemma expectation_unique m s t v v' : expected_improvement m s t v -> expected_improvement m s t v' -> v = v'.
Proof.
  unfold expected_improvement. set (f := fun y => Rmax 0 (y - t) * density m s y). clearbody f. intros H H'.
  transitivity (RInt_gen f (Rbar_locally m_infty) (Rbar_locally p_infty)); [symmetry|]; now apply is_RInt_gen_unique.
Qed.

Section Stale.
Let C := Exp 1 1.
Let K := BaseKernel C 0 false.
Let M := NullFunction.
Let Ho : false = true -> 0 < 0. Proof. discriminate. Qed.
Let O := exp_OK 1 1 Rlt_0_1 Rlt_0_1.
Let KO : KernOK K := base_OK C O 0 false (Rle_refl 0) Ho.
Let MO := RT_OK M null_RT.
Let k00 x : k_ker K (k_new K 1) [x] [x] = 1. Proof. exact (ker00 x). Qed.
Let k01 : k_ker K (k_new K 1) [0] [1] = exp (- (1 / 2)). Proof. exact (proj1 ker01). Qed.
Let kn : k_noise K (k_new K 1) = 0. Proof. reflexivity. Qed.
Let afun (u : vec) := vget u 0.

(** Retraining the GP on other observations (as many as before) between two calls: the second call
    still uses the incumbent of the first. *)
Theorem C43_stale_incumbent_refuted erfc : is_erfc erfc ->
  exists g1 g2 v x1 x2, run K M (gp_default K M) [Compute [[0]] [[-10]] true] = Done g1 /\
    run K M g1 [Compute [[0]] [[1]] true] = Done g2 /\
    play (gp K M) (query K M) (mu K M) (gp_samples K M) erfc 0 afun g1 ei_new [Ask _ v; Becomes _ g2; Ask _ v] = Done [(g1, v, x1); (g2, v, x2)] /\
    ~ ei_correct (gp K M) (query K M) (mu K M) (gp_samples K M) 0 afun g2 v x2.
Proof.
  intro He.
  set (a := 1 + / 100000000). set (b := exp (- (1 / 2))).
  assert (Hb : 0 < b < 1). { split; [apply exp_pos|]. unfold b. apply Rlt_le_trans with (exp 0); [apply exp_increasing; lra|rewrite exp_0; lra]. }
  assert (Hbb : b * b < 1 / 2).
  { unfold b. rewrite <- exp_plus. replace (- (1 / 2) + - (1 / 2)) with (- (1)) by lra. rewrite exp_Ropp.
    assert (1 + 1 < exp 1) by (apply exp_ineq1; lra). apply Rmult_lt_reg_r with (exp 1); [lra|]. rewrite Rinv_l by lra. lra. }
  assert (Ha : 1 < a < 2) by (unfold a; lra). assert (Ea : 1 + / 100000000 = a) by reflexivity. assert (Eb : exp (- (1 / 2)) = b) by reflexivity. clearbody a b.
  assert (F : fresh K M (gp_default K M) (s_default K M)) by constructor.
  assert (Tr : forall os y, valid_all K M (s_default K M) os -> s_xs K M (meaning K M (s_default K M) os) = [[0]] ->
    s_ys K M (meaning K M (s_default K M) os) = [[y]] -> s_k K M (meaning K M (s_default K M) os) = k_new K 1 ->
    s_m K M (meaning K M (s_default K M) os) = 1%nat ->
    s_din K M (meaning K M (s_default K M) os) = Some 1%nat -> s_dout K M (meaning K M (s_default K M) os) = Some 1%nat ->
    s_dk K M (meaning K M (s_default K M) os) = false -> s_dm K M (meaning K M (s_default K M) os) = false ->
    exists g, run K M (gp_default K M) os = Done g /\ g_samples K M g = [[0]] /\
      mu K M g [0] = Done [y / a] /\ query K M g [1] = Done ([b * y / a], 1 - b * b / a)).
  { intros os y V X1 X2 X3 X4 X5 X6 X7 X8. destruct (C24_valid_histories_succeed K M KO MO _ _ os F V) as (g & E). exists g. split; [exact E|].
    pose proof (run_inv K M KO MO os _ _ g (fresh_inv _ _ _ _ _ _ F) E) as I. split; [rewrite (v_samples _ _ _ _ _ _ I); exact X1|].
    assert (Pr : forall z, exists B, is_inv 1 (gram K (k_new K 1) [[0]]) B /\
      mu K M g [z] = Done (vec_of 1 (post_mean K M (k_new K 1) 1%nat [[0]] [[y]] 1 B [z])) /\
      query K M g [z] = Done (vec_of 1 (post_mean K M (k_new K 1) 1%nat [[0]] [[y]] 1 B [z]), clamp (post_var K (k_new K 1) [[0]] B [z]) + 0)).
    { intro z. destruct (C24_exact_posterior K M KO MO _ _ os g F E) with (v := [z]) as [(B & HB) Hp]; [now rewrite X1|exact X7|exact X8|exact X5|].
      destruct (Hp B HB) as (P1 & _ & P3). rewrite X1, X2, X3, X4, X6 in *. exists B. auto. }
    assert (IB : forall B, is_inv 1 (gram K (k_new K 1) [[0]]) B -> B 0%nat 0%nat = / a).
    { intros B [HI _]. specialize (HI 0%nat 0%nat ltac:(lia) ltac:(lia)). unfold mmul, delta in HI. cbn [rsum Nat.eqb] in HI.
      unfold gram, x_ in HI. cbn [nth Nat.eqb] in HI. rewrite (k00 0), kn in HI.
      apply Rmult_eq_reg_l with a; [|lra]. rewrite Rinv_r by lra. rewrite <- HI, <- Ea. ring. }
    split.
    - destruct (Pr 0) as (B & HB & P1 & _). rewrite P1. unfold vec_of. cbn [seq map]. do 2 f_equal. unfold post_mean, resid, prior_mean, y_, data_mean, cov, x_. cbn zeta. cbn [length rsum nth].
      rewrite (k00 0), (IB B HB). cbn. field. lra.
    - destruct (Pr 1) as (B & HB & _ & P3). rewrite P3. unfold vec_of. cbn [seq map]. f_equal. f_equal.
      + f_equal. unfold post_mean, resid, prior_mean, y_, data_mean, cov, x_. cbn zeta. cbn [length rsum nth].
        rewrite k01, (IB B HB), Eb. cbn. field. lra.
      + assert (Ev : post_var K (k_new K 1) [[0]] B [1] = 1 - b * b / a).
        { unfold post_var, cov, x_. cbn zeta. cbn [length rsum nth]. rewrite (k00 1), k01, (IB B HB), Eb. field. lra. }
        rewrite Ev. unfold clamp. destruct (Rle_dec (1 - b * b / a) (/ 2 ^ 52)) as [H|]; [|ring]. exfalso.
        assert (b * b / a < 1 / 2). { apply Rmult_lt_reg_r with a; [lra|]. unfold Rdiv at 1. rewrite Rmult_assoc, Rinv_l by lra. nra. }
        assert (/ 2 ^ 52 < / 2 ^ 2). { apply Rinv_lt_contravar; [apply Rmult_lt_0_compat; apply pow_lt; lra|]. apply Rlt_pow; [lra|lia]. } lra. }
  destruct (Tr [Compute [[0]] [[-10]] true] (-10)) as (g1 & E1 & S1 & M1 & Q1); try reflexivity.
  { cbn; repeat split; try discriminate; try lia; repeat constructor; auto. }
  destruct (Tr [Compute [[0]] [[-10]] true; Compute [[0]] [[1]] true] 1) as (g2 & E2 & S2 & M2 & Q2); try reflexivity.
  { cbn; repeat split; try discriminate; try lia; repeat constructor; auto. }
  assert (E2' : run K M g1 [Compute [[0]] [[1]] true] = Done g2).
  { revert E1 E2. cbn [run exec]. destruct (compute K M (gp_default K M) [[0]] [[-10]] true) as [g'| |]; try discriminate. cbn [bind]. intro H. apply (f_equal (fun o => match o with Done v => v | _ => g1 end)) in H. cbv beta iota in H. subst g'. auto. }
  clear Tr. set (va := 1 - b * b / a) in *.
  assert (Hva : 1 / 2 < va < 1).
  { assert (b * b / a < 1 / 2). { apply Rmult_lt_reg_r with a; [lra|]. unfold Rdiv at 1. rewrite Rmult_assoc, Rinv_l by lra. nra. }
    assert (0 < b * b / a) by (apply Rdiv_lt_0_compat; nra). unfold va. lra. }
  clearbody va.
  assert (Hsq : / 10 ^ 10 < sqrt va < 1).
  { split; [|rewrite <- sqrt_1; apply sqrt_lt_1; lra]. apply Rlt_trans with (1 / 2).
    - assert (/ 10 ^ 10 < / 10 ^ 1). { apply Rinv_lt_contravar; [apply Rmult_lt_0_compat; apply pow_lt; lra|]. apply Rlt_pow; [lra|lia]. } lra.
    - replace (1 / 2) with (sqrt (1 / 4)). { apply sqrt_lt_1; lra. } replace (1 / 4) with (Rsqr (1 / 2)) by (unfold Rsqr; field). apply sqrt_Rsqr. lra. }
  exists g1, g2, [1], (ei_value erfc (b * -10 / a - -10 / a - 0) (sqrt va)), (ei_value erfc (b * 1 / a - -10 / a - 0) (sqrt va)).
  split; [exact E1|]. split; [exact E2'|]. split.
  - cbn [play]. unfold ei, gp_samples. rewrite Q1, S1. cbn [bind fst snd]. unfold xsqrt. destruct (Rle_dec 0 va); [|lra]. cbn [bind].
    destruct (Rlt_dec (sqrt va) (/ 10 ^ 10)); [lra|]. cbn [orb length Nat.ltb Nat.leb ei_new e_nb Z.of_nat Pos.of_succ_nat Z.eqb rewards]. rewrite M1. cbn [bind max_element fold_left afun vget nth e_fmax fst snd e_nb Z.eqb Pos.eqb].
    rewrite Q2, S2. cbn [bind fst snd]. unfold xsqrt. destruct (Rle_dec 0 va); [|lra]. cbn [bind].
    destruct (Rlt_dec (sqrt va) (/ 10 ^ 10)); [lra|]. cbn [orb length Nat.ltb Nat.leb ei_new e_nb Z.of_nat Pos.of_succ_nat Z.eqb Pos.eqb bind e_fmax]. reflexivity.
  - clear Ea Eb. intros (u & s2 & H1 & H2 & _ & H4). rewrite Q2 in H1. assert (u = [b * 1 / a]) as -> by congruence. assert (s2 = va) as -> by congruence.
    destruct (H4 ltac:(lra)) as (f & Hf & Hei & _); [unfold gp_samples; rewrite S2; discriminate|].
    destruct Hf as (us & U1 & U2). unfold gp_samples in U1. rewrite S2 in U1. inversion U1 as [|x0 u0 xs0 us0 V1 V2 V3 V4]; subst. inversion V2; subst.
    rewrite M2 in V1. assert (u0 = [1 / a]) as -> by congruence. cbn [map afun vget nth] in U2. destruct U2 as [[<-|[]] _]. cbn [afun vget nth] in Hei.
    assert (Hc : expected_improvement (b * 1 / a) (sqrt va) (1 / a + 0) (ei_value erfc (b * 1 / a - (1 / a + 0)) (sqrt va))) by (apply ei_is_expectation; [lra|exact He]).
    assert (Heq : ei_value erfc (b * 1 / a - -10 / a - 0) (sqrt va) = ei_value erfc (b * 1 / a - (1 / a + 0)) (sqrt va)).
    { exact (expectation_unique _ _ _ _ _ Hei Hc). }
    assert (L1 : 1 < b * 1 / a - -10 / a - 0).
    { apply Rmult_lt_reg_r with a; [lra|]. replace ((b * 1 / a - -10 / a - 0) * a) with (b + 10) by (field; lra). lra. }
    pose proof (ei_above erfc (b * 1 / a - -10 / a - 0) (sqrt va) ltac:(lra) He).
    assert (L2 : b * 1 / a - (1 / a + 0) <= 0).
    { apply Rmult_le_reg_r with a; [lra|]. replace ((b * 1 / a - (1 / a + 0)) * a) with (b - 1) by (field; lra). lra. }
    pose proof (ei_small erfc _ (sqrt va) He ltac:(lra) L2). lra.
Qed.
End Stale.
