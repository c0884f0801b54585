(** C71: the log-likelihood of a GP in double precision. *)
From Coq Require Import ZArith List Bool Lia Permutation Reals Lra.
From Coq Require Import Floats.SpecFloat.
From Flocq Require Import Core Relative.
From Verif Require Import F64 F64R AdamFloat OptFloat FpModel FpErr LinAlgModel LinAlg FpAlg FpChol FpSolve FpGp FpFin Prop_Fp.
From Verif Require Import KernelModel KernelFacts FpKerModel FpKer FpKer2 Prop_FpKer Det Prop_Lik FpLikModel FpLik.
Import ListNotations.
Open Scope R_scope.

(** ** Specification *)
(** what is assumed of the logarithms: on positive numbers a finite number, the error relative to
    the larger of the logarithm and 1 *)
Definition libm_log (is_log : F -> F -> Prop) (del : R) : Prop :=
  forall x y, is_log x y -> fvalid x -> ffin x -> 0 < fval x ->
    fvalid y /\ ffin y /\ Rabs (fval y - ln (fval x)) <= del * (1 + Rabs (ln (fval x))).
(** what [compute_log_lik] is meant to be: the sum over the outputs of the logarithm of the density
    of the data, the determinant and the constant counted once (see C30) *)
Definition exact_lik (n p : nat) (S B : nat -> nat -> R) (r : nat -> nat -> R) : R :=
  rsum p (fun o => log_gauss n S B (r o)) + (INR p - 1) / 2 * (ln (det n S) + INR n * ln (2 * PI)).

(** ** The determinant *)
Lemma lowr_lower n L : (forall i, (i < n)%nat -> 0 < fval (L i i)) -> lower n (lowr L).
Proof.
  intros H. split; [intros i j _ _ Hij; unfold lowr; now rewrite (proj2 (Nat.leb_gt j i)) by lia|].
  intros i Hi. unfold lowr. rewrite Nat.leb_refl. now apply H.
Qed.
Lemma noisy_chol n K noise : 0 < noise -> symm n K -> psd n K -> exists L, is_chol n L (noisy K noise).
Proof.
  intros Hl Hs Hp. pose proof (noisy_eig n K noise Hp) as H. assert (P : pd n (noisy K noise)).
  { intros c (i & Hi & Hc). apply Rlt_le_trans with (2 := H c). apply Rmult_lt_0_compat; auto.
    destruct (Rle_lt_or_eq_dec 0 (ssq n c) (ssq_nonneg n c)) as [|E]; auto. exfalso. apply Hc. symmetry in E. now apply (rsum_sq_0 n c E). }
  pose proof (noisy_symm n K noise Hs) as Hs'.
  destruct (chol_succeeds n _ Hs' P) as (L & E). exists L. now apply chol_is_chol.
Qed.
(** The logarithms of the diagonal of any factor limbo may hold, against the exact determinant. *)
Theorem C71_logdet : forall m n K noise D eps kf A L,
  in_range m D -> 0 <= eps -> symm n K -> psd n K -> computed n K noise D eps kf ->
  (INR n + 1) * (err m D + eps) <= noise -> built m kf n A L ->
  (forall i, (i < n)%nat -> 0 < fval (L i i)) /\ 0 < det n (noisy K noise) /\
  let e := INR n * (err m D + eps) / noise in
  0 <= e < 1 /\ Rabs (2 * rsum n (fun i => ln (fval (L i i))) - ln (det n (noisy K noise))) <= INR n * (e / (1 - e)).
Proof.
  intros m n K noise D eps kf A L HR He Hs Hp Hc Hn HB. pose proof (pos_INR n) as N0.
  assert (E0 : 0 < err m D + eps).
  { destruct (in_range_ok m D HR) as [_ HD]. pose proof (kap_pos m D HD). rewrite err_kap. lra. }
  assert (Hn1 : 0 < (INR n + 1) * (err m D + eps)) by (apply Rmult_lt_0_compat; lra).
  assert (Hl : 0 < noise) by lra.
  destruct (C69_factorisation m n K noise D eps kf HR He Hs Hp Hc ltac:(lra)) as (_ & _ & H). destruct (H A L HB) as (_ & Pd & Pr).
  destruct (noisy_chol n K noise Hl Hs Hp) as (Lx & Cx). destruct (logdet_chol n Lx _ Cx) as (Dp & De).
  split; auto. split; auto. rewrite De.
  pose proof (logdet_close n (lowr L) Lx (noisy K noise) noise (err m D + eps) (lowr_lower n L Pd) Cx Hl (noisy_eig n K noise Hp) ltac:(lra) ltac:(lra)) as C.
  assert (C1 : forall i j, (i < n)%nat -> (j < n)%nat -> Rabs (rsum n (fun k => lowr L i k * lowr L j k) - noisy K noise i j) <= err m D + eps).
  { intros i j Hi Hj. rewrite Rabs_minus_sym. now apply Pr. }
  specialize (C C1). cbv zeta in C |- *. set (e := INR n * (err m D + eps) / noise) in *.
  split.
  { unfold e, Rdiv. split; [apply Rmult_le_pos; [apply Rmult_le_pos; lra|left; now apply Rinv_0_lt_compat]|].
    apply Rmult_lt_reg_r with noise; auto. rewrite Rmult_assoc, Rinv_l, Rmult_1_r by lra. lra. }
  replace (2 * rsum n (fun i => ln (fval (L i i))) - 2 * rsum n (fun i => ln (Lx i i)))
    with (rsum n (fun i => 2 * ln (lowr L i i) - 2 * ln (Lx i i))).
  - apply Rle_trans with (1 := rsum_abs _ _). rewrite <- rsum_const. apply rsum_le. intros i Hi. now apply C.
  - rewrite rsum_minus, !rsum_scal_l. do 2 f_equal. apply rsum_ext. intros i _. unfold lowr. now rewrite Nat.leb_refl.
Qed.

(** ** The parts in the usual range *)
Lemma wide_err lprec lemin x : (53 <= lprec)%Z -> (lemin <= -1074)%Z -> Rabs (wide lprec lemin x - x) <= uu * Rabs x + e0.
Proof.
  intros H1 H2. assert (P : Prec_gt_0 lprec) by (unfold Prec_gt_0; lia).
  destruct (error_N_FLT radix2 lemin lprec P (fun z => negb (Z.even z)) x) as (eps & eta & A & B & _ & C).
  unfold wide. rewrite C. replace (x * (1 + eps) + eta - x) with (x * eps + eta) by ring.
  apply Rle_trans with (1 := Rabs_triang _ _). rewrite Rabs_mult. apply Rplus_le_compat.
  - rewrite Rmult_comm. apply Rmult_le_compat_r; [apply Rabs_pos|]. apply Rle_trans with (1 := A).
    change (/ 2) with (/ IZR radix2). rewrite <- (bpow_1 radix2), <- bpow_opp, <- bpow_plus. apply bpow_le. lia.
  - apply Rle_trans with (1 := B). change (/ 2) with (/ IZR radix2). rewrite <- (bpow_1 radix2), <- bpow_opp, <- bpow_plus. apply bpow_le. lia.
Qed.
Lemma uu16 : 0 < uu <= 2 / 10 ^ 16.
Proof. split; [apply uu_pos|]. change uu with (bp (- Z.of_nat 53)). rewrite bp_inv. lra. Qed.
Lemma e0_40 : 0 < e0 <= / 10 ^ 40.
Proof. split; [apply e0_pos|]. apply Rle_trans with (bp (- Z.of_nat 200)); [apply bp_le; lia|]. rewrite bp_inv. lra. Qed.
Lemma step_err v x M : Rabs (v - x) <= uu * Rabs x + e0 -> Rabs x <= M -> Rabs (v - x) <= 2 / 10 ^ 16 * M + / 10 ^ 40.
Proof.
  intros H B. pose proof uu16. pose proof e0_40. pose proof (Rabs_pos x). apply Rle_trans with (1 := H).
  apply Rplus_le_compat; [|lra]. apply Rmult_le_compat; lra.
Qed.

Lemma tsum_map l (f : nat -> F) : tsum (map (fun i => (false, TNum (f i))) l) = fold_right (fun i s => fval (f i) + s) 0 l
  /\ tabs (map (fun i => (false, TNum (f i))) l) = fold_right (fun i s => Rabs (fval (f i)) + s) 0 l.
Proof. induction l as [|i l [I1 I2]]; [split; reflexivity|]. cbn. unfold tsum, tabs in *. rewrite I1, I2. unfold tval. cbn. rewrite Rmult_1_l. auto. Qed.
Lemma tsum_map2 l (f g : nat -> F) : tsum (map (fun i => (false, TMul (f i) (g i))) l) = fold_right (fun i s => fval (f i) * fval (g i) + s) 0 l
  /\ tabs (map (fun i => (false, TMul (f i) (g i))) l) = fold_right (fun i s => Rabs (fval (f i) * fval (g i)) + s) 0 l.
Proof. induction l as [|i l [I1 I2]]; [split; reflexivity|]. cbn. unfold tsum, tabs in *. rewrite I1, I2. unfold tval. cbn. rewrite Rmult_1_l. auto. Qed.
Lemma fold_seq (h : nat -> R) n : forall a, fold_right (fun i s => h i + s) 0 (seq a n) = rsum n (fun i => h (a + i)%nat).
Proof.
  induction n; intros a; [reflexivity|]. rewrite rsum_S_first. cbn [seq fold_right]. rewrite IHn, Nat.add_0_r. f_equal. apply rsum_ext.
  intros i _. f_equal. lia.
Qed.
Lemma tsum_flat l n (f g : nat -> nat -> F) :
  tsum (flat_map (fun o => map (fun i => (false, TMul (f o i) (g o i))) (seq 0 n)) l) = fold_right (fun o s => rsum n (fun i => fval (f o i) * fval (g o i)) + s) 0 l
  /\ tabs (flat_map (fun o => map (fun i => (false, TMul (f o i) (g o i))) (seq 0 n)) l) = fold_right (fun o s => rsum n (fun i => Rabs (fval (f o i) * fval (g o i))) + s) 0 l.
Proof.
  induction l as [|o l [I1 I2]]; [split; reflexivity|]. cbn [flat_map fold_right]. rewrite tsum_app, tabs_app, I1, I2.
  destruct (tsum_map2 (seq 0 n) (f o) (g o)) as [-> ->].
  rewrite (fold_seq (fun i => fval (f o i) * fval (g o i))), (fold_seq (fun i => Rabs (fval (f o i) * fval (g o i)))). auto.
Qed.

Lemma pow2_le a b : (a <= b)%nat -> 2 ^ a <= 2 ^ b.
Proof. intros H. apply Rle_pow; [lra|auto]. Qed.

(** what a column of [_alpha] is worth *)
Lemma alpha_usual fexp mk d sf2 noise p n pts kf kq kvv m A L y x B :
  usual fexp mk d sf2 noise p n pts -> kernel_values fexp mk sf2 noise p n pts kf kq kvv -> INR m <= 3000 ->
  built m kf n A L -> (forall i, (i < n)%nat -> dbl (2 ^ 200) (y i)) -> alpha_of m n L y x ->
  is_inv n (noisy (K_of sf2 p pts) (nugget noise)) B ->
  let xs := fun i => rsum n (fun j => B i j * fval (y j)) in
  let X := rsum n (fun i => Rabs (xs i)) in
  (forall i, (i < n)%nat -> fvalid (x i) /\ ffin (x i) /\ Rabs (fval (x i)) <= bp 378) /\
  Rabs (rsum n (fun i => fval (y i) * fval (x i)) - rsum n (fun i => fval (y i) * xs i)) <= 3 / 10 ^ 11 * (X * X) + / 10 ^ 20 /\
  rsum n (fun i => Rabs (fval (y i) * fval (x i))) <= 5 * (X * X) + / 10 ^ 20.
Proof.
  intros HU HK Hm HB Hy Hx Bi xs X. set (K := K_of sf2 p pts) in *. set (ng := nugget noise) in *.
  destruct (usual_values fexp mk d sf2 noise p n pts kf kq kvv HU HK) as (S1 & S2 & S3 & S4 & S5 & S6). fold K ng in S1, S2, S3, S4.
  destruct HU as (He & Hmk & Hd & Hn & Hs & Hs1 & Hp & Hpts & Vn & Fn & Bn).
  pose proof (err_usual m Hm) as E. pose proof (le1000 n ltac:(lia)) as N1. pose proof (pos_INR n) as N0.
  assert (Ng : 99 / 10000 <= ng) by (unfold ng, nugget; lra).
  assert (E1 : 0 <= (INR n + 2) * (err m 2 + keps) <= 1002 * (50 / 10000000000000)).
  { unfold keps. split; [apply Rmult_le_pos; lra|]. apply Rmult_le_compat; lra. }
  assert (D2 : bp (-100) <= 2 <= bp 100).
  { change 2 with (bp 1) at 1 2. split; apply bp_le; lia. }
  pose proof (HD' 2 D2) as HD.
  assert (HR : in_range m 2).
  { split; [apply Rle_trans with (1 := Hm); lra|]. rewrite <- (bp_inv 500), <- (bp_pow 500). exact HD. }
  destruct (in_range_ok m 2 HR) as [Hm' _].
  assert (Hs' : symm n K) by (intros i j Hi Hj; apply S1; lia).
  pose proof (psd_minor n K S2) as Hp'. assert (Hl : 0 < ng) by lra.
  assert (KE : 0 <= keps) by (unfold keps; lra).
  destruct (setting m n K ng 2 keps kf A HR KE Hs' Hp' S3 (built_entries m kf n A L HB)) as (T1 & T2 & T3 & T4).
  { assert (0 <= err m 2 + keps) by lra. lra. }
  pose proof (columns_good m n A L 2 _ Hm' T1 (built_symm m kf n A L HB) HD T3 T4 n (le_n _) (built_columns m kf n A L HB)) as G.
  pose proof Hx as (z & Hz & Hx').
  assert (Hy' : forall i, (i < n)%nat -> dbl (bp 200) (y i)). { intros i Hi. specialize (Hy i Hi). rewrite <- (bp_pow 200) in Hy. exact Hy. }
  assert (Hlam : 2 * ((INR n + 2) * kap m 2) <= ng - INR n * keps).
  { rewrite <- err_kap. unfold keps in *. assert (0 <= INR n * (3 / 10000000000000) <= 1000 * (3 / 10000000000000)) by (split; [apply Rmult_le_pos; lra|apply Rmult_le_compat_r; lra]).
    assert ((INR n + 2) * err m 2 <= (INR n + 2) * (err m 2 + 3 / 10000000000000)) by (apply Rmult_le_compat_l; lra). lra. }
  destruct (alpha_fin m n A L 2 (ng - INR n * keps) y z x Hm' T1 (built_symm m kf n A L HB) D2 T3 Hlam G Hy' Hz Hx') as (Fx & Bx).
  pose proof (noisy_eig n K ng Hp') as Eg.
  set (Y := rsum n (fun i => Rabs (fval (x i)))).
  assert (Y0 : 0 <= Y) by (apply rsum_nonneg; intros; apply Rabs_pos).
  assert (X0 : 0 <= X) by (apply rsum_nonneg; intros; apply Rabs_pos).
  pose proof (tiny_usual n N1) as T. set (t := tiny n 2) in *.
  assert (Res : forall i, (i < n)%nat -> Rabs (fval (y i) - mvec n (noisy K ng) (fun k => fval (x k)) i) <= 144 / 10 ^ 13 * Y + t).
  { intros i Hi. pose proof (proj2 (alpha_residual m n A L 2 Hm' T1 (built_symm m kf n A L HB) HD G (noisy K ng) keps T2 y x (fun i Hi => proj1 (Hy i Hi)) (fun i Hi => proj2 (Fx i Hi)) Hx i Hi)) as Q.
    fold Y in Q. rewrite <- err_kap, <- tiny_und in Q. fold t in Q. apply Rle_trans with (1 := Q). apply Rplus_le_compat_r. apply Rmult_le_compat_r; auto. unfold keps. lra. }
  assert (Ex : forall i, (i < n)%nat -> mvec n (noisy K ng) xs i = fval (y i)).
  { intros i Hi. exact (inv_mvec n (noisy K ng) B (fun j => fval (y j)) Bi i Hi). }
  assert (Fw : rsum n (fun i => Rabs (fval (x i) - xs i)) <= INR n * (144 / 10 ^ 13 * Y + t) / ng).
  { apply (forward n (noisy K ng) ng (fun i => fval (x i)) xs); auto.
    - assert (0 <= 144 / 10 ^ 13 * Y) by (apply Rmult_le_pos; lra). lra.
    - intros i Hi. rewrite Ex by auto. now apply Res. }
  assert (I : 0 < / ng <= 10000 / 99).
  { split; [now apply Rinv_0_lt_compat|]. replace (10000 / 99) with (/ (99 / 10000)) by field. apply Rinv_le_contravar; lra. }
  assert (YX : Y <= X + 1000 * (10000 / 99) * (144 / 10 ^ 13 * Y + t)).
  { assert (T' : Y <= X + rsum n (fun i => Rabs (fval (x i) - xs i))).
    { unfold X, Y. rewrite <- rsum_plus. apply rsum_le. intros i _. replace (fval (x i)) with (xs i + (fval (x i) - xs i)) at 1 by ring. apply Rabs_triang. }
    assert (INR n * (144 / 10 ^ 13 * Y + t) / ng <= 1000 * (10000 / 99) * (144 / 10 ^ 13 * Y + t)).
    { unfold Rdiv at 1. rewrite (Rmult_assoc (INR n)), (Rmult_comm _ (/ ng)), <- Rmult_assoc.
      assert (0 <= 144 / 10 ^ 13 * Y) by (apply Rmult_le_pos; lra).
      apply Rmult_le_compat_r; [lra|]. apply Rmult_le_compat; lra. }
    lra. }
  assert (YX' : Y <= 11 / 10 * X + / 10 ^ 23) by lra.
  split.
  { intros i Hi. destruct (Fx i Hi) as [V F]. split; auto. split; auto. apply sq_bp. apply Rle_trans with (2 := Bx).
    unfold ssq. rewrite <- (rsum_delta n i (fun k => fval (x k) * fval (x k)) Hi). apply rsum_le. intros k _. destruct (k =? i)%nat; [lra|]. nra. }
  assert (XX : X <= X * X + 1) by nra. assert (X2 : 0 <= X * X) by nra.
  split.
  - apply Rle_trans with (1 := quad_form_err n (noisy K ng) xs (fun k => fval (x k)) (fun i => fval (y i)) _ (noisy_symm n K ng Hs') Ex Res). fold X.
    apply Rle_trans with ((144 / 10 ^ 13 * (11 / 10 * X + / 10 ^ 23) + / 10 ^ 30) * X); [apply Rmult_le_compat_r; lra|].
    replace ((144 / 10 ^ 13 * (11 / 10 * X + / 10 ^ 23) + / 10 ^ 30) * X) with (144 / 10 ^ 13 * (11 / 10) * (X * X) + (144 / 10 ^ 13 * / 10 ^ 23 + / 10 ^ 30) * X) by ring. lra.
  - assert (Yb : forall i, (i < n)%nat -> Rabs (fval (y i)) <= 2 * X).
    { intros i Hi. rewrite <- Ex by auto. unfold mvec, X. apply Rle_trans with (1 := rsum_abs _ _). rewrite <- rsum_scal_l. apply rsum_le. intros j Hj.
      rewrite Rabs_mult. apply Rmult_le_compat_r; [apply Rabs_pos|].
      pose proof (exact_bounds d sf2 p (pts i) (pts j) Hs Hp (Hpts i ltac:(lia)) (Hpts j ltac:(lia))) as EB. change (exact sf2 p (pts i) (pts j)) with (K i j) in EB.
      unfold noisy. assert (ng <= 91 / 100) by (unfold ng, nugget; lra). apply Rabs_le. destruct (i =? j)%nat; lra. }
    apply Rle_trans with (2 * X * Y).
    + unfold Y. rewrite <- rsum_scal_l. apply rsum_le. intros i Hi. rewrite Rabs_mult. apply Rmult_le_compat_r; [apply Rabs_pos|auto].
    + apply Rle_trans with (2 * X * (11 / 10 * X + / 10 ^ 23)); [apply Rmult_le_compat_l; lra|].
      replace (2 * X * (11 / 10 * X + / 10 ^ 23)) with (22 / 10 * (X * X) + 2 / 10 ^ 23 * X) by field. lra.
Qed.

(** the sum of the logarithms *)
Lemma ln_bounds v : 98 / 10000 <= v * v <= 2 -> 0 < v -> Rabs (ln v) <= 4.
Proof.
  intros [H1 H2] P.
  assert (L1 : ln v <= v - 1). { pose proof (exp_ineq1_le (ln v)) as E. rewrite exp_ln in E by auto. lra. }
  assert (V2 : v <= 2) by nra.
  assert (V1 : 98 / 1000 <= v) by nra.
  assert (E1 : exp (-4) <= / 16).
  { replace (exp (-4)) with (exp (Ropp 4)) by (f_equal; lra). rewrite exp_Ropp.
    assert (X : 2 <= exp 1) by (pose proof (exp_ineq1_le 1); lra).
    assert (X4 : 16 <= exp 4).
    { replace 4 with (1 + 1 + (1 + 1)) by lra. rewrite !exp_plus. assert (4 <= exp 1 * exp 1) by nra. nra. }
    apply Rinv_le_contravar; lra. }
  assert (L2 : -4 <= ln v). { rewrite <- (ln_exp (-4)). left. apply ln_increasing; [apply exp_pos|lra]. }
  apply Rabs_le. lra.
Qed.
Lemma logsum_usual fexp mk d sf2 noise p n pts kf kq kvv m A L is_log mt s :
  usual fexp mk d sf2 noise p n pts -> kernel_values fexp mk sf2 noise p n pts kf kq kvv -> INR m <= 3000 ->
  built m kf n A L -> libm_log is_log (/ 2 ^ 50) -> INR mt <= 2 ^ 20 -> logsum is_log mt n L s ->
  fvalid s /\ ffin s /\ Rabs (fval s) <= 6000 /\
  Rabs (2 * fval s - ln (det n (noisy (K_of sf2 p pts) (nugget noise)))) <= 52 / 100000.
Proof.
  intros HU HK Hm HB Hlog Hmt (lg & Hlg & Hsum). set (K := K_of sf2 p pts) in *. set (ng := nugget noise) in *.
  pose proof (C70_factor fexp mk d sf2 noise p n pts kf kq kvv m HU HK Hm) as (_ & _ & HF). destruct (HF A L HB) as (F1 & F2 & F3). fold K ng in F3. clear HF.
  destruct (usual_values fexp mk d sf2 noise p n pts kf kq kvv HU HK) as (S1 & S2 & S3 & S4 & S5 & S6). fold K ng in S1, S2, S3, S4.
  destruct HU as (He & Hmk & Hd & Hn & Hs & Hs1 & Hp & Hpts & Vn & Fn & Bn).
  pose proof (err_usual m Hm) as E. pose proof (le1000 n ltac:(lia)) as N1. pose proof (pos_INR n) as N0. pose proof (pos_INR mt) as M0.
  assert (Ng : 99 / 10000 <= ng <= 91 / 100) by (unfold ng, nugget; lra). assert (Hl : 0 < ng) by lra.
  assert (Hs' : symm n K) by (intros i j Hi Hj; apply S1; lia).
  pose proof (psd_minor n K S2) as Hp'.
  assert (HR : in_range m 2).
  { split; [apply Rle_trans with (1 := Hm); lra|]. assert (1 <= 2 ^ 499) by (apply pow_R1_Rle; lra). split; [|change (2 ^ 500) with (2 * 2 ^ 499); lra].
    apply Rle_trans with (/ 1); [|lra]. apply Rinv_le_contravar; [lra|]. apply pow_R1_Rle. lra. }
  assert (E1 : 0 <= (INR n + 1) * (err m 2 + keps) <= 1001 * (50 / 10000000000000)).
  { unfold keps. split; [apply Rmult_le_pos; lra|]. apply Rmult_le_compat; lra. }
  destruct (C71_logdet m n K ng 2 keps kf A L HR ltac:(unfold keps; lra) Hs' Hp' S3 ltac:(lra) HB) as (_ & _ & Ee & LD).
  (* the diagonal *)
  assert (Dg : forall i, (i < n)%nat -> Rabs (ln (fval (L i i))) <= 4).
  { intros i Hi. apply ln_bounds; [|now apply F2]. split.
    - assert (Q : forall u, 98 / 10000 * ssq n u <= rsum n (fun c => rsum n (fun q => lowr L q c * u q) * rsum n (fun q => lowr L q c * u q))).
      { intros u. rewrite <- quad_gram.
        assert (P : eig_min n (fun i j => rsum n (fun c => lowr L i c * lowr L j c)) (ng - INR n * (5 / 1000000000000))).
        { apply (eig_pert n (noisy K ng)); [now apply noisy_eig| |lra]. intros a b Ha Hb. rewrite Rabs_minus_sym. now apply F3. }
        apply Rle_trans with (2 := P u). apply Rmult_le_compat_r; [apply ssq_nonneg|]. lra. }
      pose proof (diag_lp n (lowr L) (98 / 10000) (lowr_lower n L F2) ltac:(lra) Q i Hi) as B. unfold lowr in B. rewrite Nat.leb_refl in B. exact B.
    - pose proof (F3 i i Hi Hi) as B. apply Rabs_le_inv in B.
      pose proof (exact_bounds d sf2 p (pts i) (pts i) Hs Hp (Hpts i ltac:(lia)) (Hpts i ltac:(lia))) as EB. change (exact sf2 p (pts i) (pts i)) with (K i i) in EB.
      unfold noisy in B. rewrite Nat.eqb_refl in B.
      assert (fval (L i i) * fval (L i i) <= rsum n (fun c => lowr L i c * lowr L i c)); [|lra].
      replace (fval (L i i)) with (lowr L i i) by (unfold lowr; now rewrite Nat.leb_refl).
      rewrite <- (rsum_delta n i (fun c => lowr L i c * lowr L i c) Hi). apply rsum_le. intros c _. destruct (c =? i)%nat; [lra|nra]. }
  assert (Lg : forall i, (i < n)%nat -> fvalid (lg i) /\ ffin (lg i) /\ Rabs (fval (lg i) - ln (fval (L i i))) <= 5 * / 2 ^ 50 /\ Rabs (fval (lg i)) <= 5).
  { intros i Hi. destruct (F1 i i ltac:(lia)) as (V & Fi). destruct (Hlog _ _ (Hlg i Hi) V Fi (F2 i Hi)) as (V' & F' & B).
    specialize (Dg i Hi). split; auto. split; auto.
    assert (B' : Rabs (fval (lg i) - ln (fval (L i i))) <= 5 * / 2 ^ 50).
    { apply Rle_trans with (1 := B). rewrite Rmult_comm. apply Rmult_le_compat_r; [left; apply Rinv_0_lt_compat, pow_lt; lra|lra]. }
    split; auto. replace (fval (lg i)) with ((fval (lg i) - ln (fval (L i i))) + ln (fval (L i i))) by ring.
    apply Rle_trans with (1 := Rabs_triang _ _). lra. }
  destruct (tsum_map (seq 0 n) lg) as [T1 T2]. rewrite (fold_seq (fun i => fval (lg i))) in T1. rewrite (fold_seq (fun i => Rabs (fval (lg i)))) in T2. cbn [Nat.add] in T1, T2.
  assert (TA : tabs (map (fun i => (false, TNum (lg i))) (seq 0 n)) <= 5000).
  { rewrite T2. apply Rle_trans with (INR n * 5); [|lra]. rewrite <- rsum_const. apply rsum_le. intros i Hi. now apply Lg. }
  assert (TV : List.Forall tvalid (map (fun i => (false, TNum (lg i))) (seq 0 n))).
  { apply Forall_forall. intros t Ht. apply in_map_iff in Ht. destruct Ht as (i & <- & Hi). apply in_seq in Hi. apply Lg. lia. }
  assert (TF : List.Forall tfin (map (fun i => (false, TNum (lg i))) (seq 0 n))).
  { apply Forall_forall. intros t Ht. apply in_map_iff in Ht. destruct Ht as (i & <- & Hi). apply in_seq in Hi. apply Lg. lia. }
  assert (Sm : small mt).
  { unfold small. rewrite bpow_pos_IZR by lia. change (bpow radix2 40) with (bp (Z.of_nat 40)). rewrite bp_pow. apply Rle_trans with (1 := Hmt). apply pow2_le. lia. }
  assert (Fs : ffin s).
  { apply (sum_of_fin mt _ s Sm TV TF Hsum). apply Rle_trans with (1 := TA). apply Rle_trans with (bp 13); [rewrite (bp_pow 13 : bp 13 = _); lra|apply bp_le; lia]. }
  pose proof (sum_of_valid mt _ s TV Hsum) as Vs. pose proof (sum_of_error mt _ s Sm TV Hsum Fs) as Er.
  rewrite T1 in Er. set (ta := tabs _) in *. assert (TA0 : 0 <= ta) by apply tabs_pos.
  assert (Er' : Rabs (fval s - rsum n (fun i => fval (lg i))) <= 3 / 1000000).
  { apply Rle_trans with (1 := Er). pose proof uu16 as [U1 U2]. pose proof e0_40 as [Z1 Z2].
    apply Rle_trans with (2 * 2 ^ 20 * (2 / 10 ^ 16) * 5000 + 2 * 2 ^ 20 * / 10 ^ 40); [|lra].
    apply Rplus_le_compat; apply Rmult_le_compat; try lra; try (apply Rmult_le_pos; lra). apply Rmult_le_compat; lra. }
  assert (El : Rabs (rsum n (fun i => fval (lg i)) - rsum n (fun i => ln (fval (L i i)))) <= 1 / 10 ^ 11).
  { rewrite <- rsum_minus. apply Rle_trans with (1 := rsum_abs _ _). apply Rle_trans with (INR n * (5 * / 2 ^ 50)).
    - rewrite <- rsum_const. apply rsum_le. intros i Hi. now apply Lg.
    - apply Rle_trans with (1000 * (5 * / 2 ^ 50)); [apply Rmult_le_compat_r; lra|lra]. }
  assert (Bs : Rabs (rsum n (fun i => fval (lg i))) <= 5000).
  { apply Rle_trans with (1 := rsum_abs _ _). rewrite <- T2. exact TA. }
  assert (I : 0 < / ng <= 10000 / 99).
  { split; [now apply Rinv_0_lt_compat|]. replace (10000 / 99) with (/ (99 / 10000)) by field. apply Rinv_le_contravar; lra. }
  assert (Q : INR n * (err m 2 + keps) / ng <= 1000 * (50 / 10000000000000) * (10000 / 99)).
  { unfold Rdiv at 1. unfold keps. apply Rmult_le_compat; try lra; [apply Rmult_le_pos; lra|]. apply Rmult_le_compat; lra. }
  set (e := INR n * (err m 2 + keps) / ng) in *.
  assert (LD' : INR n * (e / (1 - e)) <= 51 / 100000).
  { apply Rle_trans with (1000 * (51 / 100000000)); [|lra]. apply Rmult_le_compat; try lra.
    - apply Rmult_le_pos; [lra|]. left. apply Rinv_0_lt_compat. lra.
    - apply Rmult_le_reg_r with (1 - e); [lra|]. replace (e / (1 - e) * (1 - e)) with e by (field; lra). lra. }
  split; auto. split; auto.
  apply Rabs_le_inv in Er'. apply Rabs_le_inv in El. apply Rabs_le_inv in Bs. apply Rabs_le_inv in LD. split; apply Rabs_le; lra.
Qed.

(** the trace *)
Lemma fold_sum (h : nat -> R) p : fold_right (fun o s => h o + s) 0 (seq 0 p) = rsum p h.
Proof. now rewrite (fold_seq h p 0). Qed.
Lemma trace_usual n q (y x xs : nat -> nat -> R) (fy fx : nat -> fvec) mt a :
  (forall o i, (o < q)%nat -> (i < n)%nat -> fvalid (fy o i) /\ ffin (fy o i) /\ Rabs (fval (fy o i)) <= bp 200) ->
  (forall o i, (o < q)%nat -> (i < n)%nat -> fvalid (fx o i) /\ ffin (fx o i) /\ Rabs (fval (fx o i)) <= bp 378) ->
  (n <= 1000)%nat -> INR q <= 2 ^ 20 -> INR mt <= 2 ^ 20 -> trace_of mt n q fy fx a ->
  (forall o, (o < q)%nat ->
    Rabs (rsum n (fun i => fval (fy o i) * fval (fx o i)) - rsum n (fun i => fval (fy o i) * xs o i))
      <= 3 / 10 ^ 11 * (rsum n (fun i => Rabs (xs o i)) * rsum n (fun i => Rabs (xs o i))) + / 10 ^ 20 /\
    rsum n (fun i => Rabs (fval (fy o i) * fval (fx o i)))
      <= 5 * (rsum n (fun i => Rabs (xs o i)) * rsum n (fun i => Rabs (xs o i))) + / 10 ^ 20) ->
  let T := rsum q (fun o => rsum n (fun i => Rabs (xs o i)) * rsum n (fun i => Rabs (xs o i))) in
  fvalid a /\ ffin a /\ Rabs (fval a) <= bp 700 /\ Rabs (fval a) <= 6 * T + 1 /\
  Rabs (fval a - rsum q (fun o => rsum n (fun i => fval (fy o i) * xs o i))) <= 3 / 10 ^ 9 * T + / 10 ^ 12.
Proof.
  intros Hy Hx Hn Hq Hmt Htr Ho T. pose proof (le1000 n Hn) as N1. pose proof (pos_INR n) as N0. pose proof (pos_INR q) as Q0. pose proof (pos_INR mt) as M0.
  assert (T0 : 0 <= T).
  { apply rsum_nonneg. intros o _. assert (0 <= rsum n (fun i => Rabs (xs o i))) by (apply rsum_nonneg; intros; apply Rabs_pos). now apply Rmult_le_pos. }
  unfold trace_of in Htr. destruct (tsum_flat (seq 0 q) n fy fx) as [T1 T2].
  rewrite (fold_sum (fun o => rsum n (fun i => fval (fy o i) * fval (fx o i)))) in T1.
  rewrite (fold_sum (fun o => rsum n (fun i => Rabs (fval (fy o i) * fval (fx o i))))) in T2.
  set (ts := flat_map _ _) in *.
  assert (TV : List.Forall tvalid ts /\ List.Forall tfin ts).
  { split; apply Forall_forall; intros t Ht; apply in_flat_map in Ht; destruct Ht as (o & H1 & H2); apply in_seq in H1; apply in_map_iff in H2;
      destruct H2 as (i & <- & Hi); apply in_seq in Hi; destruct (Hy o i ltac:(lia) ltac:(lia)) as (A1 & A2 & _); destruct (Hx o i ltac:(lia) ltac:(lia)) as (B1 & B2 & _); split; auto. }
  destruct TV as [TV TF].
  assert (Sm : small mt).
  { unfold small. rewrite bpow_pos_IZR by lia. change (bpow radix2 40) with (bp (Z.of_nat 40)). rewrite bp_pow. apply Rle_trans with (1 := Hmt). apply pow2_le. lia. }
  assert (TB : tabs ts <= bp 608).
  { rewrite T2. apply Rle_trans with (INR q * (INR n * bp 578)).
    - rewrite <- rsum_const. apply rsum_le. intros o Hoq. rewrite <- rsum_const. apply rsum_le. intros i Hi. rewrite Rabs_mult.
      change 578%Z with (200 + 378)%Z. rewrite bpow_plus. apply Rmult_le_compat; try apply Rabs_pos; [now apply Hy|now apply Hx].
    - assert (P : 0 < bp 578) by apply bpow_gt_0. apply Rle_trans with (bp 20 * (bp 10 * bp 578)).
      + apply Rmult_le_compat; try lra; [apply Rmult_le_pos; lra|rewrite (bp_pow 20 : bp 20 = _); lra|]. apply Rmult_le_compat_r; [lra|]. rewrite (bp_pow 10 : bp 10 = _). lra.
      + rewrite <- !bpow_plus. apply Rle_refl. }
  assert (Fa : ffin a). { apply (sum_of_fin mt ts a Sm TV TF Htr). apply Rle_trans with (1 := TB). apply bp_le. lia. }
  pose proof (sum_of_valid mt ts a TV Htr) as Va. pose proof (sum_of_error mt ts a Sm TV Htr Fa) as Er.
  pose proof (tabs_pos ts) as A0. pose proof (tsum_abs ts) as TS.
  pose proof uu16 as [U1 U2]. pose proof e0_40 as [Z1 Z2].
  assert (Er' : Rabs (fval a - tsum ts) <= 2 * 2 ^ 20 * (2 / 10 ^ 16) * tabs ts + / 10 ^ 30).
  { apply Rle_trans with (1 := Er). apply Rplus_le_compat.
    - apply Rmult_le_compat_r; auto. apply Rmult_le_compat; lra.
    - apply Rle_trans with (2 * 2 ^ 20 * / 10 ^ 40); [apply Rmult_le_compat; lra|lra]. }
  assert (TA : tabs ts <= 5 * T + / 10 ^ 13).
  { rewrite T2. unfold T. apply Rle_trans with (rsum q (fun o => 5 * (rsum n (fun i => Rabs (xs o i)) * rsum n (fun i => Rabs (xs o i))) + / 10 ^ 20)).
    - apply rsum_le. intros o Hoq. now apply Ho.
    - rewrite rsum_plus, rsum_scal_l, rsum_const. apply Rplus_le_compat_l. apply Rle_trans with (2 ^ 20 * / 10 ^ 20); [apply Rmult_le_compat_r; lra|lra]. }
  assert (TX : Rabs (tsum ts - rsum q (fun o => rsum n (fun i => fval (fy o i) * xs o i))) <= 3 / 10 ^ 11 * T + / 10 ^ 13).
  { rewrite T1, <- rsum_minus. apply Rle_trans with (1 := rsum_abs _ _).
    unfold T. apply Rle_trans with (rsum q (fun o => 3 / 10 ^ 11 * (rsum n (fun i => Rabs (xs o i)) * rsum n (fun i => Rabs (xs o i))) + / 10 ^ 20)).
    - apply rsum_le. intros o Hoq. now apply Ho.
    - rewrite rsum_plus, rsum_scal_l, rsum_const. apply Rplus_le_compat_l. apply Rle_trans with (2 ^ 20 * / 10 ^ 20); [apply Rmult_le_compat_r; lra|lra]. }
  split; auto. split; auto.
  assert (B7 : 2 * bp 608 + 1 <= bp 700).
  { assert (1 <= bp 608) by (change 1 with (bp 0); apply bp_le; lia). apply Rle_trans with (bp 2 * bp 608); [change (bp 2) with 4; lra|].
    rewrite <- bpow_plus. apply bp_le. lia. }
  set (u := tabs ts) in *. set (v := tsum ts) in *. set (w := rsum q (fun o => rsum n (fun i => fval (fy o i) * xs o i))) in *.
  apply Rabs_le_inv in Er'. apply Rabs_le_inv in TX. apply Rabs_le_inv in TS.
  split; [apply Rabs_le; lra|]. split; apply Rabs_le; lra.
Qed.

(** ** The constant *)
Lemma fpi_val : fvalid fpi /\ ffin fpi /\ Rabs (fval fpi - PI) <= 1 / 10 ^ 10.
Proof.
  split; [reflexivity|]. split; [reflexivity|].
  assert (E : fval fpi = 7074237752028440 / 2251799813685248) by (cbv -[IZR F2R bpow Rdiv]; unfold F2R; simpl; lra).
  rewrite E. pose proof pi_bounds. apply Rabs_le. lra.
Qed.
Lemma half_val : fvalid fhalf /\ ffin fhalf /\ fval fhalf = 1 / 2.
Proof. split; [reflexivity|split; [reflexivity|]]; cbv -[IZR F2R bpow Rdiv]; unfold F2R; simpl; lra. Qed.
Lemma two_val : fvalid ftwo /\ ffin ftwo /\ fval ftwo = 2.
Proof. split; [reflexivity|split; [reflexivity|]]; cbv -[IZR F2R bpow Rdiv]; unfold F2R; simpl; lra. Qed.
Lemma twopi_val : fvalid (fmul ftwo fpi) /\ ffin (fmul ftwo fpi) /\ Rabs (fval (fmul ftwo fpi) - 2 * PI) <= 2 / 10 ^ 10.
Proof.
  split; [reflexivity|]. split; [reflexivity|].
  assert (E : fval (fmul ftwo fpi) = 2 * (7074237752028440 / 2251799813685248)) by (cbv -[IZR F2R bpow Rdiv]; unfold F2R; simpl; lra).
  rewrite E. pose proof pi_bounds. apply Rabs_le. lra.
Qed.
Lemma mul_ok a b : fvalid a -> ffin a -> fvalid b -> ffin b -> Rabs (fval a * fval b) <= bp 1000 ->
  fvalid (fmul a b) /\ ffin (fmul a b) /\ Rabs (fval (fmul a b) - fval a * fval b) <= uu * Rabs (fval a * fval b) + e0.
Proof.
  intros Va Fa Vb Fb B. split; [now apply fmul_valid|].
  destruct (fmul_correct a b) as [F1 F2]; auto.
  - apply Rle_lt_trans with (bp 1000); [apply rnd_abs; [lia|auto]|]. apply bpow_lt. lia.
  - split; auto. rewrite F2. apply rnd_error.
Qed.
Lemma ln2pi_bounds : 0 <= ln (2 * PI) <= 6.
Proof.
  pose proof pi_bounds. split.
  - rewrite <- ln_1. left. apply ln_increasing; lra.
  - pose proof (exp_ineq1_le (ln (2 * PI))) as E. rewrite exp_ln in E by lra. lra.
Qed.

(** ** The log-likelihood *)
(** [r] = the computed log-likelihood of data with [q] outputs; [xs o] = the exact weights of output
    [o].  Whatever the order of the sums and the format of long double, it is finite and close to
    the exact one. *)
Theorem C71_loglik : forall fexp mk d sf2 noise p n pts kf kq kvv m A L is_log lprec lemin mt q y x r,
  usual fexp mk d sf2 noise p n pts -> kernel_values fexp mk sf2 noise p n pts kf kq kvv -> INR m <= 3000 ->
  built m kf n A L -> libm_log is_log (/ 2 ^ 50) -> (53 <= lprec)%Z -> (lemin <= -1074)%Z ->
  INR q <= 2 ^ 20 -> INR mt <= 2 ^ 20 ->
  (forall o i, (o < q)%nat -> (i < n)%nat -> dbl (2 ^ 200) (y o i)) ->
  (forall o, (o < q)%nat -> alpha_of m n L (y o) (x o)) ->
  lik_of is_log lprec lemin mt n q L y x r ->
  let S := noisy (K_of sf2 p pts) (nugget noise) in
  fvalid r /\ ffin r /\
  exists B, is_inv n S B /\ 0 < det n S /\
    let xs := fun o i => rsum n (fun j => B i j * fval (y o j)) in
    let X := fun o => rsum n (fun i => Rabs (xs o i)) in
    Rabs (fval r - exact_lik n q S B (fun o i => fval (y o i))) <= 3 / 10000 + 2 / 10 ^ 9 * rsum q (fun o => X o * X o).
Proof.
  intros fexp mk d sf2 noise p n pts kf kq kvv m A L is_log lprec lemin mt q y x r HU HK Hm HB Hlog Hp1 Hp2 Hq Hmt Hy Hx (s & a & l2 & Hs & Ha & Hl2 & Hr) S.
  destruct (logsum_usual fexp mk d sf2 noise p n pts kf kq kvv m A L is_log mt s HU HK Hm HB Hlog Hmt Hs) as (Vs & Fs & Bs & Es). fold S in Es.
  destruct (usual_values fexp mk d sf2 noise p n pts kf kq kvv HU HK) as (S1 & S2 & _).
  pose proof HU as (_ & _ & _ & Hn & _ & _ & _ & _ & _ & _ & Bn).
  pose proof (le1000 n ltac:(lia)) as N1. pose proof (pos_INR n) as N0.
  assert (Hl : 0 < nugget noise) by (unfold nugget; lra).
  assert (Hs' : symm n (K_of sf2 p pts)) by (intros i j Hi Hj; apply S1; lia).
  destruct (noisy_chol n (K_of sf2 p pts) (nugget noise) Hl Hs' (psd_minor n _ S2)) as (Lx & Cx). fold S in Cx.
  destruct (logdet_chol n Lx S Cx) as (Dp & _).
  destruct (inv_of_is_inv n Lx S Cx) as (Bi & _). set (B := inv_of n Lx) in *.
  set (xs := fun o i => rsum n (fun j => B i j * fval (y o j))).
  assert (Al : forall o, (o < q)%nat -> _) by (intros o Ho; exact (alpha_usual fexp mk d sf2 noise p n pts kf kq kvv m A L (y o) (x o) B HU HK Hm HB (fun i Hi => Hy o i Ho Hi) (Hx o Ho) Bi)).
  destruct (trace_usual n q (fun _ _ => 0) (fun _ _ => 0) xs y x mt a) as (Va & Fa & Ba7 & Ba & Ea); auto; try lia.
  { intros o i Ho Hi. destruct (Hy o i Ho Hi) as (A1 & A2 & A3). rewrite <- (bp_pow 200) in A3. auto. }
  { intros o i Ho Hi. apply (proj1 (Al o Ho)). exact Hi. }
  { intros o Ho. apply (proj2 (Al o Ho)). }
  set (T := rsum q _) in *.
  assert (T0 : 0 <= T).
  { apply rsum_nonneg. intros o _. assert (0 <= rsum n (fun i => Rabs (xs o i))) by (apply rsum_nonneg; intros; apply Rabs_pos). now apply Rmult_le_pos. }
  (* the operations *)
  destruct half_val as (Vh & Fh & Eh). destruct two_val as (V2 & F2 & E2). destruct twopi_val as (Vp & Fp & Ep). pose proof ln2pi_bounds as Lb. pose proof pi_bounds as Pb.
  assert (P9 : 10 ^ 10 <= bp 700). { apply Rle_trans with (bp 100); [rewrite (bp_pow 100 : bp 100 = _); lra|apply bp_le; lia]. }
  assert (P10 : 16 * bp 700 <= bp 1000). { change 16 with (bp 4). rewrite <- bpow_plus. apply bp_le. lia. }
  destruct (Hlog _ _ Hl2 Vp Fp ltac:(apply Rabs_le_inv in Ep; lra)) as (Vl & Fl & El).
  assert (El' : Rabs (fval l2 - ln (2 * PI)) <= 2 / 10 ^ 9).
  { assert (Q : Rabs (ln (fval (fmul ftwo fpi)) - ln (2 * PI)) <= 1 / 10 ^ 9 / (1 - 1 / 10 ^ 9)).
    { apply Rabs_le_inv in Ep. apply ln_ratio; try lra. }
    assert (Q2 : 1 / 10 ^ 9 / (1 - 1 / 10 ^ 9) <= 11 / 10 ^ 10) by lra.
    assert (Q3 : Rabs (ln (fval (fmul ftwo fpi))) <= 7) by (apply Rabs_le_inv in Q; apply Rabs_le; lra).
    assert (Q4 : / 2 ^ 50 * (1 + Rabs (ln (fval (fmul ftwo fpi)))) <= / 2 ^ 50 * 8) by (apply Rmult_le_compat_l; lra).
    apply Rabs_le_inv in Q. apply Rabs_le_inv in El. apply Rabs_le. lra. }
  (* -0.5 * a *)
  set (av := fval a) in *.
  assert (Eo : fval (fopp fhalf) = - (1 / 2)) by (rewrite fopp_val; lra).
  destruct (mul_ok (fopp fhalf) a) as (V1 & F1 & M1); auto; try reflexivity.
  { rewrite Eo. fold av. rewrite Rabs_mult, Rabs_Ropp, (Rabs_pos_eq (1 / 2)) by lra. lra. }
  rewrite Eo in M1. fold av in M1.
  apply (step_err _ _ (1 / 2 * (6 * T + 1))) in M1; [|rewrite Rabs_mult, Rabs_Ropp, (Rabs_pos_eq (1 / 2)) by lra; apply Rmult_le_compat_l; lra].
  set (t1 := fval (fmul (fopp fhalf) a)) in *.
  (* 2 * sum *)
  destruct (mul_ok ftwo s) as (V3 & F3 & M3); auto.
  { rewrite E2, Rabs_mult, (Rabs_pos_eq 2) by lra. lra. }
  rewrite E2 in M3. apply (step_err _ _ 12000) in M3; [|rewrite Rabs_mult, (Rabs_pos_eq 2) by lra; lra].
  set (ld := fval (fmul ftwo s)) in *. set (sv := fval s) in *.
  apply Rabs_le_inv in Bs. apply Rabs_le_inv in M3.
  (* 0.5 * logdet *)
  pose proof (wide_err lprec lemin (1 / 2 * ld) Hp1 Hp2) as M4. apply (step_err _ _ 6001) in M4; [|apply Rabs_le; lra].
  cbv zeta in Hr. set (w1 := wide lprec lemin (1 / 2 * ld)) in *. apply Rabs_le_inv in M4.
  (* -0.5 * a - 0.5 * logdet *)
  assert (Ba2 : Rabs t1 <= 4 * T + 2). { apply Rabs_le_inv in M1. apply Rabs_le_inv in Ba. apply Rabs_le. lra. }
  assert (Ba3 : Rabs t1 <= bp 700).
  { unfold t1. destruct (fmul_correct (fopp fhalf) a) as [_ Em]; auto; try reflexivity.
    - apply Rle_lt_trans with (bp 700); [|apply bpow_lt; lia]. apply rnd_abs; [lia|]. rewrite Eo. fold av. rewrite Rabs_mult, Rabs_Ropp, (Rabs_pos_eq (1 / 2)) by lra. pose proof (Rabs_pos av). lra.
    - rewrite Em. apply rnd_abs; [lia|]. rewrite Eo. fold av. rewrite Rabs_mult, Rabs_Ropp, (Rabs_pos_eq (1 / 2)) by lra. pose proof (Rabs_pos av). lra. }
  pose proof (wide_err lprec lemin (t1 - w1) Hp1 Hp2) as M5.
  assert (B5 : Rabs (t1 - w1) <= 4 * T + 6100) by (apply Rabs_le_inv in Ba2; apply Rabs_le; lra).
  assert (B5' : Rabs (t1 - w1) <= bp 700 + 6100) by (apply Rabs_le_inv in Ba3; apply Rabs_le; lra).
  pose proof (step_err _ _ _ M5 B5) as M5a. pose proof (step_err _ _ _ M5 B5') as M5b. clear M5.
  set (w2 := wide lprec lemin (t1 - w1)) in *.
  (* 0.5 * n * log(2 pi) *)
  destruct (fofZ_correct (Z.of_nat n)) as [Fn En]; [lia|]. rewrite <- INR_IZR_INZ in En.
  destruct (mul_ok fhalf (fofZ (Z.of_nat n))) as (V6 & F6 & M6); auto; [apply fofZ_valid| |].
  { rewrite Eh, En, Rabs_pos_eq by lra. lra. }
  rewrite Eh, En in M6. apply (step_err _ _ 500) in M6; [|rewrite Rabs_pos_eq by lra; lra].
  apply Rabs_le_inv in El'. apply Rabs_le_inv in M6.
  assert (B7 : Rabs (fval (fmul fhalf (fofZ (Z.of_nat n))) * fval l2) <= 501 * 7).
  { rewrite Rabs_mult. apply Rmult_le_compat; try apply Rabs_pos; apply Rabs_le; lra. }
  destruct (mul_ok (fmul fhalf (fofZ (Z.of_nat n))) l2) as (V7 & F7 & M7); auto; [lra|].
  apply (step_err _ _ _) with (2 := B7) in M7.
  assert (M7' : Rabs (fval (fmul (fmul fhalf (fofZ (Z.of_nat n))) l2) - 1 / 2 * INR n * ln (2 * PI)) <= 3 / 10 ^ 6).
  { set (hn := fval (fmul fhalf (fofZ (Z.of_nat n)))) in *.
    replace (fval (fmul (fmul fhalf (fofZ (Z.of_nat n))) l2) - 1 / 2 * INR n * ln (2 * PI))
      with ((fval (fmul (fmul fhalf (fofZ (Z.of_nat n))) l2) - hn * fval l2) + (hn - 1 / 2 * INR n) * fval l2 + 1 / 2 * INR n * (fval l2 - ln (2 * PI))) by ring.
    assert (C1 : Rabs ((hn - 1 / 2 * INR n) * fval l2) <= 2 / 10 ^ 13 * 7) by (rewrite Rabs_mult; apply Rmult_le_compat; try apply Rabs_pos; apply Rabs_le; lra).
    assert (C2 : Rabs (1 / 2 * INR n * (fval l2 - ln (2 * PI))) <= 500 * (2 / 10 ^ 9)) by (rewrite Rabs_mult; apply Rmult_le_compat; try apply Rabs_pos; apply Rabs_le; lra).
    apply Rabs_le_inv in M7. apply Rabs_le_inv in C1. apply Rabs_le_inv in C2. apply Rabs_le. lra. }
  set (cn := fval (fmul (fmul fhalf (fofZ (Z.of_nat n))) l2)) in *.
  assert (Cb : 0 <= 1 / 2 * INR n * ln (2 * PI) <= 500 * 6).
  { split; [apply Rmult_le_pos; lra|apply Rmult_le_compat; lra]. }
  set (ce := 1 / 2 * INR n * ln (2 * PI)) in *. apply Rabs_le_inv in M7'.
  (* the last subtraction *)
  pose proof (wide_err lprec lemin (w2 - cn) Hp1 Hp2) as M8.
  apply Rabs_le_inv in M5a. apply Rabs_le_inv in M5b. apply Rabs_le_inv in B5. apply Rabs_le_inv in B5'.
  assert (B8 : Rabs (w2 - cn) <= 5 * T + 9200) by (apply Rabs_le; lra).
  assert (B8' : Rabs (w2 - cn) <= 2 * bp 700) by (apply Rabs_le; lra).
  pose proof (step_err _ _ _ M8 B8) as M8a. pose proof (step_err _ _ _ M8 B8') as M8b. clear M8.
  set (w3 := wide lprec lemin (w2 - cn)) in *.
  apply Rabs_le_inv in M8a. apply Rabs_le_inv in M8b. apply Rabs_le_inv in B8. apply Rabs_le_inv in B8'.
  destruct Hr as (Vr & Hr). destruct Hr as (Fr & Er).
  { apply Rle_lt_trans with (bp 1000); [|apply bpow_lt; lia]. apply rnd_abs; [lia|]. apply Rabs_le. lra. }
  pose proof (rnd_error w3) as M9. apply (step_err _ _ (6 * T + 9300)) in M9; [|apply Rabs_le; lra]. rewrite <- Er in M9.
  split; auto. split; auto. exists B. split; auto. split; auto. cbv zeta.
  match goal with |- Rabs ?z <= ?c + ?k * _ => change (Rabs z <= c + k * T) end. clearbody T.
  unfold exact_lik. rewrite log_gauss_sum.
  replace (rsum q (fun o => rsum n (fun i => rsum n (fun j => fval (y o i) * B i j * fval (y o j))))) with (rsum q (fun o => rsum n (fun i => fval (y o i) * xs o i))).
  2:{ apply rsum_ext. intros o _. apply rsum_ext. intros i _. unfold xs. rewrite <- rsum_scal_l. apply rsum_ext. intros; ring. }
  set (ae := rsum q (fun o => rsum n (fun i => fval (y o i) * xs o i))) in *. set (de := ln (det n S)) in *. fold ce.
  apply Rabs_le_inv in Es. apply Rabs_le_inv in Ea. apply Rabs_le_inv in M1. apply Rabs_le_inv in M9.
  clear - Es Ea M1 M9 M8a M7' M5a M4 M3 T0. apply Rabs_le. split; lra.
Qed.

(** ** Examples *)
(** the double nearest to the exact logarithm meets the contract *)
Definition best_log (x y : F) : Prop := y = of_R (rnd (ln (fval x))).
Lemma ln_range x : fvalid x -> ffin x -> 0 < fval x -> Rabs (ln (fval x)) <= bp 11.
Proof.
  intros V Fx P.
  assert (G : generic_format radix2 fexp64 (fval x)) by now apply fmt_fval.
  assert (L : bp (-1074) <= fval x). { apply (generic_format_ge_bpow radix2 fexp64 (-1074)); auto. intros e. unfold SpecFloat.fexp, SpecFloat.emin, fprec, femax. lia. }
  assert (U : fval x <= bp 1024). { pose proof (BinarySingleNaN.abs_B2R_lt_emax fprec femax (toB x V)) as H. rewrite toB_R in H. rewrite Rabs_pos_eq in H by lra. change femax with 1024%Z in H. lra. }
  assert (L2 : 0 < ln 2 <= 1). { split; [rewrite <- ln_1; apply ln_increasing; lra|]. pose proof (exp_ineq1_le (ln 2)) as E. rewrite exp_ln in E; lra. }
  assert (Q : forall k, ln (2 ^ k) = INR k * ln 2).
  { induction k; [cbn; rewrite ln_1; ring|]. rewrite S_INR. cbn [pow]. rewrite ln_mult by (try apply pow_lt; lra). rewrite IHk. ring. }
  rewrite (bp_pow 1024 : bp 1024 = _) in U. rewrite (bp_inv 1074 : bp (-1074) = _) in L. rewrite (bp_pow 11 : bp 11 = _).
  assert (U' : ln (fval x) <= ln (2 ^ 1024)). { destruct U as [U|U]; [left; now apply ln_increasing|rewrite U; lra]. }
  assert (L' : ln (/ 2 ^ 1074) <= ln (fval x)).
  { assert (0 < / 2 ^ 1074) by (apply Rinv_0_lt_compat, pow_lt; lra). destruct L as [L|L]; [left; now apply ln_increasing|rewrite <- L; lra]. }
  rewrite ln_Rinv in L' by (apply pow_lt; lra). rewrite Q in U', L'. rewrite INR_IZR_INZ in U', L'.
  change (IZR (Z.of_nat 1024)) with 1024 in U'. change (IZR (Z.of_nat 1074)) with 1074 in L'. apply Rabs_le. lra.
Qed.
Example C71_libm_example : libm_log best_log (/ 2 ^ 50).
Proof.
  intros x y -> V Fx P. pose proof (ln_range x V Fx P) as B.
  destruct (of_R_val (rnd (ln (fval x)))) as (A1 & A2).
  - apply generic_format_round; typeclasses eauto.
  - apply Rle_lt_trans with (bp 11); [apply rnd_abs; [lia|auto]|]. apply bpow_lt. lia.
  - split; [apply fofZe_valid|]. split; auto. rewrite A2. apply Rle_trans with (1 := rnd_error _).
    pose proof (Rabs_pos (ln (fval x))). pose proof uu_pos.
    assert (U : uu <= / 2 ^ 50) by (change uu with (bp (- Z.of_nat 53)); rewrite bp_inv; lra).
    assert (Z : e0 <= / 2 ^ 50). { pose proof e0_40. lra. }
    rewrite Rmult_plus_distr_l, Rmult_1_r, Rplus_comm. apply Rplus_le_compat; auto. apply Rmult_le_compat_r; lra.
Qed.

(** every sum has an evaluation *)
Fixpoint line (ts : list (bool * term)) : sumx :=
  match ts with
  | [] => Num f0
  | (b, TNum x) :: ts => if b then Minus (line ts) (Num x) else Plus (line ts) (Num x)
  | (b, TMul x y) :: ts => if b then Fnma x y (line ts) else Fma x y (line ts)
  end.
Lemma line_ok m ts : (length ts <= m)%nat -> sum_of m ts (feval (line ts)).
Proof.
  intros H. exists (line ts), [(false, TNum f0)]. split; [|split; [repeat constructor|split; [|reflexivity]]].
  - clear H. induction ts as [|[b [x|x y]] ts IH]; cbn [line app]; [constructor; constructor| |].
    + destruct b; cbn [terms]; (apply Permutation_trans with (2 := perm_skip _ IH); apply Permutation_sym, Permutation_cons_append).
    + destruct b; cbn [terms negb]; now apply perm_skip.
  - apply Nat.le_trans with (2 := H). clear H. induction ts as [|[b [x|x y]] ts IH]; cbn [line length]; [auto| |]; destruct b; cbn [ops]; lia.
Qed.
(** two samples with any kernel, two outputs, long double as on x86: all the conditions hold and a
    likelihood is computed *)
Definition ex_y (o i : nat) : F := match o, i with 0%nat, 0%nat => f1 | 0%nat, _ => fopp f1 | _, 0%nat => fhalf | _, _ => f0 end.
Example C71_example : forall p, In p [PExp f1; PMatern3 f1; PMatern5 f1; PArd [f1; fofZe 1 (-1)]] ->
  exists kf kq kvv A L x r,
  usual best_exp 4 2 f1 ex_noise p 2 ex_pts /\ kernel_values best_exp 4 f1 ex_noise p 2 ex_pts kf kq kvv /\
  built 4 kf 2 A L /\ (forall o i, (o < 2)%nat -> (i < 2)%nat -> dbl (2 ^ 200) (ex_y o i)) /\
  (forall o, (o < 2)%nat -> alpha_of 4 2 L (ex_y o) (x o)) /\ lik_of best_log 64 (-16445) 4 2 2 L ex_y x r.
Proof.
  intros p Hp. destruct (C70_example p Hp) as (HU & kf & kq & kvv & HK).
  pose proof (C70_factor _ _ _ _ _ _ _ _ _ _ _ 4 HU HK ltac:(simpl; lra)) as (_ & HL & _). destruct (HL ltac:(lia)) as (L & HLt).
  exists kf, kq, kvv, (kernel_full kf), L.
  set (z := fun o i => match i with
    | 0%nat => fdiv (feval (chain (ex_y o 0) [])) (L 0%nat 0%nat)
    | _ => fdiv (feval (chain (ex_y o 1) [(L 1%nat 0%nat, fdiv (feval (chain (ex_y o 0) [])) (L 0%nat 0%nat))])) (L 1%nat 1%nat) end).
  set (x1 := fun o => fdiv (feval (chain (z o 1%nat) [])) (L 1%nat 1%nat)).
  set (x := fun o i => match i with 0%nat => fdiv (feval (chain (z o 0%nat) [(L 1%nat 0%nat, x1 o)])) (L 0%nat 0%nat) | _ => x1 o end).
  set (lg := fun i => of_R (rnd (ln (fval (L i i))))).
  set (ts := map (fun i => (false, TNum (lg i))) (seq 0 2)).
  set (ta := flat_map (fun o => map (fun i => (false, TMul (ex_y o i) (x o i))) (seq 0 2)) (seq 0 2)).
  set (l2 := of_R (rnd (ln (fval (fmul ftwo fpi))))).
  set (v := wide 64 (-16445) (wide 64 (-16445) (fval (fmul (fopp fhalf) (feval (line ta))) - wide 64 (-16445) (1 / 2 * fval (fmul ftwo (feval (line ts)))))
     - fval (fmul (fmul fhalf (fofZ (Z.of_nat 2))) l2))).
  exists x, (of_R (rnd v)). split; auto. split; auto. split; [now apply built_full|]. split; [|split].
  - assert (E1 : fval f1 = 1) by (cbv -[IZR F2R bpow]; unfold F2R; simpl; lra). destruct half_val as (Vh & Fh & Eh). destruct f0_ok as (_ & _ & Z0).
    intros o i Ho Hi. split; [destruct o, i; reflexivity|]. split; [destruct o, i; reflexivity|].
    assert (1 <= 2 ^ 200) by (apply pow_R1_Rle; lra).
    destruct o, i; cbn [ex_y]; rewrite ?fopp_val, ?E1, ?Eh, ?Z0; apply Rabs_le; lra.
  - intros o Ho. exists (z o). split; intros i Hi; destruct i as [|[|i]]; try lia; eexists; (split; [apply chain_ok; rewrite ?prods_length; lia|left; reflexivity]).
  - exists (feval (line ts)), (feval (line ta)), l2. split; [|split; [|split]].
    + exists lg. split; [intros i _; reflexivity|]. apply line_ok. cbn. lia.
    + apply line_ok. cbn. lia.
    + reflexivity.
    + cbv zeta. fold v. split; [apply fofZe_valid|]. intros H. apply of_R_val; auto. apply generic_format_round; typeclasses eauto.
Qed.
