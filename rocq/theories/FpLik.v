(** Facts for C71: pivots of close matrices, the quadratic form, pi. *)
From Coq Require Import ZArith List Bool Lia Permutation Reals Lra Machin.
From Coq Require Import Floats.SpecFloat.
From Flocq Require Import Core.
From Verif Require Import F64 F64R AdamFloat OptFloat FpModel FpErr LinAlgModel LinAlg FpAlg FpChol FpSolve FpGp FpFin.
Import ListNotations.
Open Scope R_scope.

(** ** the pivots *)
Lemma pivot_le n L1 L2 c : lower n L1 -> lower n L2 ->
  (forall x, quad n (fun i j => rsum n (fun k => L1 i k * L1 j k)) x <= c * quad n (fun i j => rsum n (fun k => L2 i k * L2 j k)) x) ->
  forall k, (k < n)%nat -> L1 k k * L1 k k <= c * (L2 k k * L2 k k).
Proof.
  intros [Z1 P1] [Z2 P2] H k Hk.
  assert (Lk : lower (S k) L2) by (split; [intros i j Hi Hj; apply Z2; lia|intros i Hi; apply P2; lia]).
  set (b := fun i => if (i =? k)%nat then L2 k k else 0).
  pose proof (bwd_solves (S k) L2 b Lk) as S. set (x0 := bwd (Datatypes.S k) L2 b) in *.
  assert (X1 : x0 k = 1).
  { pose proof (S k ltac:(lia)) as E. cbn [rsum] in E. unfold b in E. rewrite Nat.eqb_refl in E.
    rewrite rsum_0 in E by (intros i Hi; rewrite Z2 by lia; ring). pose proof (P2 k Hk).
    apply Rmult_eq_reg_l with (L2 k k); lra. }
  set (x := fun i => if (i <=? k)%nat then x0 i else 0).
  assert (T : forall M c, (c < n)%nat -> rsum n (fun p => M p c * x p) = rsum (Datatypes.S k) (fun p => M p c * x0 p)).
  { intros M q Hq. rewrite (rsum_trunc n (Datatypes.S k)) by (try lia; intros i Hi; unfold x; rewrite (proj2 (Nat.leb_gt i k)) by lia; ring).
    apply rsum_ext. intros i Hi. unfold x. now rewrite (proj2 (Nat.leb_le i k)) by lia. }
  specialize (H x). rewrite !quad_gram in H.
  assert (E2 : rsum n (fun q => rsum n (fun p => L2 p q * x p) * rsum n (fun p => L2 p q * x p)) = L2 k k * L2 k k).
  { rewrite (rsum_ext n _ (fun q => if (q =? k)%nat then L2 k k * L2 k k else 0)); [now apply (rsum_delta n k (fun _ => L2 k k * L2 k k))|].
    intros q Hq. rewrite T by auto. destruct (Nat.le_gt_cases q k) as [Hqk|Hqk].
    - rewrite (S q) by lia. unfold b. destruct (q =? k)%nat; ring.
    - rewrite (proj2 (Nat.eqb_neq q k)) by lia. rewrite (rsum_0 (Datatypes.S k)); [ring|]. intros i Hi. rewrite Z2 by lia. ring. }
  rewrite E2 in H. apply Rle_trans with (2 := H).
  set (f := fun q => rsum n (fun p => L1 p q * x p) * rsum n (fun p => L1 p q * x p)).
  assert (Ek : f k = L1 k k * L1 k k).
  { unfold f. rewrite T by auto. cbn [rsum]. rewrite rsum_0 by (intros i Hi; rewrite Z1 by lia; ring). rewrite X1. ring. }
  rewrite <- Ek. rewrite <- (rsum_delta n k f Hk). apply rsum_le. intros q Hq. destruct (q =? k)%nat; [lra|]. unfold f. nra.
Qed.

Lemma ln_ratio a b e : 0 < a -> 0 < b -> 0 <= e < 1 -> a <= (1 + e) * b -> (1 - e) * b <= a -> Rabs (ln a - ln b) <= e / (1 - e).
Proof.
  intros Ha Hb He H1 H2.
  assert (L1 : forall t, 0 < t -> ln t <= t - 1).
  { intros t Ht. pose proof (exp_ineq1_le (ln t)) as E. rewrite exp_ln in E by auto. lra. }
  assert (Q : e <= e / (1 - e)).
  { apply Rmult_le_reg_r with (1 - e); [lra|]. replace (e / (1 - e) * (1 - e)) with e by (field; lra). nra. }
  apply Rabs_le. split.
  - assert (ln (b / a) <= b / a - 1) by (apply L1, Rdiv_lt_0_compat; auto).
    unfold Rdiv in H at 1. rewrite ln_mult, ln_Rinv in H by (auto using Rinv_0_lt_compat).
    assert (b / a <= 1 / (1 - e)).
    { apply Rmult_le_reg_r with (a * (1 - e)); [apply Rmult_lt_0_compat; lra|].
      replace (b / a * (a * (1 - e))) with ((1 - e) * b) by (field; lra). replace (1 / (1 - e) * (a * (1 - e))) with a by (field; lra). lra. }
    assert (1 / (1 - e) - 1 = e / (1 - e)) by (field; lra). lra.
  - assert (ln (a / b) <= a / b - 1) by (apply L1, Rdiv_lt_0_compat; auto).
    unfold Rdiv in H at 1. rewrite ln_mult, ln_Rinv in H by (auto using Rinv_0_lt_compat).
    assert (a / b <= 1 + e).
    { apply Rmult_le_reg_r with b; auto. replace (a / b * b) with a by (field; lra). lra. }
    lra.
Qed.

(** the logarithms of the diagonals of the factors of two matrices that are close *)
Lemma logdet_close n L1 L2 S lam d : lower n L1 -> is_chol n L2 S -> 0 < lam -> eig_min n S lam -> 0 <= d -> INR n * d < lam ->
  (forall i j, (i < n)%nat -> (j < n)%nat -> Rabs (rsum n (fun k => L1 i k * L1 j k) - S i j) <= d) ->
  let e := INR n * d / lam in
  forall k, (k < n)%nat -> Rabs (2 * ln (L1 k k) - 2 * ln (L2 k k)) <= e / (1 - e).
Proof.
  intros H1 [H2 H2f] Hl Heig Hd Hnd Hc e k Hk. pose proof (pos_INR n) as N0.
  assert (E : 0 <= e < 1).
  { unfold e, Rdiv. split; [apply Rmult_le_pos; [apply Rmult_le_pos; lra|left; now apply Rinv_0_lt_compat]|].
    apply Rmult_lt_reg_r with lam; auto. rewrite Rmult_assoc, Rinv_l, Rmult_1_r by lra. lra. }
  set (M1 := fun i j => rsum n (fun k => L1 i k * L1 j k)). set (M2 := fun i j => rsum n (fun k => L2 i k * L2 j k)).
  assert (QS : forall x, quad n M2 x = quad n S x).
  { intros x. apply quad_ext; [|intros q Hq; reflexivity]. intros i j Hi Hj. now apply H2f. }
  assert (Q : forall x, Rabs (quad n M1 x - quad n S x) <= e * quad n S x).
  { intros x. rewrite quad_sub. apply Rle_trans with (1 := quad_abs n _ x d Hc Hd).
    apply Rle_trans with (INR n * d / lam * (lam * ssq n x)).
    - right. field. lra.
    - apply Rmult_le_compat_l; [apply E|apply Heig]. }
  assert (P : L1 k k * L1 k k <= (1 + e) * (L2 k k * L2 k k)).
  { apply (pivot_le n L1 L2 (1 + e) H1 H2); auto. intros x. change (quad n M1 x <= (1 + e) * quad n M2 x). rewrite QS.
    specialize (Q x). apply Rabs_le_inv in Q. lra. }
  assert (P' : L2 k k * L2 k k <= / (1 - e) * (L1 k k * L1 k k)).
  { apply (pivot_le n L2 L1 (/ (1 - e)) H2 H1); auto. intros x. change (quad n M2 x <= / (1 - e) * quad n M1 x). rewrite QS.
    specialize (Q x). apply Rabs_le_inv in Q. apply Rmult_le_reg_l with (1 - e); [lra|]. rewrite <- Rmult_assoc, Rinv_r by lra. lra. }
  destruct H1 as [_ D1]. destruct H2 as [_ D2]. specialize (D1 k Hk). specialize (D2 k Hk).
  replace (2 * ln (L1 k k)) with (ln (L1 k k * L1 k k)) by (rewrite ln_mult by auto; ring).
  replace (2 * ln (L2 k k)) with (ln (L2 k k * L2 k k)) by (rewrite ln_mult by auto; ring).
  apply ln_ratio; auto; try (now apply Rmult_lt_0_compat).
  apply Rmult_le_reg_l with (/ (1 - e)); [apply Rinv_0_lt_compat; lra|]. rewrite <- Rmult_assoc, Rinv_l by lra. lra.
Qed.

(** ** the quadratic form *)
Lemma quad_form_err n S xs x y res : symm n S -> (forall i, (i < n)%nat -> mvec n S xs i = y i) ->
  (forall i, (i < n)%nat -> Rabs (y i - mvec n S x i) <= res) ->
  Rabs (rsum n (fun i => y i * x i) - rsum n (fun i => y i * xs i)) <= res * rsum n (fun i => Rabs (xs i)).
Proof.
  intros Hs Hy Hr.
  assert (E : rsum n (fun i => y i * x i) = rsum n (fun i => xs i * mvec n S x i)).
  { rewrite (rsum_ext n (fun i => y i * x i) (fun i => mvec n S xs i * x i)) by (intros i Hi; now rewrite Hy).
    unfold mvec. rewrite (rsum_ext n _ (fun i => rsum n (fun j => S i j * xs j * x i))) by (intros; now rewrite rsum_scal_r).
    rewrite rsum_swap. apply rsum_ext. intros j Hj. rewrite <- rsum_scal_l. apply rsum_ext. intros i Hi. rewrite (Hs i j) by auto. ring. }
  rewrite E, <- rsum_minus. apply Rle_trans with (1 := rsum_abs _ _). rewrite <- rsum_scal_l. apply rsum_le. intros i Hi.
  replace (xs i * mvec n S x i - y i * xs i) with (- ((y i - mvec n S x i) * xs i)) by ring.
  rewrite Rabs_Ropp, Rabs_mult. apply Rmult_le_compat_r; [apply Rabs_pos|auto].
Qed.

(** ** pi *)
Lemma pi_bounds : 31415926535 / 10 ^ 10 <= PI <= 31415926536 / 10 ^ 10.
Proof.
  pose proof (PI_2_3_7_ineq 5) as [A B]. change (S (2 * 5))%nat with 11%nat in A. change (2 * 5)%nat with 10%nat in B.
  unfold sum_f_R0, tg_alt, PI_2_3_7_tg, Ratan_seq in A, B. cbn [Nat.mul Nat.add INR pow] in A, B.
  split; lra.
Qed.
