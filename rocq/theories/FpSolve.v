(** Rounding error analysis of the triangular solves, of the mean and of the variance (FpModel.v). *)
From Coq Require Import ZArith List Bool Lia Permutation Reals Lra.
From Coq Require Import Floats.SpecFloat.
From Flocq Require Import Core.
From Verif Require Import F64 F64R AdamFloat OptFloat FpModel FpErr LinAlgModel LinAlg FpAlg FpChol.
Import ListNotations.
Open Scope R_scope.

(** ** finite sums have finite terms *)
Lemma feval_tfin s : forall b, Forall tvalid (terms b s) -> ffin (feval s) -> Forall tfin (terms b s).
Proof.
  induction s; intros d V H; simpl in *.
  - constructor; auto.
  - destruct (tvalid_mul _ _ _ _ V) as (Va & Vb & _). destruct (fmul_fin a b Va Vb H) as (? & ? & _). constructor; auto. split; auto.
  - apply Forall_app in V. destruct V as [V1 V2]. destruct (fadd_fin _ _ (feval_valid _ _ V1) (feval_valid _ _ V2) H) as (? & ? & _). apply Forall_app. auto.
  - apply Forall_app in V. destruct V as [V1 V2]. destruct (fsub_fin _ _ (feval_valid _ _ V1) (feval_valid _ _ V2) H) as (? & ? & _). apply Forall_app. auto.
  - destruct (tvalid_mul _ _ _ _ V) as (Va & Vb & V1). destruct (ffma_fin a b _ Va Vb (feval_valid _ _ V1) H) as (? & ? & ? & _). constructor; auto. split; auto.
  - destruct (tvalid_mul _ _ _ _ V) as (Va & Vb & V1). destruct (ffma_fin (fopp a) b _ (fopp_valid _ Va) Vb (feval_valid _ _ V1) H) as (? & ? & ? & _). constructor; auto. split; auto using opp_fin.
Qed.
Lemma sum_of_tfin m ts r : Forall tvalid ts -> sum_of m ts r -> ffin r -> Forall tfin ts.
Proof.
  intros V (s & zs & P & Z & O & ->) Hf. destruct (zeros_sum zs Z) as (_ & _ & Z3 & _).
  assert (T : Forall tfin (ts ++ zs)).
  { eapply Permutation_Forall; [exact P|]. apply feval_tfin; auto. eapply Permutation_Forall; [apply Permutation_sym; exact P|]. apply Forall_app. auto. }
  apply Forall_app in T. apply T.
Qed.
Lemma minus_dot_cfin m c from len f g r : fvalid c -> (forall k, (from <= k < from + len)%nat -> fvalid (f k) /\ fvalid (g k)) ->
  minus_dot m c (prods from len f g) r -> ffin r -> ffin c.
Proof.
  intros Vc V H Hf.
  assert (T : Forall tfin ((false, TNum c) :: map (fun p => (true, TMul (fst p) (snd p))) (prods from len f g))).
  { eapply sum_of_tfin; [|exact H|exact Hf]. constructor; [exact Vc|now apply (terms_ok fvalid)]. }
  now inversion T.
Qed.

(** ** two triangular systems, in real numbers *)
Lemma two_solves n l y z x g t q : 0 <= g <= / 100 -> 0 <= t ->
  (forall i, (i < n)%nat -> ssq n (l i) <= q) ->
  (forall i, (i < n)%nat -> Rabs (y i - rsum n (fun j => l i j * z j)) <= g * rsum n (fun j => Rabs (l i j * z j)) + t) ->
  (forall j, (j < n)%nat -> Rabs (z j - rsum n (fun k => l k j * x k)) <= g * rsum n (fun k => Rabs (l k j * x k)) + t) ->
  forall i, (i < n)%nat ->
  Rabs (y i - rsum n (fun k => rsum n (fun j => l i j * l k j) * x k))
  <= 201 / 100 * g * (q * rsum n (fun k => Rabs (x k))) + t * (INR n + q + 1).
Proof.
  intros Hg Ht Hq H1 H2 i Hi.
  set (V := fun j => rsum n (fun k => Rabs (l k j * x k))).
  assert (V0 : forall j, 0 <= V j) by (intros; apply rsum_nonneg; intros; apply Rabs_pos).
  assert (E : y i - rsum n (fun k => rsum n (fun j => l i j * l k j) * x k)
    = (y i - rsum n (fun j => l i j * z j)) + rsum n (fun j => l i j * (z j - rsum n (fun k => l k j * x k)))).
  { assert (E1 : rsum n (fun k => rsum n (fun j => l i j * l k j) * x k) = rsum n (fun j => l i j * rsum n (fun k => l k j * x k))).
    { transitivity (rsum n (fun k => rsum n (fun j => l i j * l k j * x k))).
      - apply rsum_ext. intros k _. now rewrite rsum_scal_r.
      - rewrite rsum_swap. apply rsum_ext. intros j _. rewrite <- rsum_scal_l. apply rsum_ext. intros. ring. }
    rewrite E1. rewrite (rsum_ext n (fun j => l i j * (z j - rsum n (fun k => l k j * x k))) (fun j => l i j * z j - l i j * rsum n (fun k => l k j * x k))) by (intros; ring).
    rewrite rsum_minus. ring. }
  assert (LV : rsum n (fun j => Rabs (l i j) * V j) <= q * rsum n (fun k => Rabs (x k))).
  { unfold V. apply Rle_trans with (rsum n (fun k => rsum n (fun j => Rabs (l i j * l k j)) * Rabs (x k))).
    - right. transitivity (rsum n (fun j => rsum n (fun k => Rabs (l i j * l k j) * Rabs (x k)))).
      + apply rsum_ext. intros j _. rewrite <- rsum_scal_l. apply rsum_ext. intros k _. rewrite !Rabs_mult. ring.
      + rewrite rsum_swap. apply rsum_ext. intros k _. now rewrite rsum_scal_r.
    - rewrite <- rsum_scal_l. apply rsum_le. intros k Hk. apply Rmult_le_compat_r; [apply Rabs_pos|].
      apply Rle_trans with (1 := amgm n (l i) (l k)). pose proof (Hq i Hi). pose proof (Hq k Hk). lra. }
  assert (L1 : rsum n (fun j => Rabs (l i j)) <= (INR n + q) / 2).
  { apply Rle_trans with (rsum n (fun j => Rabs (l i j * 1))); [right; apply rsum_ext; intros; now rewrite Rmult_1_r|].
    apply Rle_trans with (1 := amgm n (l i) (fun _ => 1)). unfold ssq at 2. rewrite Rmult_1_r, rsum_const. pose proof (Hq i Hi). lra. }
  assert (L0 : 0 <= rsum n (fun j => Rabs (l i j))) by (apply rsum_nonneg; intros; apply Rabs_pos).
  assert (LV0 : 0 <= rsum n (fun j => Rabs (l i j) * V j)) by (apply rsum_nonneg; intros; apply Rmult_le_pos; [apply Rabs_pos|auto]).
  assert (Z : forall j, (j < n)%nat -> Rabs (z j) <= (1 + g) * V j + t).
  { intros j Hj. specialize (H2 j Hj). change (rsum n (fun k => Rabs (l k j * x k))) with (V j) in H2.
    replace (z j) with ((z j - rsum n (fun k => l k j * x k)) + rsum n (fun k => l k j * x k)) by ring.
    pose proof (Rabs_triang (z j - rsum n (fun k => l k j * x k)) (rsum n (fun k => l k j * x k))).
    pose proof (rsum_abs n (fun k => l k j * x k)) as A. cbv beta in A. change (rsum n (fun k => Rabs (l k j * x k))) with (V j) in A. lra. }
  assert (S1 : rsum n (fun j => Rabs (l i j * z j)) <= (1 + g) * rsum n (fun j => Rabs (l i j) * V j) + t * rsum n (fun j => Rabs (l i j))).
  { rewrite <- !rsum_scal_l, <- rsum_plus. apply rsum_le. intros j Hj. rewrite Rabs_mult. specialize (Z j Hj).
    apply Rle_trans with (Rabs (l i j) * ((1 + g) * V j + t)); [apply Rmult_le_compat_l; [apply Rabs_pos|exact Z]|right; ring]. }
  assert (S2 : Rabs (rsum n (fun j => l i j * (z j - rsum n (fun k => l k j * x k)))) <= g * rsum n (fun j => Rabs (l i j) * V j) + t * rsum n (fun j => Rabs (l i j))).
  { apply Rle_trans with (1 := rsum_abs _ _). rewrite <- !rsum_scal_l, <- rsum_plus. apply rsum_le. intros j Hj. rewrite Rabs_mult.
    specialize (H2 j Hj). change (rsum n (fun k => Rabs (l k j * x k))) with (V j) in H2.
    apply Rle_trans with (Rabs (l i j) * (g * V j + t)); [apply Rmult_le_compat_l; [apply Rabs_pos|exact H2]|right; ring]. }
  specialize (H1 i Hi).
  assert (S3 : g * rsum n (fun j => Rabs (l i j * z j)) <= g * ((1 + g) * rsum n (fun j => Rabs (l i j) * V j) + t * rsum n (fun j => Rabs (l i j)))) by (apply Rmult_le_compat_l; lra).
  rewrite E. apply Rle_trans with (1 := Rabs_triang _ _).
  set (X := rsum n (fun j => Rabs (l i j) * V j)) in *. set (Y := rsum n (fun j => Rabs (l i j))) in *. set (Q := q * rsum n (fun k => Rabs (x k))) in *.
  assert (T0 : t * Y <= t * ((INR n + q) / 2)) by (apply Rmult_le_compat_l; lra).
  assert (T1 : g * (t * Y) <= / 100 * (t * ((INR n + q) / 2))) by (apply Rmult_le_compat; nra).
  assert (T2 : g * (g * X) <= / 100 * (g * X)) by (apply Rmult_le_compat_r; nra).
  assert (T3 : g * X <= g * Q) by (apply Rmult_le_compat_l; lra).
  nra.
Qed.

(** forward error of the solution of a system from its residual *)
Lemma forward n A lam x xs res : 0 < lam -> eig_min n A lam -> 0 <= res ->
  (forall i, (i < n)%nat -> Rabs (mvec n A xs i - mvec n A x i) <= res) ->
  rsum n (fun i => Rabs (x i - xs i)) <= INR n * res / lam.
Proof.
  intros Hl He Hr H.
  set (d := fun i => x i - xs i). set (N := rsum n (fun i => Rabs (d i))).
  assert (N0 : 0 <= N) by (apply rsum_nonneg; intros; apply Rabs_pos).
  assert (Q : quad n A d <= res * N).
  { rewrite quad_mvec. apply Rle_trans with (1 := Rle_abs _). apply Rle_trans with (1 := rsum_abs _ _).
    unfold N. rewrite <- rsum_scal_l. apply rsum_le. intros i Hi. rewrite Rabs_mult, Rmult_comm. apply Rmult_le_compat_r; [apply Rabs_pos|].
    replace (mvec n A d i) with (- (mvec n A xs i - mvec n A x i)).
    - rewrite Rabs_Ropp. now apply H.
    - unfold mvec, d. rewrite <- rsum_minus, <- rsum_opp. apply rsum_ext. intros. ring. }
  assert (C : N * N <= INR n * ssq n d).
  { unfold N. rewrite rsum_mul. apply abs_sum_sq. }
  specialize (He d). pose proof (pos_INR n) as Pn.
  assert (G : lam * (N * N) <= INR n * (res * N)).
  { apply Rle_trans with (lam * (INR n * ssq n d)); [apply Rmult_le_compat_l; lra|].
    replace (lam * (INR n * ssq n d)) with (INR n * (lam * ssq n d)) by ring. apply Rmult_le_compat_l; lra. }
  change (N <= INR n * res / lam). destruct (Req_dec N 0) as [EN|NN]; [rewrite EN|].
  - apply Rmult_le_pos; [apply Rmult_le_pos; auto|left; now apply Rinv_0_lt_compat].
  - apply Rmult_le_reg_r with lam; auto. unfold Rdiv. rewrite Rmult_assoc, Rinv_l, Rmult_1_r by lra.
    apply Rmult_le_reg_r with N; [lra|]. lra.
Qed.

(** ** one row of a triangular system *)
Definition rho (m : nat) : R := 2 * (INR m * uu) + 5 * uu.
Definition tau (D : R) : R := e0 * (bp 50 + 3 * D).

Lemma rho_small m : small m -> 0 <= rho m <= / 4000.
Proof. intros H. unfold rho. pose proof (small_uu' m H). pose proof uu_small. lra. Qed.

Lemma solve_row m D b from len f g s d y : small m -> 0 <= D -> fvalid b ->
  (forall k, (from <= k < from + len)%nat -> fvalid (f k) /\ fvalid (g k)) ->
  minus_dot m b (prods from len f g) s -> mid d -> fval d <= 1 + 201 / 100 * D -> quot s d y -> ffin y ->
  fvalid y /\ ffin b /\
  Rabs (fval b - rdot from len f g - fval y * fval d)
  <= 3 * rho m * (adot from len f g + Rabs (fval y * fval d)) + 2 * tau D.
Proof.
  intros Hm HD Vb Vk Hs Md Bd Hq Hf.
  pose proof (dot_valid m true b from len f g s Vb Vk Hs) as Vs.
  destruct (quot_err s d y Vs Md Hq Hf) as (Fs & Eq).
  split; [eapply quot_valid; [exact Vs|apply Md|exact Hq]|].
  split; [eapply minus_dot_cfin; eauto|].
  pose proof (dot_error m true b from len f g s Hm Vb Vk Hs Fs) as E. cbv iota in E.
  destruct (mid_e0 d Md) as [Pd _]. pose proof (small_uu' m Hm) as Mu. pose proof uu_small as U. pose proof e0_pos as E0.
  pose proof (rho_small m Hm) as Rs.
  set (W := adot from len f g) in *. assert (W0 : 0 <= W) by (apply rsum_nonneg; intros; apply Rabs_pos).
  set (T := Rabs (fval b) + W) in *. assert (T0 : 0 <= T) by (unfold T; pose proof (Rabs_pos (fval b)); lra).
  set (q := rdot from len f g) in *. assert (Q0 : Rabs q <= W) by apply rsum_abs.
  assert (S0 : Rabs (fval s) <= T + (2 * INR m * uu * T + 2 * INR m * e0)).
  { replace (fval s) with ((fval s - (fval b + -1 * q)) + (fval b + - q)) by ring.
    apply Rle_trans with (1 := Rabs_triang _ _). pose proof (Rabs_triang (fval b) (- q)) as A. rewrite Rabs_Ropp in A. unfold T in *. lra. }
  set (r := fval b - q - fval y * fval d).
  assert (R1 : Rabs r <= rho m * T + tau D).
  { unfold r. replace (fval b - q - fval y * fval d) with (- (fval s - (fval b + -1 * q)) - (fval y * fval d - fval s)) by ring.
    apply Rle_trans with (1 := Rabs_triang _ _). rewrite !Rabs_Ropp.
    assert (B1 : 4 * uu * Rabs (fval s) <= 4 * uu * (T + (2 * INR m * uu * T + 2 * INR m * e0))) by (apply Rmult_le_compat_l; lra).
    assert (B2 : uu * (INR m * uu * T) <= uu * (/ 8192 * T)) by (apply Rmult_le_compat_l; [lra|]; apply Rmult_le_compat_r; lra).
    assert (B3 : e0 * fval d <= e0 * (1 + 201 / 100 * D)) by (apply Rmult_le_compat_l; lra).
    assert (Mb : INR m <= bp 40) by (unfold small in Hm; rewrite bpow_pos_IZR in Hm by lia; exact Hm).
    assert (M50 : bp 50 = 1024 * bp 40) by (change 1024 with (bp 10); rewrite <- bpow_plus; reflexivity).
    assert (M1 : 1 <= bp 40) by (change 1 with (bp 0); apply bp_le; lia).
    assert (B4 : e0 * INR m <= e0 * bp 40) by (apply Rmult_le_compat_l; lra).
    assert (B5 : uu * (e0 * INR m) <= 1 * (e0 * bp 40)).
    { pose proof (pos_INR m). apply Rmult_le_compat; try lra. apply Rmult_le_pos; lra. }
    assert (B6 : e0 * 1 <= e0 * bp 40) by (apply Rmult_le_compat_l; lra).
    assert (B7 : 0 <= e0 * D) by (apply Rmult_le_pos; lra).
    assert (B8 : 0 <= uu * T) by (apply Rmult_le_pos; lra).
    unfold rho, tau. rewrite M50. lra. }
  assert (R2 : Rabs (fval b) <= Rabs r + W + Rabs (fval y * fval d)).
  { replace (fval b) with (r + (q + fval y * fval d)) by (unfold r; ring). apply Rle_trans with (1 := Rabs_triang _ _).
    pose proof (Rabs_triang q (fval y * fval d)). lra. }
  set (P := Rabs (fval y * fval d)) in *. assert (P0 : 0 <= P) by apply Rabs_pos.
  assert (R3 : rho m * T <= rho m * (Rabs r + 2 * (W + P))) by (apply Rmult_le_compat_l; [lra|]; unfold T; lra).
  assert (R4 : rho m * Rabs r <= / 4000 * Rabs r) by (apply Rmult_le_compat_r; [apply Rabs_pos|lra]).
  assert (T1 : 0 <= tau D). { unfold tau. pose proof (bp_pos 50). apply Rmult_le_pos; lra. }
  assert (X0 : 0 <= rho m * (W + P)) by (apply Rmult_le_pos; lra).
  replace (3 * rho m * (W + P)) with (3 * (rho m * (W + P))) by ring. lra.
Qed.

Section Solve.
  Variables (m n : nat) (L : fmat) (D : R).
  Hypothesis Hm : small m.
  Hypothesis HD : 0 <= D.
  Hypothesis Hmid : forall j, (j < n)%nat -> mid (L j j).
  Hypothesis Hval : forall i j, (i < n)%nat -> (j <= i)%nat -> fvalid (L i j).
  Hypothesis Hrow : forall i, (i < n)%nat -> ssq n (lw L i) <= 101 / 100 * D.

  Lemma diag_bound i : (i < n)%nat -> fval (L i i) <= 1 + 201 / 100 * D.
  Proof.
    intros Hi. destruct (mid_e0 _ (Hmid i Hi)) as [P _]. specialize (Hrow i Hi).
    assert (fval (L i i) * fval (L i i) <= ssq n (lw L i)).
    { rewrite <- (lw_low L i i) by lia. unfold ssq. rewrite <- (rsum_delta n i (fun c => lw L i c * lw L i c) Hi).
      apply rsum_le. intros c _. destruct (c =? i)%nat; nra. }
    nra.
  Qed.

  Lemma row_sum i f : (i < n)%nat -> (forall c, (i < c)%nat -> f c = 0) -> rsum n f = rsum i f + f i.
  Proof. intros Hi H. change (rsum i f + f i) with (rsum (S i) f). apply rsum_trunc; [lia|]. intros. apply H. lia. Qed.

  Lemma fsolve_res y z : (forall i, (i < n)%nat -> fvalid (y i)) -> (forall i, (i < n)%nat -> ffin (z i)) -> fsolve m n L y z ->
    forall i, (i < n)%nat -> fvalid (z i) /\ ffin (y i) /\
      Rabs (fval (y i) - rsum n (fun j => lw L i j * fval (z j))) <= 3 * rho m * rsum n (fun j => Rabs (lw L i j * fval (z j))) + 2 * tau D.
  Proof.
    intros Vy Fz Hs i. induction i as [i IH] using lt_wf_ind. intros Hi.
    destruct (Hs i Hi) as (s & H1 & H2).
    assert (Vk : forall k, (0 <= k < 0 + i)%nat -> fvalid (L i k) /\ fvalid (z k)).
    { intros k Hk. split; [apply Hval; lia|]. apply IH; lia. }
    destruct (solve_row m D (y i) 0 i (L i) z s (L i i) (z i) Hm HD (Vy i Hi) Vk H1 (Hmid i Hi) (diag_bound i Hi) H2 (Fz i Hi)) as (V & Fy & E).
    split; auto. split; auto.
    rewrite (row_sum i) by (auto; intros c Hc; rewrite lw_up by lia; ring).
    rewrite (row_sum i (fun j => Rabs _)) by (auto; intros c Hc; rewrite lw_up by lia; rewrite Rmult_0_l; apply Rabs_R0).
    rewrite lw_low by lia.
    assert (E1 : rdot 0 i (L i) z = rsum i (fun j => lw L i j * fval (z j))) by (apply rsum_ext; intros c Hc; rewrite lw_low by lia; reflexivity).
    assert (E2 : adot 0 i (L i) z = rsum i (fun j => Rabs (lw L i j * fval (z j)))) by (apply rsum_ext; intros c Hc; rewrite lw_low by lia; reflexivity).
    rewrite E1, E2 in E. rewrite (Rmult_comm (fval (L i i))).
    replace (fval (y i) - (rsum i (fun j => lw L i j * fval (z j)) + fval (z i) * fval (L i i))) with (fval (y i) - rsum i (fun j => lw L i j * fval (z j)) - fval (z i) * fval (L i i)) by ring.
    exact E.
  Qed.

  Lemma col_sum i f : (i < n)%nat -> (forall k, (k < i)%nat -> f k = 0) -> rsum n f = f i + rsum (n - S i) (fun k => f (S i + k)%nat).
  Proof.
    intros Hi H. replace n with (S i + (n - S i))%nat at 1 by lia. rewrite rsum_split. f_equal. simpl. rewrite rsum_0; [ring|auto].
  Qed.

  Lemma bsolve_res_from i0 z x : (forall i, (i < n)%nat -> fvalid (z i)) -> (forall i, (i0 <= i < n)%nat -> ffin (x i)) -> bsolve m n L z x ->
    forall i, (i0 <= i < n)%nat -> fvalid (x i) /\ ffin (z i) /\
      Rabs (fval (z i) - rsum n (fun k => lw L k i * fval (x k))) <= 3 * rho m * rsum n (fun k => Rabs (lw L k i * fval (x k))) + 2 * tau D.
  Proof.
    intros Vz Fx Hs.
    assert (G : forall c i, (i0 <= i < n)%nat -> (n - 1 - i = c)%nat -> fvalid (x i) /\ ffin (z i) /\
      Rabs (fval (z i) - rsum n (fun k => lw L k i * fval (x k))) <= 3 * rho m * rsum n (fun k => Rabs (lw L k i * fval (x k))) + 2 * tau D).
    { intros c. induction c as [c IH] using lt_wf_ind. intros i Hi Hc.
      destruct (Hs i ltac:(lia)) as (s & H1 & H2).
      assert (Vk : forall k, (S i <= k < S i + (n - S i))%nat -> fvalid (L k i) /\ fvalid (x k)).
      { intros k Hk. split; [apply Hval; lia|]. apply (IH (n - 1 - k)%nat); lia. }
      destruct (solve_row m D (z i) (S i) (n - S i) (fun k => L k i) x s (L i i) (x i) Hm HD (Vz i ltac:(lia)) Vk H1 (Hmid i ltac:(lia)) (diag_bound i ltac:(lia)) H2 (Fx i Hi)) as (V & Fy & E).
      split; auto. split; auto.
      rewrite (col_sum i) by (try lia; intros k Hk; rewrite lw_up by lia; ring).
      rewrite (col_sum i (fun k => Rabs _)) by (try lia; intros k Hk; rewrite lw_up by lia; rewrite Rmult_0_l; apply Rabs_R0).
      rewrite lw_low by lia.
      assert (E1 : rdot (S i) (n - S i) (fun k => L k i) x = rsum (n - S i) (fun k => lw L (S i + k) i * fval (x (S i + k)%nat))) by (apply rsum_ext; intros k Hk; rewrite lw_low by lia; reflexivity).
      assert (E2 : adot (S i) (n - S i) (fun k => L k i) x = rsum (n - S i) (fun k => Rabs (lw L (S i + k) i * fval (x (S i + k)%nat)))) by (apply rsum_ext; intros k Hk; rewrite lw_low by lia; reflexivity).
      rewrite E1, E2 in E. rewrite (Rmult_comm (fval (L i i))).
      match goal with |- Rabs ?u <= _ * ?v + _ => match type of E with Rabs ?u' <= _ * ?v' + _ => replace u with u' by ring; replace v with v' by ring end end.
      exact E. }
    intros i Hi. now apply (G (n - 1 - i)%nat).
  Qed.
  Lemma bsolve_res z x : (forall i, (i < n)%nat -> fvalid (z i)) -> (forall i, (i < n)%nat -> ffin (x i)) -> bsolve m n L z x ->
    forall i, (i < n)%nat -> fvalid (x i) /\ ffin (z i) /\
      Rabs (fval (z i) - rsum n (fun k => lw L k i * fval (x k))) <= 3 * rho m * rsum n (fun k => Rabs (lw L k i * fval (x k))) + 2 * tau D.
  Proof. intros Vz Fx Hs i Hi. apply (bsolve_res_from 0 z x); auto; [|lia]. intros k Hk. apply Fx. lia. Qed.

  (** the residual of [alpha], for the product of the factors *)
  Lemma alpha_res y x : (forall i, (i < n)%nat -> fvalid (y i)) -> (forall i, (i < n)%nat -> ffin (x i)) -> alpha_of m n L y x ->
    forall i, (i < n)%nat -> fvalid (x i) /\ ffin (y i) /\
      Rabs (fval (y i) - rsum n (fun k => rsum n (fun j => lw L i j * lw L k j) * fval (x k)))
      <= 2 * kap m D * rsum n (fun k => Rabs (fval (x k))) + 2 * tau D * (INR n + 1 + 2 * D).
  Proof.
    intros Vy Fx (z & H1 & H2) i Hi.
    assert (Vz : forall k, (k < n)%nat -> fvalid (z k)).
    { intros k. induction k as [k IH] using lt_wf_ind. intros Hk. destruct (H1 k Hk) as (s & S1 & S2).
      assert (Vk : forall j, (0 <= j < 0 + k)%nat -> fvalid (L k j) /\ fvalid (z j)).
      { intros j Hj. split; [apply Hval; lia|]. apply IH; lia. }
      eapply quot_valid; [|apply (Hmid k Hk)|exact S2]. exact (dot_valid m true (y k) 0 k (L k) z s (Vy k Hk) Vk S1). }
    pose proof (bsolve_res z x Vz Fx H2) as B.
    pose proof (fsolve_res y z Vy (fun k Hk => proj1 (proj2 (B k Hk))) H1) as Fw.
    split; [apply B; auto|]. split; [apply Fw; auto|].
    pose proof (rho_small m Hm) as Rs. pose proof (small_uu' m Hm) as Mu. pose proof uu_small as U.
    assert (T1 : 0 <= 2 * tau D). { unfold tau. pose proof (bp_pos 50). pose proof e0_pos. apply Rmult_le_pos; [lra|]. apply Rmult_le_pos; lra. }
    pose proof (two_solves n (lw L) (fun i => fval (y i)) (fun i => fval (z i)) (fun i => fval (x i)) (3 * rho m) (2 * tau D) (101 / 100 * D)
      ltac:(lra) T1 Hrow (fun i Hi => proj2 (proj2 (Fw i Hi))) (fun i Hi => proj2 (proj2 (B i Hi))) i Hi) as T. cbv beta in T.
    apply Rle_trans with (1 := T). set (X := rsum n (fun k => Rabs (fval (x k)))). assert (X0 : 0 <= X) by (apply rsum_nonneg; intros; apply Rabs_pos).
    apply Rplus_le_compat; [|apply Rmult_le_compat_l; lra].
    assert (DX : 0 <= D * X) by (apply Rmult_le_pos; lra).
    assert (M1 : 0 <= INR m * uu * (D * X)) by (apply Rmult_le_pos; lra).
    assert (M2 : 0 <= uu * (D * X)) by (apply Rmult_le_pos; lra).
    unfold rho, kap. nra.
  Qed.
End Solve.
