(** The triangular solves do not overflow (FpModel.v). *)
From Coq Require Import ZArith List Bool Lia Permutation Reals Lra.
From Coq Require Import Floats.SpecFloat.
From Flocq Require Import Core.
From Verif Require Import F64 F64R AdamFloat OptFloat FpModel FpErr LinAlgModel LinAlg FpAlg FpChol FpSolve FpGp.
Import ListNotations.
Open Scope R_scope.

(** ** norms of the solutions of exact triangular systems *)
Lemma cs n f g : rsum n (fun i => Rabs (f i * g i)) * rsum n (fun i => Rabs (f i * g i)) <= ssq n f * ssq n g.
Proof.
  set (P := rsum n (fun i => Rabs (f i * g i))). pose proof (ssq_nonneg n f) as F0. pose proof (ssq_nonneg n g) as G0.
  assert (P0 : 0 <= P) by (apply rsum_nonneg; intros; apply Rabs_pos).
  assert (Q : forall t, 2 * t * P <= ssq n f + t * t * ssq n g).
  { intros t. unfold P, ssq. rewrite <- !rsum_scal_l, <- rsum_plus. apply rsum_le. intros i _. rewrite Rabs_mult.
    pose proof (Rle_0_sqr (Rabs (f i) - t * Rabs (g i))) as H. unfold Rsqr in H.
    pose proof (Rsqr_abs (f i)) as A. pose proof (Rsqr_abs (g i)) as B. unfold Rsqr in *. nra. }
  destruct (Rle_lt_or_eq_dec 0 (ssq n g) G0) as [G|G].
  - specialize (Q (P / ssq n g)). replace (2 * (P / ssq n g) * P) with (2 * (P * P / ssq n g)) in Q by (field; lra).
    replace (P / ssq n g * (P / ssq n g) * ssq n g) with (P * P / ssq n g) in Q by (field; lra).
    replace (P * P) with (P * P / ssq n g * ssq n g) by (field; lra). apply Rmult_le_compat_r; lra.
  - rewrite <- G, Rmult_0_r. rewrite <- G in Q. destruct (Rle_lt_or_eq_dec 0 P P0) as [H|H]; [|rewrite <- H; lra].
    specialize (Q ((ssq n f + 1) / P)). replace (2 * ((ssq n f + 1) / P) * P) with (2 * (ssq n f + 1)) in Q by (field; lra). lra.
Qed.

Section Norms.
  Variables (n : nat) (l : nat -> nat -> R) (lp : R).
  Hypothesis Hlow : lower n l.
  Hypothesis Hlp : 0 <= lp.
  Hypothesis Hg : forall u, lp * ssq n u <= rsum n (fun c => rsum n (fun p => l p c * u p) * rsum n (fun p => l p c * u p)).

  Lemma lower_minor i : (i <= n)%nat -> lower i l.
  Proof. intros Hi. destruct Hlow as [A B]. split; [intros p q Hp Hq; apply A; lia|intros p Hp; apply B; lia]. Qed.

  Lemma lead_bound i z w : (i <= n)%nat -> (forall p, (p < i)%nat -> w p = rsum i (fun c => l p c * z c)) -> lp * ssq i z <= ssq i w.
  Proof.
    intros Hi Hw. set (u := bwd i l z).
    assert (Hu : forall c, (c < i)%nat -> rsum i (fun p => l p c * u p) = z c) by (intros c Hc; exact (bwd_solves i l z (lower_minor i Hi) c Hc)).
    set (v := fun p => if (p <? i)%nat then u p else 0).
    assert (Sv : ssq n v = ssq i u).
    { unfold ssq. rewrite (rsum_trunc n i) by (auto; intros p Hp; unfold v; rewrite (proj2 (Nat.ltb_ge p i)) by lia; ring).
      apply rsum_ext. intros p Hp. unfold v. now rewrite (proj2 (Nat.ltb_lt p i)) by lia. }
    assert (Lv : forall c, rsum n (fun p => l p c * v p) = rsum i (fun p => l p c * u p)).
    { intros c. rewrite (rsum_trunc n i) by (auto; intros p Hp; unfold v; rewrite (proj2 (Nat.ltb_ge p i)) by lia; ring).
      apply rsum_ext. intros p Hp. unfold v. now rewrite (proj2 (Nat.ltb_lt p i)) by lia. }
    pose proof (Hg v) as G. rewrite Sv in G.
    rewrite (rsum_trunc n i) in G; auto.
    2:{ intros c Hc. rewrite Lv. rewrite (rsum_0 i); [ring|]. intros p Hp. rewrite (proj1 Hlow p c) by lia. ring. }
    rewrite (rsum_ext i _ (fun c => z c * z c)) in G by (intros c Hc; rewrite Lv, Hu by auto; ring). change (rsum i (fun c => z c * z c)) with (ssq i z) in G.
    assert (Z : ssq i z = rsum i (fun p => u p * w p)).
    { transitivity (rsum i (fun c => rsum i (fun p => u p * (l p c * z c)))).
      - apply rsum_ext. intros c Hc. rewrite <- (Hu c Hc) at 1. rewrite <- rsum_scal_r. apply rsum_ext. intros; ring.
      - rewrite rsum_swap. apply rsum_ext. intros p Hp. rewrite Hw by auto. now rewrite rsum_scal_l. }
    assert (Sq : 0 <= ssq i w - 2 * lp * ssq i z + lp * lp * ssq i u).
    { rewrite Z. unfold ssq. rewrite <- !rsum_scal_l, <- rsum_minus, <- rsum_plus. apply rsum_nonneg. intros p _.
      pose proof (Rle_0_sqr (w p - lp * u p)) as Q. unfold Rsqr in Q. lra. }
    assert (lp * (lp * ssq i u) <= lp * ssq i z) by (apply Rmult_le_compat_l; auto). lra.
  Qed.

  Lemma diag_lp i : (i < n)%nat -> lp <= l i i * l i i.
  Proof.
    intros Hi. pose proof (lead_bound (S i) (fun c => if (c =? i)%nat then 1 else 0) (fun p => if (p =? i)%nat then l i i else 0) ltac:(lia)) as H.
    assert (E1 : ssq (S i) (fun c => if (c =? i)%nat then 1 else 0) = 1).
    { unfold ssq. cbn [rsum]. rewrite Nat.eqb_refl, rsum_0; [ring|]. intros c Hc. rewrite (proj2 (Nat.eqb_neq c i)) by lia. ring. }
    assert (E2 : ssq (S i) (fun p => if (p =? i)%nat then l i i else 0) = l i i * l i i).
    { unfold ssq. cbn [rsum]. rewrite Nat.eqb_refl, rsum_0; [ring|]. intros c Hc. rewrite (proj2 (Nat.eqb_neq c i)) by lia. ring. }
    rewrite E1, E2 in H. rewrite Rmult_1_r in H. apply H. intros p Hp. cbn [rsum]. rewrite Nat.eqb_refl, rsum_0.
    - destruct (Nat.eqb_spec p i) as [->|]; [ring|]. rewrite (proj1 Hlow p i) by lia. ring.
    - intros c Hc. rewrite (proj2 (Nat.eqb_neq c i)) by lia. ring.
  Qed.

  (** indices from [i] on *)
  Definition tail (i : nat) (x : nat -> R) (k : nat) : R := if (k <? i)%nat then 0 else x k.
  Lemma trail_bound i x : (i <= n)%nat ->
    lp * ssq n (tail i x) <= ssq n (tail i (fun c => rsum n (fun k => l k c * tail i x k))).
  Proof.
    intros Hi. set (u := bwd i l (fun c => - rsum n (fun k => l k c * tail i x k))).
    assert (Hu : forall c, (c < i)%nat -> rsum i (fun p => l p c * u p) = - rsum n (fun k => l k c * tail i x k)).
    { intros c Hc. exact (bwd_solves i l _ (lower_minor i Hi) c Hc). }
    set (v := fun p => if (p <? i)%nat then u p else x p).
    assert (Lv : forall c, rsum n (fun p => l p c * v p) = rsum i (fun p => l p c * u p) + rsum n (fun k => l k c * tail i x k)).
    { intros c. transitivity (rsum n (fun p => (if (p <? i)%nat then l p c * u p else 0) + l p c * tail i x p)).
      - apply rsum_ext. intros p _. unfold v, tail. destruct (p <? i)%nat; ring.
      - rewrite rsum_plus. f_equal. rewrite (rsum_trunc n i) by (auto; intros p Hp; rewrite (proj2 (Nat.ltb_ge p i)) by lia; ring).
        apply rsum_ext. intros p Hp. now rewrite (proj2 (Nat.ltb_lt p i)) by lia. }
    apply Rle_trans with (lp * ssq n v).
    - apply Rmult_le_compat_l; auto. apply rsum_le. intros p _. unfold v, tail. destruct (p <? i)%nat; [|lra].
      pose proof (Rle_0_sqr (u p)) as Q. unfold Rsqr in Q. lra.
    - apply Rle_trans with (1 := Hg v). right. set (w := fun c => rsum n (fun k => l k c * tail i x k)) in *. unfold ssq. apply rsum_ext. intros c Hc. rewrite Lv.
      change (rsum n (fun k => l k c * tail i x k)) with (w c). unfold tail.
      destruct (Nat.ltb_spec c i) as [H|H].
      + rewrite Hu by auto. change (rsum n (fun k => l k c * tail i x k)) with (w c). ring.
      + rewrite (rsum_0 i); [ring|]. intros p Hp. rewrite (proj1 Hlow p c) by lia. ring.
  Qed.
End Norms.

Lemma sq_bp v k : v * v <= bp (2 * k) -> Rabs v <= bp k.
Proof.
  intros H. rewrite <- (Rabs_pos_eq (bp k)) by apply bpow_ge_0. apply Rsqr_le_abs_0. unfold Rsqr.
  rewrite <- bpow_plus. replace (k + k)%Z with (2 * k)%Z by ring. exact H.
Qed.

Lemma sq_sum2 a b c : Rabs a <= b + c -> a * a <= 2 * (b * b) + 2 * (c * c).
Proof.
  intros H. pose proof (Rabs_pos a) as P. assert (A : Rabs a * Rabs a <= (b + c) * (b + c)) by (apply Rmult_le_compat; lra).
  pose proof (Rsqr_abs a) as E. unfold Rsqr in E. pose proof (Rle_0_sqr (b - c)) as Q. unfold Rsqr in Q. lra.
Qed.

Section Fin.
  Variables (m n : nat) (A L : fmat) (D lam : R) (y z x : fvec).
  Hypothesis Hm : small m.
  Hypothesis HA : forall i j, (i < n)%nat -> (j < n)%nat -> dbl D (A i j).
  Hypothesis Hsym : forall i j, (i < n)%nat -> (j < n)%nat -> A i j = A j i.
  Hypothesis HD : bp (-100) <= D <= bp 100.
  Hypothesis Heig : eig_min n (fun i j => fval (A i j)) lam.
  Hypothesis Hlam : 2 * ((INR n + 2) * kap m D) <= lam.
  Hypothesis G : good m n L (fun i j => fval (A i j)) D n.
  Hypothesis Hy : forall i, (i < n)%nat -> dbl (bp 200) (y i).
  Hypothesis Hz : fsolve m n L y z.
  Hypothesis Hx : bsolve m n L z x.

  Let lp := lam - INR n * kap m D.
  Lemma HD' : bp (-500) <= D <= bp 500.
  Proof. split; [apply Rle_trans with (2 := proj1 HD)|apply Rle_trans with (1 := proj2 HD)]; apply bp_le; lia. Qed.
  Lemma Dp : 0 < D. Proof. pose proof (bp_pos (-100)). lra. Qed.
  Lemma kpos : 0 < kap m D. Proof. apply kap_pos. exact HD'. Qed.
  Lemma K1 : (INR n + 4) * kap m D <= lp. Proof. unfold lp. lra. Qed.
  Lemma K2 : 7 / 2 * (rho m * D) <= kap m D.
  Proof. unfold rho, kap. pose proof uu_pos. pose proof Dp. assert (0 < uu * D) by (apply Rmult_lt_0_compat; lra). lra. Qed.
  Lemma K3 : bp (-149) <= lp.
  Proof.
    pose proof K1 as K. pose proof kpos as P. pose proof (pos_INR n). assert (0 <= INR n * kap m D) by (apply Rmult_le_pos; lra).
    apply Rle_trans with (kap m D); [|lra]. apply Rle_trans with (16 * uu * D).
    - apply Rle_trans with (16 * uu * bp (-100)); [right; unfold uu; change 16 with (bp 4); rewrite <- !bpow_plus; reflexivity|].
      apply Rmult_le_compat_l; [pose proof uu_pos; lra|apply HD].
    - unfold kap. pose proof uu_pos. pose proof Dp. pose proof (pos_INR m). apply Rmult_le_compat_r; [lra|]. assert (0 <= INR m * uu) by (apply Rmult_le_pos; lra). lra.
  Qed.
  Lemma lp_pos : 0 < lp. Proof. pose proof K3. pose proof (bp_pos (-149)). lra. Qed.
  Lemma N49 : INR n <= bp 49.
  Proof.
    destruct (Nat.eq_dec n 0) as [E|E]; [rewrite E; change (INR 0) with 0; apply bpow_ge_0|].
    assert (H0 : (0 < n)%nat) by lia.
    pose proof (eig_diag n _ lam 0%nat Heig H0) as Q. cbv beta in Q. destruct (HA 0%nat 0%nat H0 H0) as (_ & _ & B). apply Rabs_le_inv in B.
    pose proof K1 as K. unfold lp in K. pose proof kpos. pose proof (pos_INR n) as NP. pose proof Dp as DP. pose proof uu_pos as U. pose proof (pos_INR m) as MP.
    assert (K16 : 16 * uu * D <= kap m D). { unfold kap. apply Rmult_le_compat_r; [lra|]. assert (0 <= INR m * uu) by (apply Rmult_le_pos; lra). lra. }
    assert (INR n * (16 * uu * D) <= INR n * kap m D) by (apply Rmult_le_compat_l; lra).
    assert (P0 : 0 <= INR n * kap m D) by (apply Rmult_le_pos; lra).
    assert (X : INR n * (16 * uu) * D <= 1 * D) by lra. apply Rmult_le_reg_r in X; auto.
    apply Rmult_le_reg_r with (16 * uu); [lra|]. apply Rle_trans with (1 := X). right. unfold uu. change 16 with (bp 4). rewrite <- !bpow_plus. reflexivity.
  Qed.
  Lemma tau1 : 0 <= tau D <= 1.
  Proof.
    unfold tau. pose proof e0_pos. pose proof (bp_pos 50). pose proof Dp. split; [apply Rmult_le_pos; lra|].
    apply Rle_trans with (e0 * bp 103).
    - apply Rmult_le_compat_l; [lra|]. apply Rle_trans with (4 * bp 100); [|change 4 with (bp 2); rewrite <- bpow_plus; apply bp_le; lia].
      assert (bp 50 <= bp 100) by (apply bp_le; lia). lra.
    - unfold e0. rewrite <- bpow_plus. change 1 with (bp 0). apply bp_le. lia.
  Qed.

  Lemma absorb T Z : 0 <= Z -> lp * Z <= T + INR n * (91 / 5 * (rho m * rho m) * D) * Z -> lp * Z <= 3 / 2 * T.
  Proof.
    intros Z0 H. pose proof (rho_small m Hm) as Rs. pose proof K1 as Kl. pose proof lp_pos as LP. pose proof K2 as Kr. pose proof kpos as KP. pose proof (pos_INR n) as NP. pose proof Dp as DP.
    assert (A0 : 0 <= rho m * D) by (apply Rmult_le_pos; lra).
    assert (A1 : INR n * (rho m * D) <= 2 / 7 * lp).
    { assert (INR n * (7 / 2 * (rho m * D)) <= INR n * kap m D) by (apply Rmult_le_compat_l; lra). lra. }
    assert (A2 : rho m * (INR n * (rho m * D)) <= / 4000 * (2 / 7 * lp)).
    { apply Rmult_le_compat; try lra. apply Rmult_le_pos; lra. }
    assert (A3 : INR n * (91 / 5 * (rho m * rho m) * D) <= lp / 4) by lra.
    assert (A4 : INR n * (91 / 5 * (rho m * rho m) * D) * Z <= lp / 4 * Z) by (apply Rmult_le_compat_r; lra). assert (0 <= lp * Z) by (apply Rmult_le_pos; lra). lra.
  Qed.

  Lemma Hrows : forall i, (i < n)%nat -> ssq n (lw L i) <= 101 / 100 * D.
  Proof. exact (full_rows m n A L D Hm HA HD' G). Qed.
  Lemma ssq_rows i k : (i < n)%nat -> (k <= n)%nat -> ssq k (lw L i) <= 101 / 100 * D.
  Proof.
    intros Hi Hk. apply Rle_trans with (2 := Hrows i Hi). unfold ssq. replace n with (k + (n - k))%nat by lia. rewrite rsum_split.
    assert (0 <= rsum (n - k) (fun j => lw L i (k + j) * lw L i (k + j))) by (apply rsum_nonneg; intros; apply Rle_0_sqr). lra.
  Qed.
  Lemma llow : lower n (lw L).
  Proof.
    split; [intros i j _ _ H; now apply lw_up|]. intros i Hi. rewrite lw_low by lia. destruct (mid_e0 (L i i)); auto. apply G; auto.
  Qed.
  Lemma hg u : lp * ssq n u <= rsum n (fun c => rsum n (fun p => lw L p c * u p) * rsum n (fun p => lw L p c * u p)).
  Proof.
    rewrite <- quad_gram. unfold lp. apply (eig_pert n (fun i j => fval (A i j))); auto.
    - intros i j Hi Hj. rewrite Rabs_minus_sym. now apply (full_prod m n A L D Hsym G).
    - left. apply kpos.
  Qed.
  Lemma Ldiag i : (i < n)%nat -> bp (-75) <= fval (L i i).
  Proof.
    intros Hi. pose proof (diag_lp n (lw L) lp llow (Rlt_le _ _ lp_pos) hg i Hi) as H. rewrite lw_low in H by lia.
    destruct (mid_e0 (L i i)) as [P _]; [apply G; auto|]. pose proof K3 as K.
    apply Rsqr_incr_0_var; [|lra]. unfold Rsqr. rewrite <- bpow_plus. apply Rle_trans with (2 := H). apply Rle_trans with (2 := K). apply bp_le. lia.
  Qed.

  (** *** forward *)
  Lemma valid_L i j : (i < n)%nat -> (j <= i)%nat -> fvalid (L i j).
  Proof. intros Hi Hj. apply G; auto. lia. Qed.
  Lemma fin_L i j : (i < n)%nat -> (j <= i)%nat -> ffin (L i j).
  Proof. intros Hi Hj. apply G; auto. lia. Qed.

  Lemma z_norm i : (i <= n)%nat -> (forall j, (j < i)%nat -> ffin (z j)) ->
    (forall j, (j < i)%nat -> fvalid (z j)) /\ ssq i (fun j => fval (z j)) <= bp 602.
  Proof.
    intros Hi Fz.
    assert (Hz' : fsolve m i L y z) by (intros j Hj; apply Hz; lia).
    pose proof (fsolve_res m i L D Hm (Rlt_le _ _ Dp) (fun j Hj => proj1 G j ltac:(lia) ltac:(lia)) (fun p q Hp Hq => valid_L p q ltac:(lia) Hq)
      (fun p Hp => ssq_rows p i ltac:(lia) Hi) y z (fun p Hp => proj1 (Hy p ltac:(lia))) Fz Hz') as R0.
    split; [intros j Hj; now apply R0|].
    set (Z := ssq i (fun j => fval (z j))). assert (Z0 : 0 <= Z) by apply ssq_nonneg.
    set (w := fun p => rsum i (fun c => lw L p c * fval (z c))).
    pose proof (lead_bound n (lw L) lp llow (Rlt_le _ _ lp_pos) hg i (fun j => fval (z j)) w Hi (fun p _ => eq_refl)) as B. fold Z in B.
    pose proof tau1 as T1. pose proof (rho_small m Hm) as Rs. pose proof Dp as DP.
    assert (Wp : forall p, (p < i)%nat -> w p * w p <= 2 * bp 402 + 91 / 5 * (rho m * rho m) * D * Z).
    { intros p Hp. destruct (R0 p Hp) as (_ & _ & E). destruct (Hy p ltac:(lia)) as (_ & _ & By).
      set (sp := rsum i (fun j => Rabs (lw L p j * fval (z j)))) in *. assert (S0 : 0 <= sp) by (apply rsum_nonneg; intros; apply Rabs_pos).
      pose proof (cs i (lw L p) (fun j => fval (z j))) as C. fold sp Z in C. pose proof (ssq_rows p i ltac:(lia) Hi) as Rw.
      assert (C' : sp * sp <= 101 / 100 * D * Z). { apply Rle_trans with (1 := C). apply Rmult_le_compat_r; auto. }
      assert (Y2 : bp 200 + 2 <= bp 201). { replace (bp 201) with (2 * bp 200) by (change 2 with (bp 1); rewrite <- bpow_plus; reflexivity). assert (bp 1 <= bp 200) by (apply bp_le; lia). change (bp 1) with 2 in *. lra. }
      assert (W1 : Rabs (w p) <= bp 201 + 3 * rho m * sp).
      { replace (w p) with (fval (y p) - (fval (y p) - w p)) by ring. apply Rle_trans with (1 := Rabs_triang _ _). rewrite Rabs_Ropp. fold (w p) in E. lra. }
      apply sq_sum2 in W1. rewrite <- bpow_plus in W1. change (201 + 201)%Z with 402%Z in W1.
      assert (rho m * rho m * (sp * sp) <= rho m * rho m * (101 / 100 * D * Z)) by (apply Rmult_le_compat_l; [apply Rle_0_sqr|auto]). 
      assert (0 <= rho m * rho m * (D * Z)) by (apply Rmult_le_pos; [apply Rle_0_sqr|apply Rmult_le_pos; lra]). lra. }
    assert (W2 : ssq i w <= INR n * (2 * bp 402) + INR n * (91 / 5 * (rho m * rho m) * D) * Z).
    { set (cst := 2 * bp 402 + 91 / 5 * (rho m * rho m) * D * Z) in *.
      apply Rle_trans with (INR i * cst); [rewrite <- rsum_const; apply rsum_le; auto|].
      assert (C0 : 0 <= cst). { unfold cst. pose proof (bp_pos 402). assert (0 <= rho m * rho m * (D * Z)) by (apply Rmult_le_pos; [apply Rle_0_sqr|apply Rmult_le_pos; lra]). lra. }
      apply Rle_trans with (INR n * cst); [apply Rmult_le_compat_r; [auto|now apply le_INR]|]. unfold cst. lra. }
    assert (W3 : lp * Z <= 3 / 2 * (INR n * (2 * bp 402))) by (apply absorb; auto; lra).
    assert (W4 : lp * Z <= bp 453).
    { apply Rle_trans with (1 := W3). replace (bp 453) with (4 * (bp 49 * bp 402)) by (change 4 with (bp 2); rewrite <- !bpow_plus; reflexivity).
      assert (INR n * bp 402 <= bp 49 * bp 402) by (apply Rmult_le_compat_r; [apply bpow_ge_0|apply N49]). assert (0 <= INR n * bp 402) by (apply Rmult_le_pos; [apply pos_INR|apply bpow_ge_0]). lra. }
    apply Rmult_le_reg_l with (bp (-149)); [apply bp_pos|]. rewrite <- bpow_plus. change (-149 + 602)%Z with 453%Z.
    apply Rle_trans with (2 := W4). apply Rmult_le_compat_r; auto. apply K3.
  Qed.

  Lemma quot_fin' s d r : fvalid s -> ffin s -> mid d -> bp (-75) <= fval d -> Rabs (fval s) <= bp 500 -> quot s d r -> ffin r.
  Proof.
    intros Vs Fs Md Bd Bs Q. apply (quot_fin s d r Vs Fs Md Q). destruct (mid_e0 d Md) as [P _].
    unfold Rdiv. rewrite Rabs_mult, (Rabs_pos_eq (/ _)) by (left; now apply Rinv_0_lt_compat).
    apply Rle_trans with (bp 500 * bp 75); [|rewrite <- bpow_plus; apply bp_le; lia].
    apply Rmult_le_compat; auto; try apply Rabs_pos; [left; now apply Rinv_0_lt_compat|].
    change (bp 75) with (bp (- (-75))). rewrite (bpow_opp radix2 (-75)). apply Rinv_le_contravar; auto. apply bp_pos.
  Qed.

  Lemma big_sum c from len f g s : fvalid c -> ffin c -> Rabs (fval c) <= bp 400 ->
    (forall k, (from <= k < from + len)%nat -> (fvalid (f k) /\ fvalid (g k)) /\ (ffin (f k) /\ ffin (g k))) ->
    adot from len f g <= bp 460 -> minus_dot m c (prods from len f g) s -> fvalid s /\ ffin s /\ Rabs (fval s) <= bp 500.
  Proof.
    intros Vc Fc Bc Vk Ba Hs.
    assert (B0 : bp 400 + bp 460 <= bp 461). { replace (bp 461) with (2 * bp 460) by (change 2 with (bp 1); rewrite <- bpow_plus; reflexivity). assert (bp 400 <= bp 460) by (apply bp_le; lia). lra. }
    assert (Fs : ffin s).
    { apply (dot_fin m true c from len f g s Hm Vc (fun k Hk => proj1 (Vk k Hk)) Hs Fc (fun k Hk => proj2 (Vk k Hk))).
      apply Rle_trans with (bp 461); [lra|]. apply bp_le. lia. }
    split; [exact (dot_valid m true c from len f g s Vc (fun k Hk => proj1 (Vk k Hk)) Hs)|]. split; auto.
    pose proof (dot_error m true c from len f g s Hm Vc (fun k Hk => proj1 (Vk k Hk)) Hs Fs) as E. cbv iota in E.
    pose proof (small_uu' m Hm) as Mu. set (W := adot from len f g) in *. assert (W0 : 0 <= W) by (apply rsum_nonneg; intros; apply Rabs_pos).
    assert (Rd : Rabs (rdot from len f g) <= W) by apply rsum_abs.
    assert (T : INR m * uu * (Rabs (fval c) + W) <= / 8192 * (Rabs (fval c) + W)) by (apply Rmult_le_compat_r; [pose proof (Rabs_pos (fval c)); lra|lra]).
    assert (M0 : INR m * e0 <= 1).
    { unfold small in Hm. rewrite bpow_pos_IZR in Hm by lia. apply Rle_trans with (bp 40 * e0); [apply Rmult_le_compat_r; [pose proof e0_pos; lra|exact Hm]|].
      unfold e0. rewrite <- bpow_plus. change 1 with (bp 0). apply bp_le. lia. }
    replace (fval s) with ((fval s - (fval c + -1 * rdot from len f g)) + (fval c + - rdot from len f g)) by ring.
    apply Rle_trans with (1 := Rabs_triang _ _). pose proof (Rabs_triang (fval c) (- rdot from len f g)) as T2. rewrite Rabs_Ropp in T2.
    assert (B5 : 4 * bp 461 <= bp 500) by (change 4 with (bp 2); rewrite <- bpow_plus; apply bp_le; lia).
    assert (B6 : 2 <= bp 461) by (change 2 with (bp 1); apply bp_le; lia). lra.
  Qed.

  Lemma sq_bp_sum v k : 0 <= v -> v * v <= bp (2 * k) -> v <= bp k.
  Proof. intros H0 H. apply sq_bp in H. now rewrite Rabs_pos_eq in H. Qed.

  Lemma z_fin : forall i, (i <= n)%nat -> forall j, (j < i)%nat -> ffin (z j).
  Proof.
    induction i as [|i IH]; intros Hi j Hj; [lia|]. destruct (Nat.eq_dec j i) as [->|]; [|apply IH; lia].
    specialize (IH ltac:(lia)). destruct (z_norm i ltac:(lia) IH) as (Vz & Bz). destruct (Hz i Hi) as (s & S1 & S2).
    destruct (Hy i Hi) as (Vy & Fy & By).
    destruct (big_sum (y i) 0 i (L i) z s Vy Fy) as (Vs & Fs & Bs); auto.
    - apply Rle_trans with (1 := By). apply bp_le. lia.
    - intros k Hk. split; split; [apply valid_L; lia|apply Vz; lia|apply fin_L; lia|apply IH; lia].
    - assert (C : adot 0 i (L i) z * adot 0 i (L i) z <= ssq i (lw L i) * ssq i (fun j => fval (z j))).
      { replace (adot 0 i (L i) z) with (rsum i (fun j => Rabs (lw L i j * fval (z j)))) by (apply rsum_ext; intros c Hc; rewrite lw_low by lia; reflexivity). apply cs. }
      apply Rle_trans with (bp 352); [|apply bp_le; lia]. apply sq_bp_sum; [apply rsum_nonneg; intros; apply Rabs_pos|].
      apply Rle_trans with (1 := C). pose proof (ssq_rows i i Hi ltac:(lia)) as Rw. pose proof (ssq_nonneg i (lw L i)). pose proof (ssq_nonneg i (fun j => fval (z j))).
      apply Rle_trans with (2 * bp 100 * bp 602); [apply Rmult_le_compat; auto; pose proof Dp; lra|]. change 2 with (bp 1). rewrite <- !bpow_plus. apply bp_le. lia.
    - apply (quot_fin' s (L i i) (z i)); auto; [apply G; auto|now apply Ldiag].
  Qed.

  (** *** backward *)
  Lemma cols_sum i : (i <= n)%nat -> rsum n (fun c => ssq n (fun k => lw L k c)) <= INR n * (101 / 100 * D).
  Proof.
    intros _. unfold ssq. rewrite rsum_swap. rewrite <- rsum_const. apply rsum_le. intros k Hk. exact (Hrows k Hk).
  Qed.
  Lemma tail_sum i c : (i <= c)%nat -> rsum n (fun k => lw L k c * fval (x k)) = rsum n (fun k => lw L k c * tail i (fun k => fval (x k)) k).
  Proof.
    intros H. apply rsum_ext. intros k Hk. unfold tail. destruct (Nat.ltb_spec k i); auto. rewrite lw_up by lia. ring.
  Qed.
  Lemma tail_abs i c : (i <= c)%nat -> rsum n (fun k => Rabs (lw L k c * fval (x k))) = rsum n (fun k => Rabs (lw L k c * tail i (fun k => fval (x k)) k)).
  Proof.
    intros H. apply rsum_ext. intros k Hk. unfold tail. destruct (Nat.ltb_spec k i); auto. rewrite lw_up by lia. f_equal. ring.
  Qed.

  Lemma x_norm i : (i <= n)%nat -> (forall k, (i <= k < n)%nat -> ffin (x k)) ->
    (forall k, (i <= k < n)%nat -> fvalid (x k)) /\ ssq n (tail i (fun k => fval (x k))) <= bp 756.
  Proof.
    intros Hi Fx. destruct (z_norm n (le_n _) (z_fin n (le_n _))) as (Vz & Bz).
    pose proof (bsolve_res_from m n L D Hm (Rlt_le _ _ Dp) (fun j Hj => proj1 G j Hj Hj) valid_L Hrows i z x Vz Fx Hx) as R0.
    split; [intros k Hk; now apply R0|].
    set (xt := tail i (fun k => fval (x k))) in *. set (X := ssq n xt). assert (X0 : 0 <= X) by apply ssq_nonneg.
    set (w := fun c => rsum n (fun k => lw L k c * xt k)).
    pose proof (trail_bound n (lw L) lp llow (Rlt_le _ _ lp_pos) hg i (fun k => fval (x k)) Hi) as B. fold xt in B. change (lp * X <= ssq n (tail i w)) in B.
    pose proof tau1 as T1. pose proof (rho_small m Hm) as Rs. pose proof Dp as DP.
    assert (Wc : forall c, (c < n)%nat -> tail i w c * tail i w c <= 4 * (fval (z c) * fval (z c)) + 16 + 18 * (rho m * rho m) * (ssq n (fun k => lw L k c) * X)).
    { intros c Hc. pose proof (ssq_nonneg n (fun k => lw L k c)) as S0.
      assert (P0 : 0 <= rho m * rho m * (ssq n (fun k => lw L k c) * X)) by (apply Rmult_le_pos; [apply Rle_0_sqr|apply Rmult_le_pos; lra]).
      pose proof (Rle_0_sqr (fval (z c))) as Zc. unfold Rsqr in Zc.
      unfold tail. destruct (Nat.ltb_spec c i) as [H|H]; [lra|].
      destruct (R0 c ltac:(lia)) as (_ & _ & E). rewrite (tail_sum i c), (tail_abs i c) in E by lia. fold xt in E.
      set (sp := rsum n (fun k => Rabs (lw L k c * xt k))) in *. assert (Sp : 0 <= sp) by (apply rsum_nonneg; intros; apply Rabs_pos).
      pose proof (cs n (fun k => lw L k c) xt) as C. cbv beta in C. fold sp X in C.
      change (rsum n (fun k => lw L k c * xt k)) with (w c) in E.
      assert (W1 : Rabs (w c) <= (Rabs (fval (z c)) + 2) + 3 * rho m * sp).
      { replace (w c) with (fval (z c) - (fval (z c) - w c)) by ring. apply Rle_trans with (1 := Rabs_triang _ _). rewrite Rabs_Ropp. lra. }
      apply sq_sum2 in W1.
      assert (W2 : (Rabs (fval (z c)) + 2) * (Rabs (fval (z c)) + 2) <= 2 * (fval (z c) * fval (z c)) + 2 * (2 * 2)).
      { pose proof (Rsqr_abs (fval (z c))) as Q. unfold Rsqr in Q. pose proof (Rle_0_sqr (Rabs (fval (z c)) - 2)) as Q2. unfold Rsqr in Q2. lra. }
      assert (rho m * rho m * (sp * sp) <= rho m * rho m * (ssq n (fun k => lw L k c) * X)) by (apply Rmult_le_compat_l; [apply Rle_0_sqr|auto]). lra. }
    assert (W2 : ssq n (tail i w) <= (4 * bp 602 + INR n * 16) + INR n * (91 / 5 * (rho m * rho m) * D) * X).
    { apply Rle_trans with (rsum n (fun c => 4 * (fval (z c) * fval (z c)) + 16 + 18 * (rho m * rho m) * (ssq n (fun k => lw L k c) * X))); [apply rsum_le; auto|].
      rewrite !rsum_plus, !rsum_scal_l, rsum_scal_r, rsum_const. change (rsum n (fun c => fval (z c) * fval (z c))) with (ssq n (fun c => fval (z c))).
      pose proof (cols_sum i Hi) as Cs. set (cs0 := rsum n (fun c => ssq n (fun k => lw L k c))) in *.
      assert (rho m * rho m * (cs0 * X) <= rho m * rho m * (INR n * (101 / 100 * D) * X)) by (apply Rmult_le_compat_l; [apply Rle_0_sqr|apply Rmult_le_compat_r; auto]).
      assert (0 <= rho m * rho m * (INR n * D * X)) by (apply Rmult_le_pos; [apply Rle_0_sqr|apply Rmult_le_pos; [apply Rmult_le_pos; [apply pos_INR|lra]|lra]]). lra. }
    assert (W3 : lp * X <= 3 / 2 * (4 * bp 602 + INR n * 16)) by (apply absorb; auto; lra).
    assert (W4 : lp * X <= bp 606).
    { apply Rle_trans with (1 := W3). pose proof N49 as N0. assert (bp 54 <= bp 602) by (apply bp_le; lia).
      replace (bp 54) with (32 * bp 49) in * by (change 32 with (bp 5); rewrite <- bpow_plus; reflexivity).
      replace (bp 606) with (16 * bp 602) by (change 16 with (bp 4); rewrite <- bpow_plus; reflexivity). pose proof (bp_pos 602). pose proof (pos_INR n). lra. }
    apply Rmult_le_reg_l with (bp (-149)); [apply bp_pos|]. rewrite <- bpow_plus.
    apply Rle_trans with (lp * X); [apply Rmult_le_compat_r; auto; apply K3|]. apply Rle_trans with (1 := W4). apply bp_le. lia.
  Qed.

  Lemma x_fin : forall c i, (i <= n)%nat -> (n - i = c)%nat -> forall k, (i <= k < n)%nat -> ffin (x k).
  Proof.
    induction c as [|c IH]; intros i Hi Hc k Hk; [lia|]. destruct (Nat.eq_dec k i) as [->|]; [|apply (IH (S i)); lia].
    specialize (IH (S i) ltac:(lia) ltac:(lia)). destruct (x_norm (S i) ltac:(lia) IH) as (Vx & Bx).
    destruct (z_norm n (le_n _) (z_fin n (le_n _))) as (Vz & Bz).
    assert (Hin : (i < n)%nat) by lia. destruct (Hx i Hin) as (s & S1 & S2).
    assert (Bzi : Rabs (fval (z i)) <= bp 301).
    { apply sq_bp. apply Rle_trans with (2 := Bz). unfold ssq. rewrite <- (rsum_delta n i (fun k => fval (z k) * fval (z k)) Hin). apply rsum_le. intros j _.
      pose proof (Rle_0_sqr (fval (z j))) as Q. unfold Rsqr in Q. destruct (j =? i)%nat; lra. }
    destruct (big_sum (z i) (S i) (n - S i) (fun k => L k i) x s (Vz i Hin) (z_fin n (le_n _) i Hin)) as (Vs & Fs & Bs); auto.
    - apply Rle_trans with (1 := Bzi). apply bp_le. lia.
    - intros k Hk'. split; split; [apply valid_L; lia|apply Vx; lia|apply fin_L; lia|apply IH; lia].
    - set (xt := tail (S i) (fun k => fval (x k))) in *.
      assert (E : adot (S i) (n - S i) (fun k => L k i) x <= rsum n (fun k => Rabs (lw L k i * xt k))).
      { rewrite (col_sum n i (fun k => Rabs (lw L k i * xt k))); auto.
        - unfold adot. assert (0 <= Rabs (lw L i i * xt i)) by apply Rabs_pos.
          assert (rsum (n - S i) (fun k => Rabs (fval (L (S i + k)%nat i) * fval (x (S i + k)%nat))) = rsum (n - S i) (fun k => Rabs (lw L (S i + k) i * xt (S i + k)%nat))); [|lra].
          apply rsum_ext. intros k Hk'. rewrite lw_low by lia. unfold xt, tail. now rewrite (proj2 (Nat.ltb_ge (S i + k) (S i))) by lia.
        - intros k Hk'. rewrite lw_up by lia. rewrite Rmult_0_l. apply Rabs_R0. }
      apply Rle_trans with (1 := E). apply Rle_trans with (bp 454); [|apply bp_le; lia]. apply sq_bp_sum; [apply rsum_nonneg; intros; apply Rabs_pos|].
      apply Rle_trans with (1 := cs n (fun k => lw L k i) xt).
      assert (Ci : ssq n (fun k => lw L k i) <= bp 49 * (2 * bp 100)).
      { apply Rle_trans with (INR n * (101 / 100 * D)).
        - apply Rle_trans with (2 := cols_sum n (le_n _)).
          rewrite <- (rsum_delta n i (fun c => ssq n (fun k => lw L k c)) Hin). apply rsum_le. intros j _. pose proof (ssq_nonneg n (fun k => lw L k j)). destruct (j =? i)%nat; lra.
        - pose proof Dp. apply Rmult_le_compat; [apply pos_INR|lra|apply N49|lra]. }
      pose proof (ssq_nonneg n (fun k => lw L k i)). pose proof (ssq_nonneg n xt).
      apply Rle_trans with (bp 49 * (2 * bp 100) * bp 756); [apply Rmult_le_compat; auto|]. change 2 with (bp 1). rewrite <- !bpow_plus. apply bp_le. lia.
    - apply (quot_fin' s (L i i) (x i)); auto; [apply G; auto|now apply Ldiag].
  Qed.

  Lemma alpha_fin : (forall i, (i < n)%nat -> fvalid (x i) /\ ffin (x i)) /\ ssq n (fun k => fval (x k)) <= bp 756.
  Proof.
    pose proof (x_fin n 0 ltac:(lia) ltac:(lia)) as F. destruct (x_norm 0 ltac:(lia) F) as (V & B). split.
    - intros i Hi. split; [apply V; lia|apply F; lia].
    - exact B.
  Qed.
End Fin.
