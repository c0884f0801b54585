(** Facts for C73: a lower bound of the posterior variance, the expected improvement as a function of
    the improvement and the deviation, and the rounding errors of UCB and EI. *)
From Coq Require Import ZArith List Bool Lia Permutation Reals Lra.
From Coq Require Import Floats.SpecFloat.
From Flocq Require Import Core.
From Coquelicot Require Import Coquelicot.
From Verif Require Import F64 F64R AdamFloat OptFloat FpModel FpErr LinAlgModel LinAlg FpAlg FpChol FpSolve FpGp FpFin Prop_Fp.
From Verif Require Import KernelModel KernelFacts FpKerModel FpKer FpKer2 Prop_FpKer Prop_FpLik FpLikModel FpLik FpAcqModel.
From Verif Require Import MatCalc GaussInt AcquiModel Prop_EI Prop_Acqui2.
Import ListNotations.
Open Scope R_scope.

(** * The posterior variance is not smaller than what [n] samples at the point itself leave *)
Lemma variance_floor n K eta B : 0 < eta -> symm (S n) K -> psd (S n) K -> is_inv n (noisy K eta) B ->
  0 < K n n -> (forall i, (i < n)%nat -> Rabs (K i n) <= K n n) ->
  K n n * eta <= (K n n - rsum n (fun i => K i n * rsum n (fun j => B i j * K j n))) * (eta + INR n * K n n).
Proof.
  intros He Hs Hp Bi Kp Hk. set (k := fun i => K i n) in *. set (w := mvec n B k).
  change (rsum n (fun i => K i n * rsum n (fun j => B i j * K j n))) with (rsum n (fun i => k i * w i)).
  set (q := rsum n (fun i => k i * w i)). set (c := K n n) in *.
  assert (Q : quad n (noisy K eta) w = q).
  { rewrite quad_mvec. apply rsum_ext. intros i Hi. unfold w. rewrite (inv_mvec n _ B k Bi i Hi). ring. }
  assert (Q0 : 0 <= q). { rewrite <- Q. apply Rle_trans with (2 := noisy_eig n K eta (psd_minor n K Hp) w). apply Rmult_le_pos; [lra|apply ssq_nonneg]. }
  pose proof (joint_eig n K eta Hs Hp (fun i => if (i =? n)%nat then q / c else - w i)) as J. rewrite quad_ext_form, Nat.eqb_refl in J.
  assert (E1 : ssq n (fun i => if (i =? n)%nat then q / c else - w i) = ssq n w).
  { apply rsum_ext. intros i Hi. rewrite (proj2 (Nat.eqb_neq i n)) by lia. ring. }
  assert (E2 : quad n (noisy K eta) (fun i => if (i =? n)%nat then q / c else - w i) = q).
  { rewrite <- Q. apply rsum_ext. intros i Hi. apply rsum_ext. intros j Hj. rewrite !(proj2 (Nat.eqb_neq _ n)) by lia. ring. }
  assert (E3 : rsum n (fun i => K i n * (if (i =? n)%nat then q / c else - w i)) = - q).
  { unfold q. rewrite <- rsum_opp. apply rsum_ext. intros i Hi. rewrite (proj2 (Nat.eqb_neq i n)) by lia. unfold k. ring. }
  rewrite E1, E2, E3 in J. fold c in J.
  replace (q + 2 * (q / c * - q) + c * (q / c * (q / c))) with (q * (c - q) / c) in J by (field; lra).
  assert (A : q * q <= c * c * (INR n * ssq n w)).
  { assert (L : q <= c * rsum n (fun i => Rabs (w i))).
    { unfold q. rewrite <- rsum_scal_l. apply rsum_le. intros i Hi. apply Rle_trans with (1 := Rle_abs _). rewrite Rabs_mult. apply Rmult_le_compat_r; [apply Rabs_pos|now apply Hk]. }
    assert (S0 : 0 <= rsum n (fun i => Rabs (w i))) by (apply rsum_nonneg; intros; apply Rabs_pos).
    pose proof (abs_sum_sq n w) as S1. rewrite <- rsum_mul in S1. set (s := rsum n (fun i => Rabs (w i))) in *.
    apply Rle_trans with (c * s * (c * s)); [apply Rmult_le_compat; lra|].
    replace (c * s * (c * s)) with (c * c * (s * s)) by ring. apply Rmult_le_compat_l; [|exact S1]. apply Rmult_le_pos; lra. }
  assert (D : eta * (q * q) <= INR n * c * (q * (c - q))).
  { apply Rle_trans with (eta * (c * c * (INR n * ssq n w))); [apply Rmult_le_compat_l; lra|].
    replace (eta * (c * c * (INR n * ssq n w))) with (INR n * (c * c) * (eta * ssq n w)) by ring.
    apply Rle_trans with (INR n * (c * c) * (q * (c - q) / c)).
    - apply Rmult_le_compat_l; [|exact J]. apply Rmult_le_pos; [apply pos_INR|]. apply Rmult_le_pos; lra.
    - right. field. lra. }
  pose proof (pos_INR n) as N0.
  destruct (Rle_lt_or_eq_dec 0 q Q0) as [P|<-].
  - assert (X : eta * q <= INR n * c * (c - q)). { apply Rmult_le_reg_l with q; [exact P|]. lra. }
    lra.
  - assert (0 <= INR n * c * c) by (apply Rmult_le_pos; [apply Rmult_le_pos|]; lra). lra.
Qed.

(** * The expected improvement is 1-Lipschitz in the improvement and in the deviation *)
Definition Phi (z : R) : R := 1 / 2 * erfc0 (- z / sqrt 2).
Definition phi (z : R) : R := exp (- (1 / 2) * z ^ 2) / sqrt (2 * PI).
Lemma ei0_eq X s : ei_value erfc0 X s = X * Phi (X / s) + s * phi (X / s).
Proof. reflexivity. Qed.
Lemma erfc0_bounds z : 0 <= erfc0 z <= 2.
Proof.
  unfold erfc0. pose proof sqrtPI_pos as P. pose proof (E_le z) as A. pose proof (E_le (- z)) as B. rewrite E_odd in B.
  assert (Q : 2 / sqrt PI * (sqrt PI / 2) = 1) by (field; lra).
  assert (D : 0 < 2 / sqrt PI) by (apply Rdiv_lt_0_compat; lra).
  assert (2 / sqrt PI * E z <= 2 / sqrt PI * (sqrt PI / 2)) by (apply Rmult_le_compat_l; lra).
  assert (2 / sqrt PI * - E z <= 2 / sqrt PI * (sqrt PI / 2)) by (apply Rmult_le_compat_l; lra). lra.
Qed.
Lemma Phi_bounds z : 0 <= Phi z <= 1.
Proof. unfold Phi. pose proof (erfc0_bounds (- z / sqrt 2)). lra. Qed.
Lemma s2pi : 2 < sqrt (2 * PI) < 3.
Proof.
  pose proof pi_bounds as H. pose proof (sqrt_lt_1 (2 * 2) (2 * PI) ltac:(lra) ltac:(lra) ltac:(lra)) as A.
  pose proof (sqrt_lt_1 (2 * PI) (3 * 3) ltac:(lra) ltac:(lra) ltac:(lra)) as B. rewrite sqrt_square in A, B by lra. auto.
Qed.
Lemma exp_neg_sq z : 0 < exp (- (1 / 2) * z ^ 2) <= 1.
Proof.
  split; [apply exp_pos|]. apply Rle_trans with (exp 0); [|rewrite exp_0; lra]. assert (0 <= z ^ 2) by apply pow2_ge_0.
  destruct (Req_dec (z ^ 2) 0) as [->|]; [right; f_equal; ring|]. left. apply exp_increasing. lra.
Qed.
Lemma phi_bounds z : 0 <= phi z <= 1 / 2.
Proof.
  unfold phi. pose proof (exp_neg_sq z) as H. pose proof s2pi as S. set (e := exp _) in *. set (p := sqrt (2 * PI)) in *.
  assert (I : 0 < / p <= / 2) by (split; [apply Rinv_0_lt_compat; lra|apply Rinv_le_contravar; lra]).
  unfold Rdiv. split; [apply Rmult_le_pos; lra|]. apply Rmult_le_compat; lra.
Qed.
Lemma ge_phi z : ge (- z / sqrt 2) = exp (- (1 / 2) * z ^ 2).
Proof.
  unfold ge. f_equal. pose proof sqrt2_pos as P. assert (Q : sqrt 2 * sqrt 2 = 2) by (apply sqrt_sqrt; lra).
  replace (- z / sqrt 2 * (- z / sqrt 2)) with (z ^ 2 * / (sqrt 2 * sqrt 2)) by (field; lra). rewrite Q. field.
Qed.
Lemma erfc0_derive z : is_derive erfc0 z (- (2 / sqrt PI) * ge z).
Proof.
  unfold erfc0. eapply is_derive_val'.
  - apply @is_derive_minus; [apply is_derive_const|apply is_derive_scal, E_derive].
  - unfold minus, plus, opp, zero; simpl. req. ring.
Qed.
Lemma Phi_derive z : is_derive Phi z (phi z).
Proof.
  unfold Phi. pose proof sqrt2_pos as P. pose proof sqrtPI_pos as P'. eapply is_derive_val'.
  - apply is_derive_scal. apply (is_derive_comp erfc0 (fun z => - z / sqrt 2)); [apply erfc0_derive|].
    instantiate (1 := - (/ sqrt 2)). auto_derive; [auto|]. field. lra.
  - unfold scal; simpl; unfold mult; simpl. req. rewrite ge_phi. unfold phi. rewrite sqrt2PI.
    assert (Q : sqrt 2 * sqrt 2 = 2) by (apply sqrt_sqrt; lra). field. split; lra.
Qed.
Lemma phi_derive z : is_derive phi z (- z * phi z).
Proof.
  unfold phi. pose proof s2pi. auto_derive; [auto|]. cbn [pow]. set (ee := exp _). field. lra.
Qed.
Lemma ei_dX X s : 0 < s -> is_derive (fun X => X * Phi (X / s) + s * phi (X / s)) X (Phi (X / s)).
Proof.
  intros Hs. assert (D : is_derive (fun X => X / s) X (/ s)) by (auto_derive; [auto|]; field; lra).
  eapply is_derive_val'.
  - apply @is_derive_plus.
    + apply @is_derive_mult; [apply is_derive_id|apply (is_derive_comp Phi (fun X => X / s)); [apply Phi_derive|exact D]|intros; apply Rmult_comm].
    + apply is_derive_scal. apply (is_derive_comp phi (fun X => X / s)); [apply phi_derive|exact D].
  - unfold plus, scal, mult, one; simpl. unfold scal, mult; simpl. req. field. lra.
Qed.
Lemma ei_ds X s : 0 < s -> is_derive (fun s => X * Phi (X / s) + s * phi (X / s)) s (phi (X / s)).
Proof.
  intros Hs. assert (D : is_derive (fun s => X / s) s (- X / (s * s))) by (auto_derive; [lra|]; field; lra).
  eapply is_derive_val'.
  - apply @is_derive_plus.
    + apply is_derive_scal. apply (is_derive_comp Phi (fun s => X / s)); [apply Phi_derive|exact D].
    + apply @is_derive_mult; [apply is_derive_id|apply (is_derive_comp phi (fun s => X / s)); [apply phi_derive|exact D]|intros; apply Rmult_comm].
  - unfold plus, scal, mult, one; simpl. unfold scal, mult; simpl. req. field. lra.
Qed.
Lemma lipschitz (f f' : R -> R) a b c : (forall x, Rmin a b <= x <= Rmax a b -> is_derive f x (f' x)) ->
  (forall x, Rabs (f' x) <= c) -> Rabs (f b - f a) <= c * Rabs (b - a).
Proof.
  intros D B. destruct (MVT_gen f a b f') as (s & Hs & E).
  - intros x Hx. apply D. lra.
  - intros x Hx. apply continuity_pt_filterlim, @ex_derive_continuous. exists (f' x). now apply D.
  - rewrite E, Rabs_mult. apply Rmult_le_compat_r; [apply Rabs_pos|auto].
Qed.
Lemma ei_lipschitz X X' s s' : 0 < s -> 0 < s' ->
  Rabs (ei_value erfc0 X' s' - ei_value erfc0 X s) <= Rabs (X' - X) + 1 / 2 * Rabs (s' - s).
Proof.
  intros Hs Hs'. rewrite !ei0_eq.
  pose proof (lipschitz (fun X => X * Phi (X / s') + s' * phi (X / s')) (fun X => Phi (X / s')) X X' 1 (fun x _ => ei_dX x s' Hs')) as A.
  pose proof (lipschitz (fun s => X * Phi (X / s) + s * phi (X / s)) (fun s => phi (X / s)) s s' (1 / 2)) as B.
  assert (A' : Rabs (X' * Phi (X' / s') + s' * phi (X' / s') - (X * Phi (X / s') + s' * phi (X / s'))) <= 1 * Rabs (X' - X)).
  { apply A. intros x. pose proof (Phi_bounds (x / s')). rewrite Rabs_pos_eq; lra. }
  assert (B' : Rabs (X * Phi (X / s') + s' * phi (X / s') - (X * Phi (X / s) + s * phi (X / s))) <= 1 / 2 * Rabs (s' - s)).
  { apply B.
    - intros x Hx. apply ei_ds. assert (0 < Rmin s s') by (apply Rmin_pos; auto). lra.
    - intros x. pose proof (phi_bounds (X / x)). rewrite Rabs_pos_eq; lra. }
  replace (X' * Phi (X' / s') + s' * phi (X' / s') - (X * Phi (X / s) + s * phi (X / s)))
    with ((X' * Phi (X' / s') + s' * phi (X' / s') - (X * Phi (X / s') + s' * phi (X / s'))) + (X * Phi (X / s') + s' * phi (X / s') - (X * Phi (X / s) + s * phi (X / s)))) by ring.
  apply Rle_trans with (1 := Rabs_triang _ _). lra.
Qed.
(** erfc moves little when its argument has a small relative and absolute error *)
Lemma erfc_pert w w' th eta : Rabs (w' - w) <= th * Rabs w + eta -> 0 <= th <= 1 / 2 -> 0 <= eta ->
  Rabs (erfc0 w' - erfc0 w) <= 6 * th + 6 * eta.
Proof.
  intros H Hth He. destruct (MVT_gen erfc0 w w' (fun z => - (2 / sqrt PI) * ge z)) as (c & Hc & Ec).
  - intros; apply erfc0_derive.
  - intros x _. apply continuity_pt_filterlim, @ex_derive_continuous. eexists. apply erfc0_derive.
  - rewrite Ec, Rabs_mult, Rabs_mult, Rabs_Ropp.
    assert (P : 0 < 2 / sqrt PI <= 3 / 2).
    { pose proof pi_bounds. assert (4 / 3 <= sqrt PI) by (rewrite <- (sqrt_square (4 / 3)) by lra; apply sqrt_le_1; lra).
      split; [apply Rdiv_lt_0_compat; lra|]. apply Rmult_le_reg_r with (sqrt PI); [lra|]. unfold Rdiv. rewrite Rmult_assoc, Rinv_l by lra. lra. }
    rewrite (Rabs_pos_eq (2 / sqrt PI)) by lra.
    assert (G : 0 < ge c <= 1 /\ Rabs c * ge c <= 1).
    { unfold ge. destruct (xexp (c * c) ltac:(nra)) as ((G1 & G2) & G3 & _). split; [lra|].
      assert (Rabs c <= 1 + c * c). { unfold Rabs. destruct (Rcase_abs c); nra. }
      destruct (xexp (c * c) ltac:(nra)) as (_ & _ & _ & _ & _ & G4). apply Rle_trans with ((1 + c * c) * exp (- (c * c))); [apply Rmult_le_compat_r; lra|exact G4]. }
    destruct G as (G1 & G2). rewrite (Rabs_pos_eq (ge c)) by lra.
    assert (W : Rabs w <= 2 * Rabs c + 2 * eta).
    { assert (Rabs (c - w) <= Rabs (w' - w)).
      { unfold Rmin, Rmax in Hc. destruct (Rle_dec w w'); apply Rabs_le; unfold Rabs; destruct (Rcase_abs (w' - w)); lra. }
      assert (Rabs w <= Rabs c + Rabs (c - w)). { replace w with (c + - (c - w)) at 1 by ring. apply Rle_trans with (1 := Rabs_triang _ _). rewrite Rabs_Ropp. lra. }
      pose proof (Rabs_pos w). assert (th * Rabs w <= 1 / 2 * Rabs w) by (apply Rmult_le_compat_r; lra). lra. }
    set (g := ge c) in *. set (p := 2 / sqrt PI) in *. pose proof (Rabs_pos c) as C0.
    assert (X : g * (th * Rabs w + eta) <= 2 * th + 2 * eta).
    { apply Rle_trans with (g * (th * (2 * Rabs c + 2 * eta) + eta)).
      - apply Rmult_le_compat_l; [lra|]. apply Rplus_le_compat_r. apply Rmult_le_compat_l; lra.
      - assert (th * (Rabs c * g) <= th * 1) by (apply Rmult_le_compat_l; lra).
        assert (eta * g <= eta * 1) by (apply Rmult_le_compat_l; lra).
        assert (th * (eta * g) <= 1 / 2 * (eta * g)) by (apply Rmult_le_compat_r; [apply Rmult_le_pos; lra|lra]). nra. }
    assert (Y : g * Rabs (w' - w) <= 2 * th + 2 * eta). { apply Rle_trans with (2 := X). apply Rmult_le_compat_l; lra. }
    rewrite Rmult_assoc. apply Rle_trans with (3 / 2 * (2 * th + 2 * eta)); [|lra].
    apply Rmult_le_compat; try lra. apply Rmult_le_pos; [lra|apply Rabs_pos].
Qed.

(** * Queries at a point *)
(** the queried point after the [n] samples *)
Definition at_ (pts : nat -> fpt) (n : nat) (v : fpt) (i : nat) : fpt := if (i <? n)%nat then pts i else v.
Lemma at_lt pts n v i : (i < n)%nat -> at_ pts n v i = pts i.
Proof. intros H. unfold at_. now rewrite (proj2 (Nat.ltb_lt i n) H). Qed.
Lemma at_n pts n v : at_ pts n v n = v.
Proof. unfold at_. now rewrite Nat.ltb_irrefl. Qed.
Lemma usual_at fexp mk d sf2 noise p n pts v : usual fexp mk d sf2 noise p n pts -> point d v -> usual fexp mk d sf2 noise p n (at_ pts n v).
Proof.
  intros (He & Hmk & Hd & Hn & Hs & Hs1 & Hp & Hpts & Hnoise) Hv. repeat (split; [assumption|]). split; [|assumption].
  intros i Hi. unfold at_. destruct (i <? n)%nat; auto.
Qed.
Lemma is_inv_ext n A A' B : meq n n A A' -> is_inv n A B -> is_inv n A' B.
Proof.
  intros H [H1 H2]. split; intros i j Hi Hj; [rewrite <- H1 by auto|rewrite <- H2 by auto]; unfold mmul; apply rsum_ext; intros q Hq; now rewrite H.
Qed.
Lemma noisy_at sf2 p pts n v eta : meq n n (noisy (K_of sf2 p (at_ pts n v)) eta) (noisy (K_of sf2 p pts) eta).
Proof. intros i j Hi Hj. unfold noisy, K_of. now rewrite !at_lt. Qed.
Lemma exact_diag d sf2 p v : kpar_ok d p -> point d v -> exact sf2 p v v = fval sf2.
Proof.
  intros Hp Hv. destruct p as [l|l|l|ell]; cbn [exact].
  - unfold exp_kernel. cbn [iso_new i_sf2 i_l]. rewrite sqdist_refl. replace (- (1 / 2) * (0 / (fval l * fval l))) with 0 by (unfold Rdiv; ring). rewrite ?Rmult_0_r. now rewrite ?exp_0, ?Rmult_1_r.
  - unfold matern3_kernel. cbn [iso_new i_sf2 i_l]. rewrite dist_refl. replace (sqrt 3 * 0 / fval l) with 0 by (unfold Rdiv; ring). rewrite Ropp_0, exp_0. ring.
  - unfold matern5_kernel. cbn [iso_new i_sf2 i_l]. rewrite dist_refl. replace (sqrt 5 * 0 / fval l) with 0 by (unfold Rdiv; ring). rewrite Ropp_0, exp_0. unfold Rdiv. ring.
  - unfold ard_kernel. cbn [ard_of a_sf2]. replace (ard_z 0 (ard_of sf2 ell) (rpt v) (rpt v)) with 0; [rewrite Rmult_0_r, exp_0; ring|].
    unfold ard_z. cbn [Nat.ltb Nat.leb]. symmetry. apply rsum_0. intros i _. unfold Rdiv. ring.
Qed.
Lemma fsolve_valid m n L b z : (forall i, (i < n)%nat -> fvalid (b i)) -> (forall i j, (j <= i < n)%nat -> fvalid (L i j)) ->
  fsolve m n L b z -> forall i, (i < n)%nat -> fvalid (z i).
Proof.
  intros Vb VL H. induction i as [i IH] using lt_wf_ind. intros Hi. destruct (H i Hi) as (s & Hs & Hq).
  apply quot_valid with (3 := Hq); [|apply VL; lia].
  apply (dot_valid m true (b i) 0 i (L i) z s (Vb i Hi)); auto. intros k Hk. split; [apply VL; lia|apply IH; lia].
Qed.
