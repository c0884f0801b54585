(** The Matern functions (1+r)exp(-r) and (1+r+r^2/3)exp(-r) of a Euclidean distance r are positive
    semi-definite: they are mixtures of Gaussian kernels.  With [E x = exp(-(r^2 x^2 + 1/(4x^2)))],
    the integrals of [E x / x^4] and [E x / x^6] over (0, oo) are, up to a common positive factor,
    these functions; the primitives are written down with [Phi u = int_0^u exp(-t^2) dt]. *)
From Coq Require Import Reals Lia Lra.
From Coquelicot Require Import Coquelicot.
From Verif Require Import LinAlgModel LinAlg Psd.
Open Scope R_scope.

(** * Integrals of positive semi-definite matrices *)
Lemma is_RInt_zero (a b : R) : is_RInt (fun _ : R => 0) a b 0.
Proof.
  evar_last; [apply (@is_RInt_const R_NormedModule)|]. unfold scal; simpl; unfold mult; simpl. ring.
Qed.
Lemma is_RInt_rsum n (f : R -> nat -> R) (l : nat -> R) a b :
  (forall i, (i < n)%nat -> is_RInt (fun x => f x i) a b (l i)) -> is_RInt (fun x => rsum n (f x)) a b (rsum n l).
Proof.
  induction n; intro H; cbn [rsum].
  - apply is_RInt_zero.
  - apply (@is_RInt_plus R_NormedModule); auto.
Qed.
Lemma psd_RInt n (f : R -> nat -> nat -> R) (l : nat -> nat -> R) a b : a <= b ->
  (forall i j, (i < n)%nat -> (j < n)%nat -> is_RInt (fun x => f x i j) a b (l i j)) ->
  (forall x, a < x < b -> psd n (f x)) -> psd n l.
Proof.
  intros Hab HI HP c. apply (is_RInt_le (fun _ => 0) (fun x => quad n (f x) c) a b); auto.
  - apply is_RInt_zero.
  - apply is_RInt_rsum. intros i Hi. apply is_RInt_rsum. intros j Hj.
    apply (@is_RInt_scal R_NormedModule). auto.
  - intros x Hx. now apply HP.
Qed.

(** * The Gaussian integral *)
Definition Phi (u : R) : R := RInt (fun t => exp (- (t * t))) 0 u.
Lemma gauss_cont u : continuous (fun t => exp (- (t * t))) u.
Proof. apply (@ex_derive_continuous). auto_derive. auto. Qed.
Lemma Phi_derive u : is_derive Phi u (exp (- (u * u))).
Proof.
  apply (is_derive_RInt (fun t => exp (- (t * t))) Phi 0 u).
  - exists (mkposreal 1 Rlt_0_1). intros y _. apply (@RInt_correct R_CompleteNormedModule).
    apply (@ex_RInt_continuous R_CompleteNormedModule). intros z _. apply gauss_cont.
  - apply gauss_cont.
Qed.
Lemma Phi_0 : Phi 0 = 0.
Proof. apply (@RInt_point R_CompleteNormedModule). Qed.

Lemma incr_of_derive (f f' : R -> R) : (forall x, is_derive f x (f' x)) -> (forall x, 0 <= f' x) ->
  forall x y, x <= y -> f x <= f y.
Proof.
  intros H H0 x y Hxy. destruct (Req_dec x y) as [->|Hne]; [lra|].
  destruct (MVT_gen f x y f') as (z & _ & E).
  - intros t _. apply H.
  - intros t _. apply continuity_pt_filterlim. apply (@ex_derive_continuous). exists (f' t). apply H.
  - specialize (H0 z). nra.
Qed.
Lemma Phi_incr x y : x <= y -> Phi x <= Phi y.
Proof. apply (incr_of_derive Phi (fun u => exp (- (u * u)))); [apply Phi_derive|]. intro; left; apply exp_pos. Qed.
Lemma Phi_neg_derive x : is_derive (fun u => Phi (- u)) x (- exp (- (x * x))).
Proof.
  evar_last.
  - apply (is_derive_comp Phi Ropp x (exp (- (- x * - x))) (- 1)); [apply Phi_derive|]. auto_derive; [auto|ring].
  - unfold scal; simpl; unfold mult; simpl. replace (- x * - x) with (x * x) by ring. ring.
Qed.
Lemma Phi_odd u : Phi (- u) = - Phi u.
Proof.
  assert (H : forall x y, x <= y -> Phi (- x) + Phi x <= Phi (- y) + Phi y).
  { apply (incr_of_derive (fun u => Phi (- u) + Phi u) (fun u => 0)); [|intros; lra].
    intro x. evar_last.
    - apply (is_derive_plus (fun u => Phi (- u)) Phi).
      + apply Phi_neg_derive.
      + apply Phi_derive.
    - unfold plus, opp; simpl. ring. }
  assert (H0 : forall x y, x <= y -> - (Phi (- x) + Phi x) <= - (Phi (- y) + Phi y)).
  { apply (incr_of_derive (fun u => - (Phi (- u) + Phi u)) (fun u => 0)); [|intros; lra].
    intro x. evar_last.
    - apply (is_derive_opp (fun u => Phi (- u) + Phi u)). apply (is_derive_plus (fun u => Phi (- u)) Phi).
      + apply Phi_neg_derive.
      + apply Phi_derive.
    - unfold plus, opp; simpl. ring. }
  assert (E : Phi (- 0) + Phi 0 = 0) by (rewrite Ropp_0, Phi_0; lra).
  destruct (Rle_dec 0 u) as [Hu|Hu].
  - specialize (H 0 u Hu). specialize (H0 0 u Hu). lra.
  - specialize (H u 0 ltac:(lra)). specialize (H0 u 0 ltac:(lra)). lra.
Qed.
Lemma Phi_bound u : 0 <= u -> Phi u <= PI / 2.
Proof.
  intro Hu. apply Rle_trans with (atan u); [|pose proof (atan_bound u); lra].
  assert (H : atan 0 - Phi 0 <= atan u - Phi u); [|rewrite atan_0, Phi_0 in H; lra].
  apply (incr_of_derive (fun u => atan u - Phi u) (fun u => / (1 + u * u) - exp (- (u * u)))); auto.
  - intro x. apply (is_derive_minus atan Phi); [|apply Phi_derive].
    replace (/ (1 + x * x)) with (/ (1 + x ^ 2)) by (f_equal; ring).
    apply is_derive_Reals. apply derivable_pt_lim_atan.
  - intro x. assert (1 + x * x <= exp (x * x)) by (apply exp_ineq1_le).
    rewrite exp_Ropp. assert (/ exp (x * x) <= / (1 + x * x)); [|lra]. apply Rinv_le_contravar; nra.
Qed.

(** the limit of [Phi] *)
Lemma Phi_limit : exists c, 0 < c /\ is_lim Phi p_infty c /\ is_lim Phi m_infty (- c).
Proof.
  destruct (ex_finite_lim_seq_incr (fun n => Phi (INR n)) (PI / 2)) as (c & Hc).
  - intro n. apply Phi_incr. rewrite S_INR. lra.
  - intro n. apply Phi_bound, pos_INR.
  - assert (Hle : forall u, Phi u <= c).
    { intro u. destruct (nfloor_ex (Rmax 0 u)) as (n & Hn); [apply Rmax_l|].
      apply Rle_trans with (Phi (INR (S n))).
      - apply Phi_incr. rewrite S_INR. pose proof (Rmax_r 0 u). lra.
      - apply (is_lim_seq_incr_compare (fun n => Phi (INR n)) c Hc). intro k. apply Phi_incr. rewrite S_INR. lra. }
    assert (Hp : is_lim Phi p_infty c).
    { apply is_lim_spec. intro eps. apply is_lim_seq_spec in Hc. destruct (Hc eps) as (n & Hn). specialize (Hn n (Nat.le_refl n)).
      exists (INR n). intros x Hx. pose proof (Phi_incr (INR n) x ltac:(lra)). specialize (Hle x).
      apply Rabs_def2 in Hn. apply Rabs_def1; pose proof (cond_pos eps); lra. }
    exists c. split; [|split; auto].
    + apply Rlt_le_trans with (Phi 1); auto. rewrite <- Phi_0.
      destruct (MVT_gen Phi 0 1 (fun u => exp (- (u * u)))) as (z & _ & E).
      * intros t _. apply Phi_derive.
      * intros t _. apply continuity_pt_filterlim. apply (@ex_derive_continuous). eexists. apply Phi_derive.
      * pose proof (exp_pos (- (z * z))). lra.
    + apply is_lim_spec. intro eps. apply is_lim_spec in Hp. destruct (Hp eps) as (A & HA).
      exists (- A). intros x Hx. specialize (HA (- x) ltac:(lra)). rewrite Phi_odd in HA.
      replace (Phi x - - c) with (- (- Phi x - c)) by ring. now rewrite Rabs_Ropp.
Qed.

(** * The primitives *)
Section Mixture.
Variable r : R.
Hypothesis Hr : 0 < r.
Definition E (x : R) : R := exp (- (r * r * (x * x) + / (4 * (x * x)))).
Definition G1 (x : R) : R := Phi (r * x - / (2 * x)).
Definition G2 (x : R) : R := Phi (r * x + / (2 * x)).
Lemma E_derive x : 0 < x -> is_derive E x ((- 2 * (r * r) * x + / (2 * (x * x * x))) * E x).
Proof.
  intro Hx. unfold E. auto_derive; [apply Rgt_not_eq; nra|]. field. lra.
Qed.
Lemma G1_derive x : 0 < x -> is_derive G1 x ((r + / (2 * (x * x))) * (exp r * E x)).
Proof.
  intro Hx. unfold G1. evar_last.
  - apply (is_derive_comp Phi (fun x => r * x - / (2 * x)) x (exp (- ((r * x - / (2 * x)) * (r * x - / (2 * x))))) (r + / (2 * (x * x)))); [apply Phi_derive|].
    auto_derive; [apply Rgt_not_eq; lra|]. field. lra.
  - unfold scal; simpl; unfold mult; simpl. f_equal. unfold E. rewrite <- exp_plus. f_equal. field. lra.
Qed.
Lemma G2_derive x : 0 < x -> is_derive G2 x ((r - / (2 * (x * x))) * (exp (- r) * E x)).
Proof.
  intro Hx. unfold G2. evar_last.
  - apply (is_derive_comp Phi (fun x => r * x + / (2 * x)) x (exp (- ((r * x + / (2 * x)) * (r * x + / (2 * x))))) (r - / (2 * (x * x)))); [apply Phi_derive|].
    auto_derive; [apply Rgt_not_eq; lra|]. field. lra.
  - unfold scal; simpl; unfold mult; simpl. f_equal. unfold E. rewrite <- exp_plus. f_equal. field. lra.
Qed.
Definition F2 (x : R) : R := 2 * (E x / x + (1 + r) * exp (- r) * G1 x - (1 - r) * exp r * G2 x).
Definition F3 (x : R) : R := 2 * (E x / (x * x * x) + 3 * F2 x + 2 * (r * r) * (exp (- r) * G1 x - exp r * G2 x)).

Lemma exp_cancel t : exp (- r) * (exp r * t) = t.
Proof. rewrite <- Rmult_assoc, <- exp_plus, Rplus_opp_l, exp_0. ring. Qed.
Lemma exp_cancel' t : exp r * (exp (- r) * t) = t.
Proof. rewrite <- Rmult_assoc, <- exp_plus, Rplus_opp_r, exp_0. ring. Qed.

Lemma F2_derive x : 0 < x -> is_derive F2 x (E x / (x * x * x * x)).
Proof.
  intro Hx. unfold F2. evar_last.
  - apply is_derive_scal. apply (is_derive_minus (fun x => E x / x + (1 + r) * exp (- r) * G1 x) (fun x => (1 - r) * exp r * G2 x)).
    + apply (is_derive_plus (fun x => E x / x)).
      * apply (is_derive_div E (fun x => x)); [apply E_derive; auto|apply is_derive_id|lra].
      * apply is_derive_scal, G1_derive, Hx.
    + apply is_derive_scal, G2_derive, Hx.
  - unfold minus, plus, opp, one; simpl.
    replace ((1 + r) * exp (- r) * ((r + / (2 * (x * x))) * (exp r * E x))) with ((1 + r) * (r + / (2 * (x * x))) * E x)
      by (rewrite <- (exp_cancel (E x)) at 1; ring).
    replace ((1 - r) * exp r * ((r - / (2 * (x * x))) * (exp (- r) * E x))) with ((1 - r) * (r - / (2 * (x * x))) * E x)
      by (rewrite <- (exp_cancel' (E x)) at 1; ring).
    field. lra.
Qed.
Lemma F3_derive x : 0 < x -> is_derive F3 x (E x / (x * x * x * x * x * x)).
Proof.
  intro Hx. unfold F3. evar_last.
  - apply is_derive_scal. apply (is_derive_plus (fun x => E x / (x * x * x) + 3 * F2 x) (fun x => 2 * (r * r) * (exp (- r) * G1 x - exp r * G2 x))).
    + apply (is_derive_plus (fun x => E x / (x * x * x))).
      * apply (is_derive_div E (fun x => x * x * x)); [apply E_derive; auto| |apply Rgt_not_eq; repeat apply Rmult_lt_0_compat; auto].
        instantiate (1 := 3 * (x * x)). auto_derive; [auto|]. ring.
      * apply is_derive_scal, F2_derive, Hx.
    + apply is_derive_scal. apply (is_derive_minus (fun x => exp (- r) * G1 x) (fun x => exp r * G2 x)).
      * apply is_derive_scal, G1_derive, Hx.
      * apply is_derive_scal, G2_derive, Hx.
  - unfold minus, plus, opp, one; simpl.
    replace (exp (- r) * ((r + / (2 * (x * x))) * (exp r * E x))) with ((r + / (2 * (x * x))) * E x)
      by (rewrite <- (exp_cancel (E x)) at 1; ring).
    replace (exp r * ((r - / (2 * (x * x))) * (exp (- r) * E x))) with ((r - / (2 * (x * x))) * E x)
      by (rewrite <- (exp_cancel' (E x)) at 1; ring).
    field. lra.
Qed.

(** limits at the ends of [1/q, q] *)
Let Q (q : nat) : R := INR (S q).
Lemma Q_ge1 q : 1 <= Q q.
Proof. unfold Q. rewrite S_INR. pose proof (pos_INR q). lra. Qed.
Lemma Q_lim : is_lim_seq Q p_infty.
Proof. apply (is_lim_seq_incr_1 INR). apply is_lim_seq_INR. Qed.
Lemma invQ_lim a : is_lim_seq (fun q => a * / Q q) 0.
Proof.
  replace (Finite 0) with (Rbar_mult a 0) by (simpl; f_equal; ring). apply is_lim_seq_scal_l.
  replace (Finite 0) with (Rbar_inv p_infty) by reflexivity. apply is_lim_seq_inv; [apply Q_lim|discriminate].
Qed.
Lemma squeeze u a : (forall q, 0 <= u q <= a * / Q q) -> is_lim_seq u 0.
Proof. intro H. apply is_lim_seq_le_le with (fun _ => 0) (fun q => a * / Q q); auto using is_lim_seq_const, invQ_lim. Qed.

Lemma exp_mono x y : x <= y -> exp x <= exp y.
Proof. intros [H| ->]; [left; now apply exp_increasing|lra]. Qed.
Lemma exp_sq y : 0 <= y -> y * y / 4 <= exp y.
Proof.
  intro H. replace y with (y / 2 + y / 2) at 3 by lra. rewrite exp_plus.
  pose proof (exp_ineq1_le (y / 2)). nra.
Qed.
Lemma E_pos x : 0 < E x. Proof. apply exp_pos. Qed.
Lemma E_le1 x : 0 < x -> E x <= 1.
Proof.
  intro Hx. unfold E. rewrite <- exp_0. apply exp_mono.
  assert (0 < / (4 * (x * x))) by (apply Rinv_0_lt_compat; nra). nra.
Qed.
Lemma E_inv q : E (/ Q q) <= 64 * (/ Q q * / Q q * / Q q * / Q q).
Proof.
  pose proof (Q_ge1 q) as H. set (t := Q q) in *. unfold E.
  apply Rle_trans with (exp (- (t * t / 4))).
  - apply exp_mono. replace (/ (4 * (/ t * / t))) with (t * t / 4) by (field; lra).
    assert (0 < / t) by (apply Rinv_0_lt_compat; lra). nra.
  - rewrite exp_Ropp. assert (Hq : 0 <= t * t / 4) by nra. pose proof (exp_sq _ Hq).
    replace (64 * (/ t * / t * / t * / t)) with (/ (t * t / 4 * (t * t / 4) / 4)) by (field; lra).
    apply Rinv_le_contravar; [|auto]. assert (0 < t * t) by nra. nra.
Qed.
Lemma end_bounds q : 0 <= E (Q q) / Q q <= 1 * / Q q /\ 0 <= E (Q q) / (Q q * Q q * Q q) <= 1 * / Q q /\
  0 <= E (/ Q q) / / Q q <= 64 * / Q q /\ 0 <= E (/ Q q) / (/ Q q * / Q q * / Q q) <= 64 * / Q q.
Proof.
  pose proof (Q_ge1 q) as H. pose proof (E_inv q) as Hi. pose proof (E_pos (Q q)) as Hp1. pose proof (E_pos (/ Q q)) as Hp2.
  pose proof (E_le1 (Q q) ltac:(lra)) as H1. set (t := Q q) in *.
  assert (Ht : 0 < / t) by (apply Rinv_0_lt_compat; lra).
  assert (Ht1 : / t <= 1) by (rewrite <- Rinv_1; apply Rinv_le_contravar; lra).
  set (e := E (/ t)) in *. set (f := E t) in *.
  replace (f / t) with (f * / t) by reflexivity.
  replace (f / (t * t * t)) with (f * (/ t * / t * / t)) by (field; lra).
  replace (e / / t) with (e * t) by (field; lra).
  replace (e / (/ t * / t * / t)) with (e * (t * t * t)) by (field; lra).
  assert (Ec : e * (t * t * t) <= 64 * / t).
  { apply Rle_trans with (64 * (/ t * / t * / t * / t) * (t * t * t)).
    - apply Rmult_le_compat_r; auto. repeat apply Rmult_le_pos; lra.
    - right. field. lra. }
  assert (H3 : / t * / t * / t <= / t).
  { assert (/ t * / t <= 1) by nra. assert (0 <= / t * / t) by nra. nra. }
  assert (H4 : 0 < / t * / t * / t) by (repeat apply Rmult_lt_0_compat; auto).
  assert (H5 : t <= t * t * t) by (assert (1 <= t * t) by nra; nra).
  repeat split; try nra.
Qed.

Variable c : R.
Hypothesis Hc1 : is_lim Phi p_infty c.
Hypothesis Hc2 : is_lim Phi m_infty (- c).

Lemma Phi_along (u : nat -> R) : is_lim_seq u p_infty -> is_lim_seq (fun q => Phi (u q)) c.
Proof. intro H. apply (is_lim_comp_seq Phi u p_infty c Hc1); auto. exists O. intros; discriminate. Qed.
Lemma Phi_along_m (u : nat -> R) : is_lim_seq u m_infty -> is_lim_seq (fun q => Phi (u q)) (- c).
Proof. intro H. apply (is_lim_comp_seq Phi u m_infty (- c) Hc2); auto. exists O. intros; discriminate. Qed.
Lemma lin_lim a b : 0 < a -> is_lim_seq (fun q => a * Q q + b) p_infty.
Proof.
  intro Ha. replace p_infty with (Rbar_plus p_infty b) by reflexivity.
  apply (is_lim_seq_plus _ _ p_infty b); [|apply is_lim_seq_const|reflexivity].
  replace p_infty with (Rbar_mult a p_infty).
  - apply is_lim_seq_scal_l, Q_lim.
  - simpl. destruct (Rle_dec 0 a) as [H|H]; [|lra]. destruct (Rle_lt_or_eq_dec 0 a H); [reflexivity|lra].
Qed.
Lemma invQ_bound q : 0 < / Q q <= 1.
Proof.
  pose proof (Q_ge1 q). split; [apply Rinv_0_lt_compat; lra|]. rewrite <- Rinv_1. apply Rinv_le_contravar; lra.
Qed.
Lemma G1_end : is_lim_seq (fun q => G1 (Q q)) c.
Proof.
  apply Phi_along. apply is_lim_seq_le_p_loc with (fun q => r * Q q + - 1); [|apply lin_lim; auto].
  exists O. intros q _. pose proof (invQ_bound q). pose proof (Q_ge1 q). rewrite Rinv_mult. lra.
Qed.
Lemma G2_end : is_lim_seq (fun q => G2 (Q q)) c.
Proof.
  apply Phi_along. apply is_lim_seq_le_p_loc with (fun q => r * Q q + 0); [|apply lin_lim; auto].
  exists O. intros q _. pose proof (invQ_bound q). pose proof (Q_ge1 q). rewrite Rinv_mult. lra.
Qed.
Lemma G2_start : is_lim_seq (fun q => G2 (/ Q q)) c.
Proof.
  apply Phi_along. apply is_lim_seq_le_p_loc with (fun q => / 2 * Q q + 0); [|apply lin_lim; lra].
  exists O. intros q _. pose proof (invQ_bound q). pose proof (Q_ge1 q). rewrite Rinv_mult, Rinv_inv. nra.
Qed.
Lemma G1_start : is_lim_seq (fun q => G1 (/ Q q)) (- c).
Proof.
  apply Phi_along_m. apply is_lim_seq_ext with (fun q => - (/ 2 * Q q + - (r * / Q q))).
  { intro q. rewrite Rinv_mult, Rinv_inv. ring. }
  apply (is_lim_seq_opp _ p_infty).
  apply is_lim_seq_le_p_loc with (fun q => / 2 * Q q + - r); [|apply lin_lim; lra].
  exists O. intros q _. pose proof (invQ_bound q). nra.
Qed.
Lemma lim_scal u a (l : R) : is_lim_seq u l -> is_lim_seq (fun q => a * u q) (a * l).
Proof. intro H. apply (is_lim_seq_scal_l u a l H). Qed.
Lemma lim_plus u v (a b : R) : is_lim_seq u a -> is_lim_seq v b -> is_lim_seq (fun q => u q + v q) (a + b).
Proof. apply is_lim_seq_plus'. Qed.
Lemma lim_minus u v (a b : R) : is_lim_seq u a -> is_lim_seq v b -> is_lim_seq (fun q => u q - v q) (a - b).
Proof. apply is_lim_seq_minus'. Qed.
Lemma F2_limit : is_lim_seq (fun q => F2 (Q q) - F2 (/ Q q)) (4 * c * ((1 + r) * exp (- r))).
Proof.
  assert (H1 : is_lim_seq (fun q => E (Q q) / Q q) 0) by (apply squeeze with 1; intro q; apply end_bounds).
  assert (H2 : is_lim_seq (fun q => E (/ Q q) / / Q q) 0) by (apply squeeze with 64; intro q; apply end_bounds).
  replace (4 * c * ((1 + r) * exp (- r))) with
    (2 * (0 + (1 + r) * exp (- r) * c - (1 - r) * exp r * c) - 2 * (0 + (1 + r) * exp (- r) * - c - (1 - r) * exp r * c)) by ring.
  unfold F2.
  apply lim_minus; apply lim_scal; (apply lim_minus; [apply lim_plus; auto|]); apply lim_scal;
    auto using G1_end, G2_end, G1_start, G2_start.
Qed.
Lemma F3_limit : is_lim_seq (fun q => F3 (Q q) - F3 (/ Q q)) (24 * c * ((1 + r + r * r / 3) * exp (- r))).
Proof.
  assert (H1 : is_lim_seq (fun q => E (Q q) / (Q q * Q q * Q q)) 0) by (apply squeeze with 1; intro q; apply end_bounds).
  assert (H2 : is_lim_seq (fun q => E (/ Q q) / (/ Q q * / Q q * / Q q)) 0) by (apply squeeze with 64; intro q; apply end_bounds).
  replace (24 * c * ((1 + r + r * r / 3) * exp (- r))) with
    (2 * ((0 - 0) + 3 * (4 * c * ((1 + r) * exp (- r)))
          + 2 * (r * r) * ((exp (- r) * c - exp r * c) - (exp (- r) * - c - exp r * c)))) by field.
  apply is_lim_seq_ext with (fun q => 2 * ((E (Q q) / (Q q * Q q * Q q) - E (/ Q q) / (/ Q q * / Q q * / Q q))
     + 3 * (F2 (Q q) - F2 (/ Q q))
     + 2 * (r * r) * ((exp (- r) * G1 (Q q) - exp r * G2 (Q q)) - (exp (- r) * G1 (/ Q q) - exp r * G2 (/ Q q))))).
  { intro q. unfold F3. ring. }
  apply lim_scal. apply lim_plus; [apply lim_plus; [apply lim_minus; auto|apply lim_scal, F2_limit]|].
  apply lim_scal. apply lim_minus; apply lim_minus; apply lim_scal; auto using G1_end, G2_end, G1_start, G2_start.
Qed.

(** the integrals over [1/q, q] *)
Lemma F2_int q : is_RInt (fun x => E x / (x * x * x * x)) (/ Q q) (Q q) (F2 (Q q) - F2 (/ Q q)).
Proof.
  pose proof (invQ_bound q). pose proof (Q_ge1 q).
  apply (is_RInt_derive (V := R_CompleteNormedModule) F2 (fun x => E x / (x * x * x * x))); intros x Hx;
    rewrite Rmin_left in Hx by lra.
  - apply F2_derive. lra.
  - apply (@ex_derive_continuous). exists ((((- 2 * (r * r) * x + / (2 * (x * x * x))) * E x) * (x * x * x * x) - E x * (4 * (x * x * x))) / (x * x * x * x) ^ 2).
    apply (is_derive_div E (fun x => x * x * x * x)).
    + apply E_derive. lra.
    + auto_derive; [auto|ring].
    + apply Rgt_not_eq. repeat apply Rmult_lt_0_compat; lra.
Qed.
Lemma F3_int q : is_RInt (fun x => E x / (x * x * x * x * x * x)) (/ Q q) (Q q) (F3 (Q q) - F3 (/ Q q)).
Proof.
  pose proof (invQ_bound q). pose proof (Q_ge1 q).
  apply (is_RInt_derive (V := R_CompleteNormedModule) F3 (fun x => E x / (x * x * x * x * x * x))); intros x Hx;
    rewrite Rmin_left in Hx by lra.
  - apply F3_derive. lra.
  - apply (@ex_derive_continuous). exists ((((- 2 * (r * r) * x + / (2 * (x * x * x))) * E x) * (x * x * x * x * x * x) - E x * (6 * (x * x * x * x * x))) / (x * x * x * x * x * x) ^ 2).
    apply (is_derive_div E (fun x => x * x * x * x * x * x)).
    + apply E_derive. lra.
    + auto_derive; [auto|ring].
    + apply Rgt_not_eq. repeat apply Rmult_lt_0_compat; lra.
Qed.
End Mixture.

(** * The Matern functions *)
Section Matern.
Variables (n m : nat) (U : nat -> nat -> R).
(** squared distance of the points [i] and [j] *)
Let s (i j : nat) : R := rsum m (fun k => (U i k - U j k) * (U i k - U j k)).
Lemma s_nonneg i j : 0 <= s i j.
Proof. apply rsum_nonneg. intros k _; apply Rle_0_sqr. Qed.

(** a positive weight does not matter *)
Lemma weight_psd x w eta : 0 <= w -> 0 < x -> 0 < eta ->
  psd n (fun i j => E (sqrt (s i j + eta)) x * w).
Proof.
  intros Hw Hx He.
  assert (Hp : 0 <= w * exp (- (eta * (x * x) + / (4 * (x * x))))) by (apply Rmult_le_pos; auto; left; apply exp_pos).
  eapply psd_ext; [|exact (psd_scal n _ _ Hp (psd_gauss n m (x * x) U ltac:(nra)))].
  intros i j _ _. fold (s i j). unfold E. rewrite sqrt_def by (pose proof (s_nonneg i j); lra).
  rewrite Rmult_assoc, <- exp_plus, Rmult_comm. f_equal. f_equal. ring.
Qed.
Lemma matern3_eta eta : 0 < eta -> psd n (fun i j => (1 + sqrt (s i j + eta)) * exp (- sqrt (s i j + eta))).
Proof.
  intro He. destruct Phi_limit as (c & Hc & H1 & H2).
  assert (Hs : forall i j, 0 < sqrt (s i j + eta)) by (intros; apply sqrt_lt_R0; pose proof (s_nonneg i j); lra).
  apply psd_ext with (fun i j => / (4 * c) * (4 * c * ((1 + sqrt (s i j + eta)) * exp (- sqrt (s i j + eta))))).
  { intros i j _ _. field. lra. }
  apply psd_scal; [left; apply Rinv_0_lt_compat; lra|].
  apply psd_limit with (A := fun q i j => F2 (sqrt (s i j + eta)) (INR (S q)) - F2 (sqrt (s i j + eta)) (/ INR (S q))).
  - intro q. pose proof (invQ_bound q). pose proof (Q_ge1 q).
    apply psd_RInt with (f := fun x i j => E (sqrt (s i j + eta)) x / (x * x * x * x)) (a := / INR (S q)) (b := INR (S q)); [lra| |].
    + intros i j _ _. apply F2_int.
    + intros x Hx. apply weight_psd; try lra. left. apply Rinv_0_lt_compat. repeat apply Rmult_lt_0_compat; lra.
  - intros i j _ _. apply is_lim_seq_Reals. apply F2_limit; auto.
Qed.
Lemma matern5_eta eta : 0 < eta ->
  psd n (fun i j => (1 + sqrt (s i j + eta) + sqrt (s i j + eta) * sqrt (s i j + eta) / 3) * exp (- sqrt (s i j + eta))).
Proof.
  intro He. destruct Phi_limit as (c & Hc & H1 & H2).
  assert (Hs : forall i j, 0 < sqrt (s i j + eta)) by (intros; apply sqrt_lt_R0; pose proof (s_nonneg i j); lra).
  apply psd_ext with (fun i j => / (24 * c) * (24 * c * ((1 + sqrt (s i j + eta) + sqrt (s i j + eta) * sqrt (s i j + eta) / 3) * exp (- sqrt (s i j + eta))))).
  { intros i j _ _. field. lra. }
  apply psd_scal; [left; apply Rinv_0_lt_compat; lra|].
  apply psd_limit with (A := fun q i j => F3 (sqrt (s i j + eta)) (INR (S q)) - F3 (sqrt (s i j + eta)) (/ INR (S q))).
  - intro q. pose proof (invQ_bound q). pose proof (Q_ge1 q).
    apply psd_RInt with (f := fun x i j => E (sqrt (s i j + eta)) x / (x * x * x * x * x * x)) (a := / INR (S q)) (b := INR (S q)); [lra| |].
    + intros i j _ _. apply F3_int.
    + intros x Hx. apply weight_psd; try lra. left. apply Rinv_0_lt_compat. repeat apply Rmult_lt_0_compat; lra.
  - intros i j _ _. apply is_lim_seq_Reals. apply F3_limit; auto.
Qed.

Lemma eta_lim a : Un_cv (fun q => a + / INR (S q)) a.
Proof.
  apply is_lim_seq_Reals. replace (Finite a) with (Finite (a + 0)) by (f_equal; ring).
  apply is_lim_seq_plus'; [apply is_lim_seq_const|].
  apply is_lim_seq_ext with (fun q => 1 * / INR (S q)); [intro; ring|apply invQ_lim].
Qed.
Lemma matern3_psd : psd n (fun i j => (1 + sqrt (s i j)) * exp (- sqrt (s i j))).
Proof.
  apply psd_limit with (A := fun q i j => (1 + sqrt (s i j + / INR (S q))) * exp (- sqrt (s i j + / INR (S q)))).
  - intro q. apply matern3_eta. apply invQ_bound.
  - intros i j _ _. apply (continuity_seq (fun y => (1 + sqrt y) * exp (- sqrt y)) (fun q => s i j + / INR (S q)) (s i j)); [|apply eta_lim].
    assert (Hq : continuity_pt sqrt (s i j)) by (apply continuity_pt_sqrt, s_nonneg).
    apply (continuity_pt_mult (fun y => 1 + sqrt y) (fun y => exp (- sqrt y))).
    + apply (continuity_pt_plus (fun _ => 1) sqrt); auto. apply continuity_pt_const. now intros ? ?.
    + apply (continuity_pt_comp (fun y => - sqrt y) exp); [now apply (continuity_pt_opp sqrt)|].
      apply derivable_continuous_pt, derivable_pt_exp.
Qed.
Lemma matern5_psd : psd n (fun i j => (1 + sqrt (s i j) + sqrt (s i j) * sqrt (s i j) / 3) * exp (- sqrt (s i j))).
Proof.
  apply psd_limit with (A := fun q i j => (1 + sqrt (s i j + / INR (S q)) + sqrt (s i j + / INR (S q)) * sqrt (s i j + / INR (S q)) / 3) * exp (- sqrt (s i j + / INR (S q)))).
  - intro q. apply matern5_eta. apply invQ_bound.
  - intros i j _ _.
    apply (continuity_seq (fun y => (1 + sqrt y + sqrt y * sqrt y / 3) * exp (- sqrt y)) (fun q => s i j + / INR (S q)) (s i j)); [|apply eta_lim].
    assert (Hq : continuity_pt sqrt (s i j)) by (apply continuity_pt_sqrt, s_nonneg).
    assert (Hcst : forall a, continuity_pt (fun _ => a) (s i j)) by (intro; apply continuity_pt_const; now intros ? ?).
    apply (continuity_pt_mult (fun y => 1 + sqrt y + sqrt y * sqrt y / 3) (fun y => exp (- sqrt y))).
    + apply (continuity_pt_plus (fun y => 1 + sqrt y) (fun y => sqrt y * sqrt y / 3)).
      * apply (continuity_pt_plus (fun _ => 1) sqrt); auto.
      * apply (continuity_pt_mult (fun y => sqrt y * sqrt y) (fun _ => / 3)); auto.
        now apply (continuity_pt_mult sqrt sqrt).
    + apply (continuity_pt_comp (fun y => - sqrt y) exp); [now apply (continuity_pt_opp sqrt)|].
      apply derivable_continuous_pt, derivable_pt_exp.
Qed.
End Matern.
