(** Derivative of the log-density of the sparse Gaussian process along a path of parameters, in the form that the program computes. *)
From Coq Require Import Reals List Bool Lia Lra.
From Coquelicot Require Import Coquelicot.
From Verif Require Import LinAlgModel LinAlg Det MatCalc Prop_Lik SpgpAlg.
Open Scope R_scope.

(** * Triangular systems *)
Lemma fwd_unique m L b x : lower m L -> veq m (mvec m L x) b -> veq m x (fwd m L b).
Proof.
  intros [U D] H i. induction i as [i IH] using (well_founded_induction Wf_nat.lt_wf). intro Hi.
  pose proof (D i Hi) as P. specialize (H i Hi). unfold mvec in H.
  rewrite (rsum_trunc m (S i)) in H; [|lia|intros k Hk; rewrite (U i k) by lia; ring]. cbn [rsum] in H.
  rewrite fwd_eq by auto. rewrite <- (rsum_ext i (fun j => L i j * x j)); [|intros k Hk; rewrite IH by lia; reflexivity].
  rewrite <- H. field. lra.
Qed.
Lemma lower_mul m L Lm : lower m L -> lower m Lm -> lower m (mmul m L Lm).
Proof.
  intros [U D] [U' D']. split.
  - intros i j Hi Hj Hij. apply rsum_0. intros k Hk. destruct (Nat.lt_ge_cases i k).
    + rewrite U by auto. ring.
    + rewrite U' by lia. ring.
  - intros i Hi. replace (mmul m L Lm i i) with (L i i * Lm i i); [apply Rmult_lt_0_compat; auto|].
    unfold mmul. rewrite <- (rsum_delta m i (fun k => L i k * Lm k i) Hi). apply rsum_ext. intros k Hk.
    destruct (Nat.eqb_spec k i) as [->|]; [reflexivity|]. destruct (Nat.lt_ge_cases i k); [rewrite U by auto; ring|rewrite U' by lia; ring].
Qed.
Lemma fwd_mul m L Lm b : lower m L -> lower m Lm -> veq m (fwd m Lm (fwd m L b)) (fwd m (mmul m L Lm) b).
Proof.
  intros H1 H2. apply fwd_unique; [now apply lower_mul|]. intros i Hi.
  transitivity (mvec m L (mvec m Lm (fwd m Lm (fwd m L b))) i); [apply (mvec_mmul m L Lm)|].
  rewrite <- (fwd_solves m L b H1 i Hi). apply rsum_ext. intros k Hk. now rewrite (fwd_solves m Lm _ H2 k Hk).
Qed.
Lemma fwd_scale m L b z i : lower m L -> (i < m)%nat -> fwd m L (fun a => b a * z) i = fwd m L b i * z.
Proof.
  intros HL Hi. symmetry. apply (fwd_unique m L (fun a => b a * z) (fun i => fwd m L b i * z) HL); auto. intros k Hk.
  unfold mvec. rewrite (rsum_ext m _ (fun a => L k a * fwd m L b a * z)) by (intros; ring). rewrite rsum_scal_r. f_equal. now apply (fwd_solves m L b HL).
Qed.
(** both substitutions: product with the inverse *)
Lemma both_inv m L A B b i : is_chol m L A -> is_inv m A B -> (i < m)%nat -> bwd m L (fwd m L b) i = mvec m B b i.
Proof. intros HL HB. apply (inv_solves m A B b _ HB). now apply solve_both. Qed.
Lemma inv_of_delta m L A B i j : is_chol m L A -> is_inv m A B -> (i < m)%nat -> (j < m)%nat ->
  rsum m (fun k => fwd m L (fun a => if (a =? i)%nat then 1 else 0) k * fwd m L (fun a => if (a =? j)%nat then 1 else 0) k) = B i j.
Proof.
  intros HL HB Hi Hj. rewrite <- (bilin_chol m L A B _ _ HL HB).
  rewrite (rsum_ext m _ (fun a => if (a =? i)%nat then B a j else 0)); [now rewrite rsum_delta|].
  intros a Ha. rewrite (rsum_ext m _ (fun b => if (b =? j)%nat then (if (a =? i)%nat then B a b else 0) else 0)).
  - rewrite rsum_delta by auto. reflexivity.
  - intros b Hb. destruct (a =? i)%nat, (b =? j)%nat; ring.
Qed.

(** * Log-density along a path of covariance matrices *)
Section Gauss.
Variables (n : nat) (At : R -> nat -> nat -> R) (A' : nat -> nat -> R) (t0 : R) (LA : R -> nat -> nat -> R) (r : nat -> R).
Hypothesis HA : forall i j, (i < n)%nat -> (j < n)%nat -> is_derive (fun t => At t i j) t0 (A' i j).
Hypothesis HL : forall t, is_chol n (LA t) (At t).
Let Ai := inv_of n (LA t0).
Let al i := rsum n (fun j => Ai i j * r j).
Lemma gauss_derive : is_derive (fun t => log_gauss n (At t) (inv_of n (LA t)) r) t0
  (1 / 2 * rsum n (fun i => rsum n (fun j => (al i * al j - Ai i j) * A' i j))).
Proof.
  destruct (inv_of_is_inv n (LA t0) (At t0) (HL t0)) as [HB SB]. fold Ai in HB, SB.
  apply is_derive_ext with (f := fun t => - (1 / 2) * rsum n (fun a => rsum n (fun b => r a * inv_of n (LA t) a b * r b)) - 1 / 2 * (2 * rsum n (fun i => ln (LA t i i))) - INR n / 2 * ln (2 * PI)).
  { intro t. unfold log_gauss. rewrite (proj2 (logdet_chol n _ _ (HL t))). reflexivity. }
  eapply is_derive_val'.
  - apply @is_derive_minus; [apply @is_derive_minus; [apply is_derive_scal|apply is_derive_scal, (logdet_derive n At A' t0 LA HA HL Ai HB SB)]|apply @is_derive_const].
    apply (is_derive_sum n (fun a t => rsum n (fun b => r a * inv_of n (LA t) a b * r b)) (fun a => rsum n (fun b => r a * (- rsum n (fun p => rsum n (fun q => Ai a p * A' p q * Ai q b))) * r b))).
    intros a Ha. apply (is_derive_sum n (fun b t => r a * inv_of n (LA t) a b * r b)). intros b Hb.
    apply is_derive_ext with (f := fun t => (r a * r b) * inv_of n (LA t) a b); [intro; req; ring|].
    eapply is_derive_val'; [apply is_derive_scal, (inv_derive n At A' t0 LA HA HL a b Ha Hb)|]. fold Ai. req. ring.
  - unfold minus, plus, opp, zero; simpl. req.
    assert (E : rsum n (fun a => rsum n (fun b => r a * - rsum n (fun p => rsum n (fun q => Ai a p * A' p q * Ai q b)) * r b)) = - rsum n (fun i => rsum n (fun j => al i * al j * A' i j))).
    { rewrite <- rsum_opp.
      transitivity (rsum n (fun a => rsum n (fun p => rsum n (fun q => - (r a * Ai a p * A' p q * al q))))).
      - apply rsum_ext. intros a Ha.
        transitivity (rsum n (fun b => rsum n (fun p => rsum n (fun q => - (r a * Ai a p * A' p q * (Ai q b * r b)))))).
        + apply rsum_ext. intros b Hb. rewrite <- rsum_opp, <- rsum_scal_l, <- rsum_scal_r. apply rsum_ext. intros p Hp. rewrite <- rsum_opp, <- rsum_scal_l, <- rsum_scal_r. apply rsum_ext. intros; ring.
        + rewrite rsum_swap. apply rsum_ext. intros p Hp. rewrite rsum_swap. apply rsum_ext. intros q Hq. rewrite rsum_opp, rsum_scal_l. reflexivity.
      - rewrite rsum_swap. apply rsum_ext. intros p Hp. rewrite rsum_swap, <- rsum_opp. apply rsum_ext. intros q Hq.
        rewrite (rsum_ext n _ (fun a => Ai p a * r a * (- (A' p q * al q)))) by (intros a Ha; rewrite (SB a p) by auto; ring). rewrite rsum_scal_r. fold (al p). ring. }
    rewrite E. rewrite (rsum_ext n (fun i => rsum n (fun j => (al i * al j - Ai i j) * A' i j)) (fun i => rsum n (fun j => al i * al j * A' i j) - rsum n (fun j => Ai i j * A' i j))).
    + rewrite rsum_minus. field.
    + intros i _. rewrite <- rsum_minus. apply rsum_ext. intros; ring.
Qed.
End Gauss.

(** * The covariance of the observations along a path *)
Section Cov.
Variables (m : nat) (Qt Kt : R -> nat -> nat -> R) (ct st : R -> R) (Q' K' : nat -> nat -> R) (c' s' t0 : R) (L : R -> nat -> nat -> R).
Hypothesis HQ : forall a b, (a < m)%nat -> (b < m)%nat -> is_derive (fun t => Qt t a b) t0 (Q' a b).
Hypothesis HK : forall a j, (a < m)%nat -> is_derive (fun t => Kt t a j) t0 (K' a j).
Hypothesis Hc : is_derive ct t0 c'.
Hypothesis Hs : is_derive st t0 s'.
Hypothesis HL : forall t, is_chol m (L t) (Qt t).
Let B := inv_of m (L t0).
Let P0 a j := rsum m (fun b => B a b * Kt t0 b j).
Definition q' (i j : nat) : R :=
  rsum m (fun a => K' a i * P0 a j) + rsum m (fun a => P0 a i * K' a j) - rsum m (fun a => rsum m (fun b => P0 a i * Q' a b * P0 b j)).
Lemma q_derive i j : is_derive (fun t => q_ m (inv_of m (L t)) (fun a => Kt t a i) (fun a => Kt t a j)) t0 (q' i j).
Proof.
  destruct (inv_of_is_inv m (L t0) (Qt t0) (HL t0)) as [HB SB]. fold B in HB, SB. unfold q_.
  eapply is_derive_val'.
  - apply (is_derive_sum m (fun a t => rsum m (fun b => Kt t a i * inv_of m (L t) a b * Kt t b j))
      (fun a => rsum m (fun b => (K' a i * B a b + Kt t0 a i * (- rsum m (fun p => rsum m (fun q => B a p * Q' p q * B q b)))) * Kt t0 b j + Kt t0 a i * B a b * K' b j))).
    intros a Ha. apply (is_derive_sum m (fun b t => Kt t a i * inv_of m (L t) a b * Kt t b j)). intros b Hb.
    apply (is_derive_mul (fun t => Kt t a i * inv_of m (L t) a b) (fun t => Kt t b j)); [|now apply HK].
    apply (is_derive_mul (fun t => Kt t a i) (fun t => inv_of m (L t) a b)); [now apply HK|]. apply (inv_derive m Qt Q' t0 L HQ HL a b Ha Hb).
  - unfold q'. transitivity (rsum m (fun a => rsum m (fun b => K' a i * (B a b * Kt t0 b j))) + rsum m (fun a => rsum m (fun b => Kt t0 a i * B a b * K' b j))
      - rsum m (fun a => rsum m (fun b => rsum m (fun p => rsum m (fun q => Kt t0 a i * B a p * Q' p q * (B q b * Kt t0 b j)))))).
    + rewrite <- rsum_plus, <- rsum_minus. apply rsum_ext. intros a Ha. rewrite <- rsum_plus, <- rsum_minus. apply rsum_ext. intros b Hb.
      replace (rsum m (fun p => rsum m (fun q => Kt t0 a i * B a p * Q' p q * (B q b * Kt t0 b j)))) with (Kt t0 a i * rsum m (fun p => rsum m (fun q => B a p * Q' p q * B q b)) * Kt t0 b j); [req; ring|].
      rewrite <- rsum_scal_l, <- rsum_scal_r. apply rsum_ext. intros p Hp. rewrite <- rsum_scal_l, <- rsum_scal_r. apply rsum_ext. intros; ring.
    + f_equal; [f_equal|].
      * apply rsum_ext. intros a Ha. now rewrite rsum_scal_l.
      * rewrite rsum_swap. apply rsum_ext. intros b Hb. rewrite rsum_scal_r. f_equal. apply rsum_ext. intros a Ha. rewrite (SB a b) by auto. ring.
      * transitivity (rsum m (fun a => rsum m (fun p => rsum m (fun q => Kt t0 a i * B a p * (Q' p q * P0 q j))))).
        -- apply rsum_ext. intros a Ha. rewrite rsum_swap. apply rsum_ext. intros p Hp. rewrite rsum_swap. apply rsum_ext. intros q Hq. rewrite rsum_scal_l. unfold P0. ring.
        -- rewrite rsum_swap. apply rsum_ext. intros p Hp. rewrite rsum_swap. apply rsum_ext. intros q Hq. rewrite rsum_scal_r.
           replace (rsum m (fun a => Kt t0 a i * B a p)) with (P0 p i); [ring|]. apply rsum_ext. intros a Ha. rewrite (SB a p) by auto. ring.
Qed.
Lemma A_derive i j : is_derive (fun t => A_ m (Kt t) (ct t) (st t) (inv_of m (L t)) i j) t0 (q' i j + delta i j * (c' - q' i i + s')).
Proof.
  unfold A_. apply @is_derive_plus; [apply q_derive|]. apply is_derive_scal. apply @is_derive_plus; [|exact Hs].
  apply @is_derive_minus; [exact Hc|apply q_derive].
Qed.
End Cov.

(** * The derivative in terms of the scaled quantities *)
Section Scaled.
Variables (m n : nat) (L K0 : nat -> nat -> R) (c s : R) (Ai : nat -> nat -> R) (r : nat -> R).
Variables (Q' K' : nat -> nat -> R) (c' s' : R).
Hypothesis Hep : forall j, (j < n)%nat -> 0 < ep m L K0 c s j.
Hypothesis SAi : symm n Ai.
Let B := inv_of m L.
Let e j := sqrt (ep m L K0 c s j).
Let y := y_ m L K0 c s r.
Let Hi := Hi_ m L K0 c s Ai.
Definition w_Kc (a j : nat) : R := K0 a j / sqrt (ep m L K0 c s j).
Definition w_P (a j : nat) : R := rsum m (fun b => inv_of m L a b * w_Kc b j).
Definition w_beta (j : nat) : R := rsum n (fun i => Hi_ m L K0 c s Ai j i * y_ m L K0 c s r i).
Definition w_dK (a j : nat) : R := K' a j / sqrt (ep m L K0 c s j).
Definition w_Z (i j : nat) : R := Hi_ m L K0 c s Ai i j - w_beta i * w_beta j.
Definition w_U (a j : nat) : R := rsum n (fun i => w_P a i * w_Z i j).
Definition w_T (a b : nat) : R := rsum n (fun j => w_U a j * w_P b j).
Let al i := rsum n (fun j => Ai i j * r j).
Let P0 a j := rsum m (fun b => B a b * K0 b j).
Let qp (i j : nat) : R :=
  rsum m (fun a => K' a i * P0 a j) + rsum m (fun a => P0 a i * K' a j) - rsum m (fun a => rsum m (fun b => P0 a i * Q' a b * P0 b j)).
Definition w_qs (i j : nat) : R :=
  rsum m (fun a => w_dK a i * w_P a j) + rsum m (fun a => w_P a i * w_dK a j) - rsum m (fun a => rsum m (fun b => w_P a i * Q' a b * w_P b j)).
Lemma e_pos j : (j < n)%nat -> 0 < e j /\ e j * e j = ep m L K0 c s j.
Proof. intro Hj. exact (ep_sqrt m n L K0 c s Hep j Hj). Qed.
Lemma P0_P a j : (j < n)%nat -> P0 a j = w_P a j * e j.
Proof. intro Hj. destruct (e_pos j Hj). unfold P0, w_P, w_Kc. rewrite <- rsum_scal_r. apply rsum_ext. intros b _. fold (e j). fold B. field. lra. Qed.
Lemma K'_dK a j : (j < n)%nat -> K' a j = w_dK a j * e j.
Proof. intro Hj. destruct (e_pos j Hj). unfold w_dK. fold (e j). field. lra. Qed.
Lemma qp_qs i j : (i < n)%nat -> (j < n)%nat -> qp i j = e i * e j * w_qs i j.
Proof.
  intros Hi' Hj. unfold qp, w_qs. rewrite Rmult_minus_distr_l, Rmult_plus_distr_l, <- !rsum_scal_l. f_equal; [f_equal|].
  - apply rsum_ext. intros a _. rewrite P0_P, K'_dK by auto. ring.
  - apply rsum_ext. intros a _. rewrite P0_P, K'_dK by auto. ring.
  - apply rsum_ext. intros a _. rewrite <- rsum_scal_l. apply rsum_ext. intros b _. rewrite !P0_P by auto. ring.
Qed.
Lemma al_beta i : (i < n)%nat -> al i = w_beta i / e i.
Proof.
  intro H. destruct (e_pos i H). unfold al, w_beta, Rdiv. rewrite <- rsum_scal_r. apply rsum_ext. intros j Hj. destruct (e_pos j Hj).
  unfold Hi_, y_. fold (e i) (e j). field. lra.
Qed.
Lemma Z_symm i j : (i < n)%nat -> (j < n)%nat -> w_Z i j = w_Z j i.
Proof. intros H1 H2. unfold w_Z, Hi_. rewrite (SAi i j) by auto. ring. Qed.
Lemma sum_Zqs : rsum n (fun i => rsum n (fun j => w_Z i j * w_qs i j)) =
  2 * rsum m (fun a => rsum n (fun j => w_U a j * w_dK a j)) - rsum m (fun a => rsum m (fun b => w_T a b * Q' a b)).
Proof.
  assert (E1 : rsum n (fun i => rsum n (fun j => w_Z i j * rsum m (fun a => w_P a i * w_dK a j))) = rsum m (fun a => rsum n (fun j => w_U a j * w_dK a j))).
  { transitivity (rsum n (fun i => rsum n (fun j => rsum m (fun a => w_P a i * w_Z i j * w_dK a j)))).
    - apply rsum_ext. intros i _. apply rsum_ext. intros j _. rewrite <- rsum_scal_l. apply rsum_ext. intros; ring.
    - rewrite rsum_swap. rewrite (rsum_swap m n). apply rsum_ext. intros j _. rewrite rsum_swap. apply rsum_ext. intros a _. now rewrite rsum_scal_r. }
  assert (E2 : rsum n (fun i => rsum n (fun j => w_Z i j * rsum m (fun a => w_dK a i * w_P a j))) = rsum m (fun a => rsum n (fun j => w_U a j * w_dK a j))).
  { rewrite <- E1. rewrite rsum_swap. apply rsum_ext. intros j Hj. apply rsum_ext. intros i Hi'. rewrite (Z_symm i j) by auto. f_equal. apply rsum_ext. intros; ring. }
  assert (E3 : rsum n (fun i => rsum n (fun j => w_Z i j * rsum m (fun a => rsum m (fun b => w_P a i * Q' a b * w_P b j)))) = rsum m (fun a => rsum m (fun b => w_T a b * Q' a b))).
  { transitivity (rsum n (fun i => rsum n (fun j => rsum m (fun a => rsum m (fun b => w_P a i * w_Z i j * w_P b j * Q' a b))))).
    - apply rsum_ext. intros i _. apply rsum_ext. intros j _. rewrite <- rsum_scal_l. apply rsum_ext. intros a _. rewrite <- rsum_scal_l. apply rsum_ext. intros; ring.
    - transitivity (rsum m (fun a => rsum n (fun j => rsum n (fun i => rsum m (fun b => w_P a i * w_Z i j * w_P b j * Q' a b))))).
      + rewrite rsum_swap. rewrite (rsum_swap m n). apply rsum_ext. intros j _. now rewrite rsum_swap.
      + apply rsum_ext. intros a _. transitivity (rsum n (fun j => rsum m (fun b => w_U a j * w_P b j * Q' a b))).
        * apply rsum_ext. intros j _. rewrite rsum_swap. apply rsum_ext. intros b _. rewrite !rsum_scal_r. reflexivity.
        * rewrite rsum_swap. apply rsum_ext. intros b _. now rewrite rsum_scal_r. }
  transitivity (rsum n (fun i => rsum n (fun j => w_Z i j * rsum m (fun a => w_dK a i * w_P a j) + w_Z i j * rsum m (fun a => w_P a i * w_dK a j) - w_Z i j * rsum m (fun a => rsum m (fun b => w_P a i * Q' a b * w_P b j))))).
  - apply rsum_ext. intros i _. apply rsum_ext. intros j _. unfold w_qs. ring.
  - rewrite (rsum_ext n _ (fun i => rsum n (fun j => w_Z i j * rsum m (fun a => w_dK a i * w_P a j)) + rsum n (fun j => w_Z i j * rsum m (fun a => w_P a i * w_dK a j)) - rsum n (fun j => w_Z i j * rsum m (fun a => rsum m (fun b => w_P a i * Q' a b * w_P b j))))) by (intros i _; now rewrite rsum_minus, rsum_plus).
    rewrite rsum_minus, rsum_plus, E1, E2, E3. ring.
Qed.
Lemma scaled_grad : - (1 / 2 * rsum n (fun i => rsum n (fun j => (al i * al j - Ai i j) * (qp i j + delta i j * (c' - qp i i + s'))))) =
  rsum m (fun a => rsum n (fun j => w_U a j * w_dK a j)) - 1 / 2 * rsum m (fun a => rsum m (fun b => w_T a b * Q' a b))
  + rsum n (fun j => 1 / 2 * w_Z j j * ((c' + s') / ep m L K0 c s j - 2 * rsum m (fun a => w_P a j * w_dK a j) + rsum m (fun a => rsum m (fun b => w_P a j * Q' a b * w_P b j)))).
Proof.
  assert (E : rsum n (fun i => rsum n (fun j => (al i * al j - Ai i j) * (qp i j + delta i j * (c' - qp i i + s')))) =
    - rsum n (fun i => rsum n (fun j => w_Z i j * w_qs i j)) - rsum n (fun i => w_Z i i * ((c' + s') / ep m L K0 c s i - w_qs i i))).
  { rewrite <- rsum_opp, <- rsum_minus. apply rsum_ext. intros i Hi'. destruct (e_pos i Hi') as [Pi Ei].
    transitivity (rsum n (fun j => - (w_Z i j * w_qs i j) + delta i j * (- (w_Z i i * ((c' + s') / ep m L K0 c s i - w_qs i i))))).
    - apply rsum_ext. intros j Hj. destruct (e_pos j Hj) as [Pj Ej]. rewrite !qp_qs, !al_beta by auto. unfold delta. destruct (Nat.eqb_spec i j) as [<-|].
      + rewrite <- Ei. unfold w_Z, Hi_. fold (e i). field. lra.
      + unfold w_Z, Hi_. fold (e i) (e j). pose proof (Hep i Hi'). field. repeat split; lra.
    - rewrite rsum_plus, rsum_opp, delta_sum by auto. ring. }
  rewrite E, sum_Zqs.
  rewrite (rsum_ext n (fun j => 1 / 2 * w_Z j j * ((c' + s') / ep m L K0 c s j - 2 * rsum m (fun a => w_P a j * w_dK a j) + rsum m (fun a => rsum m (fun b => w_P a j * Q' a b * w_P b j))))
    (fun j => 1 / 2 * (w_Z j j * ((c' + s') / ep m L K0 c s j - w_qs j j)))).
  - rewrite rsum_scal_l. field.
  - intros j Hj. unfold w_qs. rewrite (rsum_ext m (fun a => w_dK a j * w_P a j) (fun a => w_P a j * w_dK a j)) by (intros; ring). ring.
Qed.
End Scaled.

(** * The quantities of the program *)
Section Program.
Variables (m n : nat) (Q L K0 : nat -> nat -> R) (c s : R).
Hypothesis HL : is_chol m L Q.
Hypothesis Hs : 0 < s.
Hypothesis Hep : forall j, (j < n)%nat -> 0 < ep m L K0 c s j.
Variables (Ai Lm : nat -> nat -> R) (r : nat -> R).
Let B := inv_of m L.
Hypothesis HAi : is_inv n (A_ m K0 c s B) Ai.
Let Vv := V m L K0 c s.
Hypothesis HLm : is_chol m Lm (MM n s Vv).
Let Kc := w_Kc m L K0 c s.
Let P := w_P m L K0 c s.
Let y := y_ m L K0 c s r.
Let Hi := Hi_ m L K0 c s Ai.
Let be := w_beta m n L K0 c s Ai r.
Let Lt := mmul m L Lm.
Let G a b := rsum m (fun k => Lt a k * Lt b k).
Let Gi := inv_of m Lt.
Let HB : is_inv m Q B := proj1 (inv_of_is_inv m L Q HL).
Let SB : symm m B := proj2 (inv_of_is_inv m L Q HL).
Lemma Lt_chol : is_chol m Lt G.
Proof. split; [apply lower_mul; [apply HL|apply HLm]|]. intros i j _ _. reflexivity. Qed.
Let HG : is_inv m G Gi := proj1 (inv_of_is_inv m Lt G Lt_chol).
Let SG : symm m Gi := proj2 (inv_of_is_inv m Lt G Lt_chol).
Let HI : is_inv n (HH m s Vv) Hi := Hi_inv m n Q L K0 c s B HL HB Hs Hep Ai HAi.
Let HM : is_inv m (MM n s Vv) (Mi m Lm) := Mi_inv m n L K0 c s Lm HLm.

Lemma V_Kc i j : (i < m)%nat -> Vv i j = fwd m L (fun a => Kc a j) i.
Proof. intro H. unfold Kc, w_Kc, Rdiv. rewrite fwd_scale by (apply HL || auto). reflexivity. Qed.
Lemma LV_Kc a j : (a < m)%nat -> rsum m (fun k => L a k * Vv k j) = Kc a j.
Proof. intro H. rewrite (rsum_ext m _ (fun k => L a k * fwd m L (fun a => Kc a j) k)) by (intros; now rewrite V_Kc). apply (fwd_solves m L (fun a => Kc a j) (proj1 HL) a H). Qed.
Lemma G_eq a b : (a < m)%nat -> (b < m)%nat -> G a b = s * Q a b + rsum n (fun j => Kc a j * Kc b j).
Proof.
  intros Ha Hb. unfold G, Lt, mmul.
  transitivity (rsum m (fun p => rsum m (fun q => L a p * MM n s Vv p q * L b q))).
  - transitivity (rsum m (fun k => rsum m (fun p => rsum m (fun q => L a p * (Lm p k * Lm q k) * L b q)))).
    + apply rsum_ext. intros k _. rewrite <- rsum_scal_r. apply rsum_ext. intros p _. rewrite <- rsum_scal_l. apply rsum_ext. intros; ring.
    + rewrite rsum_swap. apply rsum_ext. intros p Hp. rewrite rsum_swap. apply rsum_ext. intros q Hq. rewrite rsum_scal_r, rsum_scal_l. f_equal. f_equal. now apply HLm.
  - unfold MM. transitivity (rsum m (fun p => rsum m (fun q => s * (L a p * (delta p q * L b q)) + rsum n (fun j => (L a p * Vv p j) * (L b q * Vv q j))))).
    + apply rsum_ext. intros p _. apply rsum_ext. intros q _. rewrite (rsum_ext n (fun j => L a p * Vv p j * (L b q * Vv q j)) (fun j => L a p * L b q * (Vv p j * Vv q j))) by (intros; ring). rewrite rsum_scal_l. ring.
    + rewrite (rsum_ext m _ (fun p => s * (L a p * L b p) + rsum n (fun j => L a p * Vv p j * Kc b j))).
      * rewrite rsum_plus, rsum_scal_l. f_equal.
        -- f_equal. now apply HL.
        -- rewrite rsum_swap. apply rsum_ext. intros j _. rewrite rsum_scal_r. now rewrite LV_Kc.
      * intros p Hp. rewrite rsum_plus. f_equal.
        -- rewrite rsum_scal_l, rsum_scal_l. now rewrite delta_sum.
        -- rewrite rsum_swap. apply rsum_ext. intros j _. rewrite rsum_scal_l. now rewrite LV_Kc.
Qed.
(** [Kc^T P = V^T V] *)
Lemma KcP j k : rsum m (fun b => Kc b k * P b j) = rsum m (fun a => Vv a k * Vv a j).
Proof.
  transitivity (rsum m (fun a => rsum m (fun b => Kc a k * B a b * Kc b j))).
  - apply rsum_ext. intros a _. unfold P, w_P. rewrite <- rsum_scal_l. apply rsum_ext. intros b _. fold B Kc. ring.
  - rewrite (bilin_chol m L Q B (fun a => Kc a k) (fun a => Kc a j) HL HB). apply rsum_ext. intros i Hi'. now rewrite !V_Kc.
Qed.
Lemma QP a j : (a < m)%nat -> rsum m (fun b => Q a b * P b j) = Kc a j.
Proof.
  intro Ha. transitivity (mmul m (mmul m Q B) Kc a j); [rewrite mmul_assoc2; reflexivity|].
  rewrite (mmul_ext m _ delta _ Kc); [now apply mmul_delta_l| |auto]. intros k Hk. now apply HB.
Qed.
Lemma GP a j : (a < m)%nat -> (j < n)%nat -> rsum m (fun b => G a b * P b j) = mmul n Kc (HH m s Vv) a j.
Proof.
  intros Ha Hj. transitivity (rsum m (fun b => s * (Q a b * P b j) + rsum n (fun k => Kc a k * (Kc b k * P b j)))).
  - apply rsum_ext. intros b Hb. rewrite G_eq by auto. rewrite Rmult_plus_distr_r, <- rsum_scal_r. f_equal; [ring|]. apply rsum_ext. intros; ring.
  - rewrite rsum_plus, rsum_scal_l, QP by auto. rewrite rsum_swap. unfold mmul, HH.
    rewrite (rsum_ext n (fun k => Kc a k * (s * delta k j + rsum m (fun a0 => Vv a0 k * Vv a0 j))) (fun k => s * (Kc a k * delta k j) + Kc a k * rsum m (fun b => Kc b k * P b j))) by (intros k _; rewrite KcP; ring).
    rewrite rsum_plus, rsum_scal_l, delta_sum' by auto. f_equal. apply rsum_ext. intros k _. now rewrite rsum_scal_l.
Qed.
(** [P H^-1 = G^-1 Kc] *)
Lemma PHi a j : (a < m)%nat -> (j < n)%nat -> rsum n (fun i => P a i * Hi i j) = mvec m Gi (fun b => Kc b j) a.
Proof.
  intros Ha Hj. apply (inv_solves m G Gi (fun b => Kc b j) (fun b => mmul n P Hi b j) HG); auto. intros b Hb.
  transitivity (mmul n (mmul n Kc (HH m s Vv)) Hi b j).
  - transitivity (mmul n (mmul m G P) Hi b j); [rewrite mmul_assoc2; reflexivity|]. apply mmul_ext; auto. intros k Hk. now apply GP.
  - rewrite mmul_assoc2. rewrite (mmul_ext n Kc Kc _ delta); [now apply mmul_delta_r|auto|]. intros k Hk. now apply HI.
Qed.
Lemma Hi_sym : symm n Ai -> symm n Hi.
Proof. intros H i j H1 H2. unfold Hi, Hi_. rewrite (H i j) by auto. ring. Qed.
(** [b1 = G^-1 Kc y = P beta] *)
Lemma P_beta a : (a < m)%nat -> rsum n (fun j => P a j * be j) = mvec m Gi (fun b => rsum n (fun j => Kc b j * y j)) a.
Proof.
  intro Ha. transitivity (rsum n (fun i => mvec m Gi (fun b => Kc b i) a * y i)).
  - transitivity (rsum n (fun j => rsum n (fun i => P a j * Hi j i * y i))).
    + apply rsum_ext. intros j _. unfold be, w_beta. rewrite <- rsum_scal_l. apply rsum_ext. intros i _. fold Hi y. ring.
    + rewrite rsum_swap. apply rsum_ext. intros i Hi'. rewrite rsum_scal_r. now rewrite PHi.
  - unfold mvec. transitivity (rsum n (fun i => rsum m (fun k => Gi a k * (Kc k i * y i)))).
    + apply rsum_ext. intros i _. rewrite <- rsum_scal_r. apply rsum_ext. intros; ring.
    + rewrite rsum_swap. apply rsum_ext. intros k _. now rewrite rsum_scal_l.
Qed.
(** [P H^-1 P^T = Q^-1 - s G^-1] *)
Lemma PHP a b : (a < m)%nat -> (b < m)%nat -> rsum n (fun j => mvec m Gi (fun k => Kc k j) a * P b j) = B a b - s * Gi a b.
Proof.
  intros Ha Hb.
  transitivity (mmul m Gi (fun p q => rsum n (fun j => Kc p j * P q j)) a b).
  { unfold mmul, mvec. transitivity (rsum n (fun j => rsum m (fun k => Gi a k * (Kc k j * P b j)))).
    - apply rsum_ext. intros j _. rewrite <- rsum_scal_r. apply rsum_ext. intros; ring.
    - rewrite rsum_swap. apply rsum_ext. intros k _. now rewrite rsum_scal_l. }
  transitivity (mmul m Gi (fun p q => mmul m G B p q - s * delta p q) a b).
  { apply mmul_ext; auto. intros k Hk. transitivity (rsum m (fun q => rsum n (fun j => Kc k j * Kc q j) * B q b)).
    - unfold P, w_P. fold B Kc. transitivity (rsum n (fun j => rsum m (fun q => Kc k j * Kc q j * B b q))).
      + apply rsum_ext. intros j _. rewrite <- rsum_scal_l. apply rsum_ext. intros; ring.
      + rewrite rsum_swap. apply rsum_ext. intros q Hq. rewrite rsum_scal_r. now rewrite (SB b q).
    - unfold mmul. rewrite (rsum_ext m (fun k0 => G k k0 * B k0 b) (fun q => s * (Q k q * B q b) + rsum n (fun j => Kc k j * Kc q j) * B q b)) by (intros q Hq; rewrite G_eq by auto; ring).
      rewrite rsum_plus, rsum_scal_l. pose proof (proj1 HB k b Hk Hb) as Z. unfold mmul in Z. rewrite Z. ring. }
  transitivity (mmul m (mmul m Gi G) B a b - s * mmul m Gi delta a b).
  { rewrite mmul_assoc2. unfold mmul. rewrite <- rsum_scal_l, <- rsum_minus. apply rsum_ext. intros; ring. }
  rewrite mmul_delta_r by auto. rewrite (mmul_ext m _ delta _ B); [now rewrite mmul_delta_l|intros k Hk; now apply HG|auto].
Qed.
(** [mu = V^T M^-1 V y = y - s beta] *)
Lemma mu_beta j : (j < n)%nat -> rsum m (fun i => mvec m (Mi m Lm) (fun a => rsum n (fun k => Vv a k * y k)) i * Vv i j) = y j - s * be j.
Proof.
  intro Hj. unfold be, w_beta. fold Hi y. rewrite <- rsum_scal_l.
  rewrite (rsum_ext n (fun i => s * (Hi j i * y i)) (fun i => delta j i * y i - rsum m (fun a => Vv a j * mmul m (Mi m Lm) Vv a i) * y i)).
  - rewrite rsum_minus, delta_sum by auto. unfold mvec, mmul.
    assert (E : rsum m (fun i => rsum m (fun k => Mi m Lm i k * rsum n (fun k0 => Vv k k0 * y k0)) * Vv i j) = rsum n (fun i => rsum m (fun a => Vv a j * rsum m (fun k => Mi m Lm a k * Vv k i)) * y i)); [|rewrite E; ring].
    transitivity (rsum m (fun a => rsum n (fun i => Vv a j * rsum m (fun k => Mi m Lm a k * Vv k i) * y i))).
    + apply rsum_ext. intros a _. transitivity (Vv a j * rsum n (fun i => rsum m (fun k => Mi m Lm a k * (Vv k i * y i)))).
      * rewrite rsum_swap, Rmult_comm. f_equal. apply rsum_ext. intros k _. now rewrite rsum_scal_l.
      * rewrite <- rsum_scal_l. apply rsum_ext. intros i _. rewrite Rmult_assoc, <- rsum_scal_r. f_equal. apply rsum_ext. intros; ring.
    + rewrite rsum_swap. apply rsum_ext. intros i _. now rewrite rsum_scal_r.
  - intros i Hi'. transitivity ((s * Hi j i) * y i); [ring|]. rewrite (woodbury m n s Vv (Mi m Lm) Hi HM HI j i Hj Hi'). ring.
Qed.
Lemma VMV j : (j < n)%nat -> rsum m (fun i => fwd m Lm (fun a => Vv a j) i * fwd m Lm (fun a => Vv a j) i) = 1 - s * Hi j j.
Proof.
  intro Hj. rewrite (woodbury m n s Vv (Mi m Lm) Hi HM HI j j Hj Hj). unfold delta. rewrite Nat.eqb_refl.
  rewrite <- (bilin_chol m Lm (MM n s Vv) (Mi m Lm) _ _ HLm HM). unfold mmul.
  rewrite (rsum_ext m (fun a => Vv a j * rsum m (fun k => Mi m Lm a k * Vv k j)) (fun a => rsum m (fun b => Vv a j * Mi m Lm a b * Vv b j))); [ring|].
  intros a _. rewrite <- rsum_scal_l. apply rsum_ext. intros; ring.
Qed.
End Program.
