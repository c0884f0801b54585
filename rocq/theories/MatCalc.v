(** Derivatives of Cholesky factors, solutions of linear systems, inverses and log-determinants. *)
From Coq Require Import Reals List Bool Lia Lra Wf_nat.
From Coquelicot Require Import Coquelicot.
From Verif Require Import LinAlgModel LinAlg.
Open Scope R_scope.

Ltac req := match goal with |- ?a = ?b => change (a = b :> R) end.
Lemma is_derive_val' (f : R -> R) x l l' : is_derive f x l -> l = l' -> is_derive f x l'.
Proof. now intros H <-. Qed.
Lemma is_derive_sum n (f : nat -> R -> R) g x : (forall i, (i < n)%nat -> is_derive (f i) x (g i)) ->
  is_derive (fun t => rsum n (fun i => f i t)) x (rsum n g).
Proof.
  induction n; intro H; simpl.
  - apply @is_derive_const.
  - apply @is_derive_plus; [apply IHn; intros; apply H; lia|apply H; lia].
Qed.
Lemma ex_derive_sum n (f : nat -> R -> R) x : (forall i, (i < n)%nat -> ex_derive (f i) x) ->
  ex_derive (fun t => rsum n (fun i => f i t)) x.
Proof.
  intro H. exists (rsum n (fun i => Derive (f i) x)). apply is_derive_sum. intros i Hi. apply Derive_correct. now apply H.
Qed.
Lemma is_derive_mul (f g : R -> R) x f' g' : is_derive f x f' -> is_derive g x g' ->
  is_derive (fun t => f t * g t) x (f' * g x + f x * g').
Proof. intros Hf Hg. apply (is_derive_mult f g x f' g' Hf Hg). intros; apply Rmult_comm. Qed.
Lemma is_derive_unique' (f : R -> R) x a b : is_derive f x a -> is_derive f x b -> a = b.
Proof. intros Ha Hb. rewrite <- (is_derive_unique f x a Ha). now apply is_derive_unique. Qed.

Section Calc.
Variables (n : nat) (Kt : R -> nat -> nat -> R) (K' : nat -> nat -> R) (t0 : R) (Lt : R -> nat -> nat -> R).
Hypothesis HK : forall i j, (i < n)%nat -> (j < n)%nat -> is_derive (fun t => Kt t i j) t0 (K' i j).
Hypothesis HL : forall t, is_chol n (Lt t) (Kt t).

Lemma L_diff : forall j i, (j < n)%nat -> (i < n)%nat -> ex_derive (fun t => Lt t i j) t0.
Proof.
  induction j as [j IH] using (well_founded_induction lt_wf). intros i Hj Hi.
  assert (D : ex_derive (fun t => Lt t j j) t0).
  { apply ex_derive_ext with (f := fun t => sqrt (Kt t j j - rsum j (fun m => Lt t j m * Lt t j m))).
    - intro t. rewrite <- (is_chol_diag n (Lt t) (Kt t) (HL t) j Hj). apply sqrt_square. apply Rlt_le, (HL t); auto.
    - apply (ex_derive_comp sqrt (fun t => Kt t j j - rsum j (fun m => Lt t j m * Lt t j m))).
      + exists (/ (2 * sqrt (Kt t0 j j - rsum j (fun m => Lt t0 j m * Lt t0 j m)))). apply is_derive_Reals, derivable_pt_lim_sqrt.
        rewrite <- (is_chol_diag n (Lt t0) (Kt t0) (HL t0) j Hj). pose proof (proj2 (proj1 (HL t0)) j Hj). nra.
      + apply @ex_derive_minus; [eexists; now apply HK|]. apply (ex_derive_sum j (fun m t => Lt t j m * Lt t j m)).
        intros m Hm. apply ex_derive_mult; apply IH; lia. }
  destruct (lt_eq_lt_dec i j) as [[Hlt| ->]|Hgt]; auto.
  - apply ex_derive_ext with (f := fun _ => 0); [|apply ex_derive_const]. intro t. symmetry. now apply (HL t).
  - apply ex_derive_ext with (f := fun t => (Kt t i j - rsum j (fun m => Lt t i m * Lt t j m)) / Lt t j j).
    + intro t. destruct (is_chol_eqs n (Lt t) (Kt t) (HL t) i j Hi Hgt) as [_ <-]. pose proof (proj2 (proj1 (HL t)) j Hj).
      req. field. lra.
    + apply ex_derive_div; auto.
      * apply @ex_derive_minus; [eexists; now apply HK|]. apply (ex_derive_sum j (fun m t => Lt t i m * Lt t j m)).
        intros m Hm. apply ex_derive_mult; apply IH; lia.
      * pose proof (proj2 (proj1 (HL t0)) j Hj). lra.
Qed.

Lemma fwd_diff (bt : R -> nat -> R) : (forall i, (i < n)%nat -> ex_derive (fun t => bt t i) t0) ->
  forall i, (i < n)%nat -> ex_derive (fun t => fwd n (Lt t) (bt t) i) t0.
Proof.
  intros Hb. induction i as [i IH] using (well_founded_induction lt_wf). intro Hi.
  apply ex_derive_ext with (f := fun t => (bt t i - rsum i (fun j => Lt t i j * fwd n (Lt t) (bt t) j)) / Lt t i i).
  - intro t. symmetry. now apply fwd_eq.
  - apply ex_derive_div.
    + apply @ex_derive_minus; auto. apply (ex_derive_sum i (fun j t => Lt t i j * fwd n (Lt t) (bt t) j)).
      intros j Hj. apply ex_derive_mult; [apply L_diff; lia|apply IH; lia].
    + now apply L_diff.
    + pose proof (proj2 (proj1 (HL t0)) i Hi). lra.
Qed.
Lemma bwd_diff (bt : R -> nat -> R) : (forall i, (i < n)%nat -> ex_derive (fun t => bt t i) t0) ->
  forall i, (i < n)%nat -> ex_derive (fun t => bwd n (Lt t) (bt t) i) t0.
Proof.
  intros Hb.
  assert (X : forall k i, (k < n)%nat -> (i = n - 1 - k)%nat -> ex_derive (fun t => bwd n (Lt t) (bt t) i) t0).
  { induction k as [k IH] using (well_founded_induction lt_wf). intros i Hk Ei.
    apply ex_derive_ext with (f := fun t => (bt t i - rsum n (fun j => if (i <? j)%nat then Lt t j i * bwd n (Lt t) (bt t) j else 0)) / Lt t i i).
    - intro t. symmetry. apply bwd_eq. lia.
    - apply ex_derive_div.
      + apply @ex_derive_minus; [apply Hb; lia|].
        apply (ex_derive_sum n (fun j t => if (i <? j)%nat then Lt t j i * bwd n (Lt t) (bt t) j else 0)).
        intros j Hj. destruct (Nat.ltb_spec i j); [|apply ex_derive_const].
        apply ex_derive_mult; [apply L_diff; lia|]. apply (IH (n - 1 - j)%nat); lia.
      + apply L_diff; lia.
      + pose proof (proj2 (proj1 (HL t0)) i ltac:(lia)). lra. }
  intros i Hi. apply (X (n - 1 - i)%nat); lia.
Qed.

(** solution of [K(t) x(t) = b(t)] *)
Definition sol (bt : R -> nat -> R) (t : R) : nat -> R := bwd n (Lt t) (fwd n (Lt t) (bt t)).
Lemma sol_derive B (bt : R -> nat -> R) b' : is_inv n (Kt t0) B ->
  (forall i, (i < n)%nat -> is_derive (fun t => bt t i) t0 (b' i)) ->
  forall i, (i < n)%nat -> is_derive (fun t => sol bt t i) t0 (mvec n B (fun j => b' j - mvec n K' (sol bt t0) j) i).
Proof.
  intros HB Hb i Hi.
  assert (E : forall j, (j < n)%nat -> is_derive (fun t => sol bt t j) t0 (Derive (fun t => sol bt t j) t0)).
  { intros j Hj. apply Derive_correct. apply (bwd_diff (fun t => fwd n (Lt t) (bt t))); auto. apply fwd_diff. intros k Hk. eexists. now apply Hb. }
  set (x' := fun j => Derive (fun t => sol bt t j) t0) in *.
  apply is_derive_val' with (x' i); [now apply E|].
  apply (inv_solves n (Kt t0) B (fun j => b' j - mvec n K' (sol bt t0) j) x'); auto.
  intros j Hj. assert (Z : b' j = rsum n (fun k => K' j k * sol bt t0 k + Kt t0 j k * x' k)).
  { apply (is_derive_unique' (fun t => bt t j) t0); [now apply Hb|].
    apply is_derive_ext with (f := fun t => rsum n (fun k => Kt t j k * sol bt t k)).
    - intro t. apply (solve_both n (Lt t) (Kt t) (bt t) (HL t) j Hj).
    - apply (is_derive_sum n (fun k t => Kt t j k * sol bt t k)). intros k Hk. apply is_derive_mul; [now apply HK|now apply E]. }
  rewrite Z, rsum_plus. unfold mvec. lra.
Qed.
(** inverse: [B' = - B K' B] *)
Lemma inv_derive i j : (i < n)%nat -> (j < n)%nat ->
  is_derive (fun t => inv_of n (Lt t) i j) t0
    (- rsum n (fun a => rsum n (fun b => inv_of n (Lt t0) i a * K' a b * inv_of n (Lt t0) b j))).
Proof.
  intros Hi Hj. pose proof (inv_of_is_inv n (Lt t0) (Kt t0) (HL t0)) as [HB _].
  eapply is_derive_val'; [apply (sol_derive _ (fun _ k => delta k j) (fun _ => 0) HB); auto; intros; apply @is_derive_const|].
  unfold mvec. rewrite <- rsum_opp. apply rsum_ext. intros a Ha. rewrite Rminus_0_l.
  replace (inv_of n (Lt t0) i a * - rsum n (fun k => K' a k * sol (fun (_ : R) k0 => delta k0 j) t0 k))
    with (- (inv_of n (Lt t0) i a * rsum n (fun k => K' a k * sol (fun (_ : R) k0 => delta k0 j) t0 k))) by ring.
  f_equal. rewrite <- rsum_scal_l. apply rsum_ext. intros b Hb. change (sol (fun (_ : R) k0 => delta k0 j) t0 b) with (inv_of n (Lt t0) b j). ring.
Qed.

(** [B L] is upper triangular with diagonal [1/L] *)
Lemma BL_upper L K B : is_chol n L K -> is_inv n K B ->
  forall i, (i < n)%nat -> forall k, (k < n)%nat -> (k <= i)%nat -> mmul n B L i k = if (k =? i)%nat then / L i i else 0.
Proof.
  intros [[Hu Hd] Hf] [_ HB] i Hi. induction k as [k IH] using (well_founded_induction lt_wf). intros Hk Hki.
  assert (E : rsum n (fun m => mmul n B L i m * L k m) = delta i k).
  { rewrite <- (HB i k) by auto. unfold mmul. transitivity (rsum n (fun m => rsum n (fun a => B i a * L a m * L k m))).
    - apply rsum_ext. intros m _. now rewrite <- rsum_scal_r.
    - rewrite rsum_swap. apply rsum_ext. intros a Ha. rewrite <- (Hf a k) by auto. rewrite <- rsum_scal_l. apply rsum_ext. intros; ring. }
  rewrite (rsum_trunc n (S k)) in E; [|lia|intros m Hm; rewrite (Hu k m) by lia; ring].
  cbn [rsum] in E. rewrite rsum_0 in E.
  2:{ intros m Hm. rewrite IH by lia. destruct (Nat.eqb_spec m i); [lia|ring]. }
  pose proof (Hd k Hk). rewrite Rplus_0_l in E. unfold delta in E. rewrite Nat.eqb_sym in E.
  destruct (Nat.eqb_spec k i) as [->|].
  - apply Rmult_eq_reg_r with (L i i); [|lra]. rewrite E. field. lra.
  - apply Rmult_eq_reg_r with (L k k); [|lra]. rewrite E. ring.
Qed.
(** log-determinant: derivative [tr (B K')] *)
Lemma logdet_derive B : is_inv n (Kt t0) B -> symm n B ->
  is_derive (fun t => 2 * rsum n (fun i => ln (Lt t i i))) t0 (rsum n (fun i => rsum n (fun j => B i j * K' i j))).
Proof.
  intros HB HS. set (L' := fun i j => Derive (fun t => Lt t i j) t0).
  assert (HL' : forall i j, (i < n)%nat -> (j < n)%nat -> is_derive (fun t => Lt t i j) t0 (L' i j)).
  { intros. apply Derive_correct. now apply L_diff. }
  assert (L'u : forall i j, (i < n)%nat -> (j < n)%nat -> (i < j)%nat -> L' i j = 0).
  { intros i j Hi Hj Hij. apply (is_derive_unique' (fun t => Lt t i j) t0); [now apply HL'|].
    apply is_derive_ext with (f := fun _ => 0); [intro t; symmetry; now apply (HL t)|apply @is_derive_const]. }
  assert (HKL : forall i j, (i < n)%nat -> (j < n)%nat -> K' i j = rsum n (fun k => L' i k * Lt t0 j k + Lt t0 i k * L' j k)).
  { intros i j Hi Hj. apply (is_derive_unique' (fun t => Kt t i j) t0); [now apply HK|].
    apply is_derive_ext with (f := fun t => rsum n (fun k => Lt t i k * Lt t j k)).
    - intro t. now apply (HL t).
    - apply (is_derive_sum n (fun k t => Lt t i k * Lt t j k)). intros k Hk. apply is_derive_mul; now apply HL'. }
  apply is_derive_val' with (2 * rsum n (fun i => L' i i / Lt t0 i i)).
  { apply is_derive_scal. apply (is_derive_sum n (fun i t => ln (Lt t i i))). intros i Hi.
    pose proof (proj2 (proj1 (HL t0)) i Hi). eapply is_derive_val'.
    - apply (is_derive_comp ln (fun t => Lt t i i)); [apply is_derive_Reals, derivable_pt_lim_ln; auto|now apply HL'].
    - unfold scal; simpl; unfold mult; simpl. unfold Rdiv. req; ring. }
  transitivity (rsum n (fun i => rsum n (fun j => rsum n (fun k => B i j * (L' i k * Lt t0 j k)))) + rsum n (fun i => rsum n (fun j => rsum n (fun k => B i j * (Lt t0 i k * L' j k))))).
  - rewrite (rsum_swap n n (fun i j => rsum n (fun k => B i j * (Lt t0 i k * L' j k)))).
    assert (Z : rsum n (fun i => rsum n (fun j => rsum n (fun k => B i j * (L' i k * Lt t0 j k)))) = rsum n (fun i => L' i i / Lt t0 i i)).
    { apply rsum_ext. intros i Hi. rewrite rsum_swap.
      transitivity (rsum n (fun k => if (k =? i)%nat then L' i k / Lt t0 i i else 0)).
      - apply rsum_ext. intros k Hk. transitivity (L' i k * mmul n B (Lt t0) i k).
        + unfold mmul. rewrite <- rsum_scal_l. apply rsum_ext. intros; ring.
        + destruct (Nat.lt_ge_cases i k).
          * rewrite L'u by auto. destruct (Nat.eqb_spec k i); [lia|ring].
          * rewrite (BL_upper (Lt t0) (Kt t0) B (HL t0) HB) by auto. destruct (Nat.eqb_spec k i) as [->|]; [reflexivity|ring].
      - now rewrite rsum_delta. }
    rewrite Z. replace (rsum n (fun j => rsum n (fun i => rsum n (fun k => B i j * (Lt t0 i k * L' j k))))) with (rsum n (fun i => L' i i / Lt t0 i i)); [req; ring|].
    rewrite <- Z. apply rsum_ext. intros i Hi. apply rsum_ext. intros j Hj. apply rsum_ext. intros k _. rewrite (HS i j) by auto. ring.
  - rewrite <- rsum_plus. apply rsum_ext. intros i Hi. rewrite <- rsum_plus. apply rsum_ext. intros j Hj. rewrite HKL by auto.
    rewrite <- rsum_plus, <- rsum_scal_l. apply rsum_ext. intros; req; ring.
Qed.
End Calc.
