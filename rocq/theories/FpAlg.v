(** Real linear algebra behind the rounding error analysis of FpModel.v: perturbed Cholesky factors. *)
From Coq Require Import Reals List Bool Lia Lra.
From Verif Require Import LinAlgModel LinAlg.
Open Scope R_scope.

Definition ssq (n : nat) (x : nat -> R) : R := rsum n (fun i => x i * x i).
(** the quadratic form of [A] is at least [lam] times the squared norm: the smallest eigenvalue of
    [A] is at least [lam] *)
Definition eig_min (n : nat) (A : nat -> nat -> R) (lam : R) : Prop := forall x, lam * ssq n x <= quad n A x.

Lemma ssq_nonneg n x : 0 <= ssq n x.
Proof. apply rsum_nonneg. intros. nra. Qed.
Lemma rsum_abs n f : Rabs (rsum n f) <= rsum n (fun i => Rabs (f i)).
Proof. induction n; simpl; [rewrite Rabs_R0; lra|]. pose proof (Rabs_triang (rsum n f) (f n)). lra. Qed.
Lemma rsum_mul n m f g : rsum n f * rsum m g = rsum n (fun i => rsum m (fun j => f i * g j)).
Proof. rewrite <- rsum_scal_r. apply rsum_ext. intros. now rewrite rsum_scal_l. Qed.

Lemma amgm n f g : rsum n (fun i => Rabs (f i * g i)) <= (ssq n f + ssq n g) / 2.
Proof.
  unfold ssq, Rdiv. rewrite <- rsum_plus, <- rsum_scal_r. apply rsum_le. intros i _. rewrite Rabs_mult.
  pose proof (Rle_0_sqr (Rabs (f i) - Rabs (g i))) as H. unfold Rsqr in H.
  pose proof (Rsqr_abs (f i)) as A. pose proof (Rsqr_abs (g i)) as B. unfold Rsqr in *. nra.
Qed.

Lemma abs_sum_sq n x : rsum n (fun i => rsum n (fun j => Rabs (x i) * Rabs (x j))) <= INR n * ssq n x.
Proof.
  apply Rle_trans with (rsum n (fun i => rsum n (fun j => (x i * x i + x j * x j) / 2))).
  - apply rsum_le. intros i _. apply rsum_le. intros j _.
    pose proof (Rle_0_sqr (Rabs (x i) - Rabs (x j))) as H. unfold Rsqr in H.
    pose proof (Rsqr_abs (x i)) as A. pose proof (Rsqr_abs (x j)) as B. unfold Rsqr in *. nra.
  - right. unfold Rdiv. transitivity (rsum n (fun i => INR n * (x i * x i * / 2) + ssq n x * / 2)).
    + apply rsum_ext. intros i _. transitivity (rsum n (fun j => x i * x i * / 2 + x j * x j * / 2)).
      * apply rsum_ext. intros. ring.
      * rewrite rsum_plus, rsum_const. f_equal. unfold ssq. now rewrite <- rsum_scal_r.
    + rewrite rsum_plus, rsum_scal_l, rsum_const, rsum_scal_r. fold (ssq n x). field.
Qed.

(** the form of a product [L L^T] is a sum of squares *)
Lemma quad_gram n k L x :
  quad n (fun p q => rsum k (fun c => L p c * L q c)) x = rsum k (fun c => rsum n (fun p => L p c * x p) * rsum n (fun p => L p c * x p)).
Proof.
  unfold quad.
  transitivity (rsum n (fun i => rsum k (fun c => L i c * x i * rsum n (fun q => L q c * x q)))).
  - apply rsum_ext. intros i _.
    transitivity (rsum n (fun j => rsum k (fun c => x i * x j * (L i c * L j c)))).
    + apply rsum_ext. intros j _. now rewrite rsum_scal_l.
    + rewrite rsum_swap. apply rsum_ext. intros c _. rewrite <- rsum_scal_l. apply rsum_ext. intros. ring.
  - rewrite rsum_swap. apply rsum_ext. intros c _. now rewrite rsum_scal_r.
Qed.

(** a quadratic form whose coefficients are small except at one place of the diagonal *)
Lemma quad_pert n B x i del : (i < n)%nat -> x i = 1 -> 0 <= del ->
  (forall p q, (p < n)%nat -> (q < n)%nat -> x p <> 0 -> x q <> 0 -> ~ (p = i /\ q = i) -> Rabs (B p q) <= del) ->
  quad n B x <= B i i + del * (INR n * ssq n x).
Proof.
  intros Hi Xi Hdel Hb.
  apply Rle_trans with (rsum n (fun p => rsum n (fun q => (if (p =? i)%nat then (if (q =? i)%nat then B p q else 0) else 0) + del * (Rabs (x p) * Rabs (x q))))).
  - unfold quad. apply rsum_le. intros p Hp. apply rsum_le. intros q Hq.
    assert (P : 0 <= del * (Rabs (x p) * Rabs (x q))).
    { apply Rmult_le_pos; auto. apply Rmult_le_pos; apply Rabs_pos. }
    assert (G : ~ (p = i /\ q = i) -> x p * x q * B p q <= del * (Rabs (x p) * Rabs (x q))).
    { intros N. destruct (Req_dec (x p) 0) as [E|E]; [rewrite E in *; lra|].
      destruct (Req_dec (x q) 0) as [E'|E']; [rewrite E' in *; lra|].
      apply Rle_trans with (1 := Rle_abs _). rewrite !Rabs_mult, (Rmult_comm del). apply Rmult_le_compat_l.
      - apply Rmult_le_pos; apply Rabs_pos.
      - now apply Hb. }
    destruct (Nat.eqb_spec p i) as [->|Np]; [destruct (Nat.eqb_spec q i) as [->|Nq]|].
    + rewrite Xi, !Rmult_1_l. rewrite Xi in P. lra.
    + rewrite Rplus_0_l. apply G. intros []; auto.
    + rewrite Rplus_0_l. apply G. intros []; auto.
  - assert (E : rsum n (fun p => rsum n (fun q => (if (p =? i)%nat then (if (q =? i)%nat then B p q else 0) else 0) + del * (Rabs (x p) * Rabs (x q))))
      = B i i + del * rsum n (fun p => rsum n (fun q => Rabs (x p) * Rabs (x q)))).
    { rewrite <- (rsum_delta n i (fun p => B p p) Hi), <- rsum_scal_l, <- rsum_plus.
      apply rsum_ext. intros p Hp. rewrite rsum_plus, rsum_scal_l. f_equal.
      destruct (Nat.eqb_spec p i) as [->|Np]; [|now apply rsum_0]. now rewrite (rsum_delta n i (fun q => B i q)). }
    rewrite E. apply Rplus_le_compat_l, Rmult_le_compat_l; auto. apply abs_sum_sq.
Qed.

(** the last pivot of a perturbed factorisation.  The first [k] rows of [L] form a triangle with a
    nonzero diagonal; row [i] has [k] entries. *)
Lemma schur n k i A L lam del : (k <= i < n)%nat -> 0 <= del ->
  eig_min n A lam -> lower k L ->
  (forall p q, (p < k)%nat -> (q < k)%nat -> Rabs (A p q - rsum k (fun c => L p c * L q c)) <= del) ->
  (forall p, (p < k)%nat -> Rabs (A p i - rsum k (fun c => L p c * L i c)) <= del) ->
  (forall p, (p < k)%nat -> Rabs (A i p - rsum k (fun c => L i c * L p c)) <= del) ->
  INR n * del <= lam ->
  lam - INR n * del <= A i i - ssq k (L i).
Proof.
  intros Hk Hdel Heig Hlow Hpq Hpi Hip Hlam.
  set (y := bwd k L (fun c => - L i c)).
  set (x := fun p => if (p <? k)%nat then y p else if (p =? i)%nat then 1 else 0).
  assert (Xi : x i = 1).
  { unfold x. destruct (Nat.ltb_spec i k); [lia|]. now rewrite Nat.eqb_refl. }
  assert (Xn : 1 <= ssq n x).
  { unfold ssq. rewrite <- (Rmult_1_l 1), <- Xi, <- (rsum_delta n i (fun p => x p * x p)) by lia.
    apply rsum_le. intros p Hp. destruct (p =? i)%nat; nra. }
  assert (Z : forall c, (c < k)%nat -> rsum n (fun p => L p c * x p) = 0).
  { intros c Hc. replace n with (i + (n - i))%nat by lia. rewrite rsum_split.
    replace (n - i)%nat with (S (n - i - 1)) by lia. rewrite rsum_S_first, Nat.add_0_r, Xi.
    rewrite (rsum_0 (n - i - 1)).
    2:{ intros p Hp. unfold x. destruct (Nat.ltb_spec (i + S p) k); [lia|]. destruct (Nat.eqb_spec (i + S p) i); [lia|]. ring. }
    rewrite (rsum_trunc i k); [|lia|].
    2:{ intros p Hp. unfold x. destruct (Nat.ltb_spec p k); [lia|]. destruct (Nat.eqb_spec p i); [lia|]. ring. }
    rewrite (rsum_ext k _ (fun p => L p c * y p)).
    2:{ intros p Hp. unfold x. destruct (Nat.ltb_spec p k); [auto|lia]. }
    pose proof (bwd_solves k L (fun c => - L i c) Hlow c Hc) as B. cbv beta in B. fold y in B. rewrite B. ring. }
  assert (Q : quad n (fun p q => rsum k (fun c => L p c * L q c)) x = 0).
  { rewrite quad_gram. apply rsum_0. intros c Hc. rewrite (Z c Hc). ring. }
  pose proof (quad_pert n (fun p q => A p q - rsum k (fun c => L p c * L q c)) x i del ltac:(lia) Xi Hdel) as P.
  assert (P' : quad n (fun p q => A p q - rsum k (fun c => L p c * L q c)) x = quad n A x).
  { transitivity (quad n A x - quad n (fun p q => rsum k (fun c => L p c * L q c)) x); [|rewrite Q; ring].
    unfold quad. rewrite <- rsum_minus. apply rsum_ext. intros a _. rewrite <- rsum_minus. apply rsum_ext. intros. ring. }
  rewrite P' in P. cbv beta in P.
  assert (S0 : forall p, (p < n)%nat -> x p <> 0 -> (p < k)%nat \/ p = i).
  { intros p Hp N. unfold x in N. destruct (Nat.ltb_spec p k); auto. destruct (Nat.eqb_spec p i); auto. contradiction N; auto. }
  assert (P2 : quad n A x <= A i i - rsum k (fun c => L i c * L i c) + del * (INR n * ssq n x)).
  { apply P. intros p q Hp Hq Np Nq N. destruct (S0 p Hp Np) as [Kp|Ep], (S0 q Hq Nq) as [Kq|Eq].
    - now apply Hpq.
    - subst q. now apply Hpi.
    - subst p. now apply Hip.
    - contradiction N; auto. }
  specialize (Heig x). fold (ssq k (L i)) in P2.
  assert ((lam - INR n * del) * 1 <= (lam - INR n * del) * ssq n x) by (apply Rmult_le_compat_l; lra). lra.
Qed.
