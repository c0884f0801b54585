(** Positive semi-definite matrices: Gram matrices, products, limits, Gaussian kernels. *)
From Coq Require Import Reals Lia Lra.
From Verif Require Import LinAlgModel LinAlg.
Open Scope R_scope.

Lemma psd_const n a : 0 <= a -> psd n (fun _ _ => a).
Proof.
  intros Ha c. replace (quad n (fun _ _ => a) c) with (a * (rsum n c * rsum n c)); [nra|].
  unfold quad. rewrite <- rsum_scal_r. rewrite <- rsum_scal_l. apply rsum_ext. intros i _.
  rewrite <- rsum_scal_l, <- rsum_scal_l. apply rsum_ext. intros; lra.
Qed.
(** scaling rows and columns *)
Lemma psd_diag n d A : psd n A -> psd n (fun i j => d i * d j * A i j).
Proof.
  intros H c. replace (quad n _ c) with (quad n A (fun i => c i * d i)); [apply H|].
  apply rsum_ext. intros i _. apply rsum_ext. intros j _. lra.
Qed.
(** product with a Gram matrix *)
Lemma psd_schur_gram n m A X : psd n A -> psd n (fun i j => A i j * rsum m (fun k => X i k * X j k)).
Proof.
  intros H c. replace (quad n _ c) with (rsum m (fun k => quad n A (fun i => c i * X i k))).
  - apply rsum_nonneg. intros k _. apply H.
  - unfold quad. rewrite rsum_swap. apply rsum_ext. intros i _. rewrite rsum_swap. apply rsum_ext. intros j _.
    rewrite <- !rsum_scal_l. apply rsum_ext. intros k _. lra.
Qed.
Lemma psd_schur_pow n m A X q : psd n A -> psd n (fun i j => A i j * rsum m (fun k => X i k * X j k) ^ q).
Proof.
  intros H. induction q as [|q IH].
  - eapply psd_ext; [|exact H]. intros i j _ _. simpl. lra.
  - eapply psd_ext; [|exact (psd_schur_gram n m _ X IH)]. intros i j _ _. simpl. lra.
Qed.

(** limits *)
Lemma rsum_cv n (f : nat -> nat -> R) g : (forall i, (i < n)%nat -> Un_cv (fun q => f q i) (g i)) ->
  Un_cv (fun q => rsum n (f q)) (rsum n g).
Proof.
  induction n; intro H; simpl.
  - intros eps He. exists O. intros q _. unfold R_dist. rewrite Rminus_0_r, Rabs_R0. exact He.
  - apply (CV_plus (fun q => rsum n (f q)) (fun q => f q n)); auto.
Qed.
Lemma cv_nonneg u l : (forall q, 0 <= u q) -> Un_cv u l -> 0 <= l.
Proof.
  intros H C. destruct (Rle_lt_dec 0 l) as [|Hl]; auto. exfalso.
  destruct (C (- l)) as (N & HN); [lra|]. specialize (HN N (Nat.le_refl N)). specialize (H N).
  unfold R_dist in HN. rewrite Rabs_right in HN; lra.
Qed.
Lemma cv_const a : Un_cv (fun _ => a) a.
Proof. intros eps He. exists O. intros q _. unfold R_dist. rewrite Rminus_diag_eq, Rabs_R0; auto. Qed.
Lemma psd_limit n (A : nat -> nat -> nat -> R) B : (forall q, psd n (A q)) ->
  (forall i j, (i < n)%nat -> (j < n)%nat -> Un_cv (fun q => A q i j) (B i j)) -> psd n B.
Proof.
  intros H C c. apply (cv_nonneg (fun q => quad n (A q) c)); [intro q; apply H|].
  unfold quad. apply (rsum_cv n (fun q i => rsum n (fun j => c i * c j * A q i j))). intros i Hi.
  apply (rsum_cv n (fun q j => c i * c j * A q i j)). intros j Hj.
  apply (CV_mult (fun _ => c i * c j) (fun q => A q i j)); auto using cv_const.
Qed.

(** [A * exp(<x_i, x_j>)] *)
Lemma psd_schur_exp n m A X : psd n A -> psd n (fun i j => A i j * exp (rsum m (fun k => X i k * X j k))).
Proof.
  intros H. set (t := fun i j => rsum m (fun k => X i k * X j k)).
  apply psd_limit with (A := fun q i j => A i j * sum_f_R0 (fun p => / INR (fact p) * t i j ^ p) q).
  - intro q. induction q as [|q IH].
    + eapply psd_ext; [|exact H]. intros i j _ _. simpl. field.
    + eapply psd_ext; [|exact (psd_plus n _ _ IH (psd_scal n (/ INR (fact (S q))) _ ltac:(left; apply Rinv_0_lt_compat, INR_fact_lt_0) (psd_schur_pow n m A X (S q) H)))].
      intros i j _ _. cbn [sum_f_R0]. fold (t i j). ring.
  - intros i j _ _. apply (CV_mult (fun _ => A i j)); [apply cv_const|].
    exact (proj2_sig (exist_exp (t i j))).
Qed.

(** product with a Gaussian kernel of features [U] *)
Lemma psd_schur_gauss n m a A U : 0 <= a -> psd n A ->
  psd n (fun i j => A i j * exp (- a * rsum m (fun k => (U i k - U j k) * (U i k - U j k)))).
Proof.
  intros Ha H. set (r := sqrt (2 * a)).
  set (sq := fun i => rsum m (fun k => U i k * U i k)).
  assert (Hr : r * r = 2 * a) by (apply sqrt_def; lra).
  eapply psd_ext; [|exact (psd_diag n (fun i => exp (- a * sq i)) _ (psd_schur_exp n m A (fun i k => r * U i k) H))].
  intros i j _ _. cbn beta.
  replace (rsum m (fun k => (U i k - U j k) * (U i k - U j k))) with (sq i + sq j - 2 * rsum m (fun k => U i k * U j k)).
  - replace (rsum m (fun k => r * U i k * (r * U j k))) with (2 * a * rsum m (fun k => U i k * U j k)).
    + replace (- a * (sq i + sq j - 2 * rsum m (fun k => U i k * U j k))) with (- a * sq i + - a * sq j + 2 * a * rsum m (fun k => U i k * U j k)) by ring.
      rewrite !exp_plus. ring.
    + rewrite <- Hr, <- rsum_scal_l. apply rsum_ext. intros; ring.
  - unfold sq. rewrite <- rsum_scal_l, <- rsum_plus, <- rsum_minus. apply rsum_ext. intros; ring.
Qed.
Lemma psd_gauss n m a U : 0 <= a -> psd n (fun i j => exp (- a * rsum m (fun k => (U i k - U j k) * (U i k - U j k)))).
Proof.
  intros Ha. eapply psd_ext; [|exact (psd_schur_gauss n m a _ U Ha (psd_const n 1 ltac:(lra)))]. intros i j _ _. ring.
Qed.
