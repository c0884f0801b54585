(** Property C10: Latin hypercube sampling. *)
From Coq Require Import List Reals Arith Lia Lra Permutation.
From Verif Require Import LhsModel.
Import ListNotations.
Open Scope R_scope.

Lemma scatter_out {T} ind : forall i (col out : nat -> T) k, ~ In k ind -> scatter ind i col out k = out k.
Proof.
  induction ind as [|a ind IH]; intros i col out k H; simpl; auto.
  rewrite IH; [|intro; apply H; now right]. unfold upd.
  destruct (Nat.eqb_spec k a); auto. subst. exfalso. apply H. now left.
Qed.

Lemma scatter_at {T} ind : forall i (col out : nat -> T) m k, NoDup ind -> nth_error ind m = Some k ->
  scatter ind i col out k = col (i + m)%nat.
Proof.
  induction ind as [|a ind IH]; intros i col out m k N H; [destruct m; discriminate|].
  inversion N; subst. destruct m as [|m]; simpl in H |- *.
  - injection H; intros; subst. rewrite scatter_out by auto. unfold upd.
    rewrite Nat.eqb_refl. f_equal. lia.
  - rewrite (IH (S i) col _ m k); auto. f_equal. lia.
Qed.

Lemma lhs_entry n u perm j m r :
  Permutation (perm j) (seq 0 n) -> nth_error (perm j) m = Some r ->
  random_lhs n u perm r j = lhs_rdpoints n u m j.
Proof.
  intros P H. unfold random_lhs. rewrite (scatter_at _ 0 _ _ m r); auto.
  eapply Permutation_NoDup; [apply Permutation_sym; exact P|apply seq_NoDup].
Qed.

Lemma stratum n u m j : (m < n)%nat -> 0 <= u m j < 1 ->
  INR m / INR n <= lhs_rdpoints n u m j < INR (S m) / INR n.
Proof.
  intros L U. unfold lhs_rdpoints, lhs_cut.
  assert (Pn : 0 < / INR n) by (apply Rinv_0_lt_compat, lt_0_INR; lia).
  replace (INR (S m) / INR n - INR m / INR n) with (/ INR n) by (rewrite S_INR; unfold Rdiv; ring).
  rewrite S_INR. unfold Rdiv.
  assert (0 <= u m j * / INR n < / INR n).
  { split; [apply Rmult_le_pos; lra|]. rewrite <- (Rmult_1_l (/ INR n)) at 2. apply Rmult_lt_compat_r; lra. }
  lra.
Qed.

Lemma strata_disjoint n a b x : (0 < n)%nat ->
  INR a / INR n <= x < INR (S a) / INR n -> INR b / INR n <= x < INR (S b) / INR n -> a = b.
Proof.
  intros L A B. assert (Pn : 0 < / INR n) by (apply Rinv_0_lt_compat, lt_0_INR; lia).
  unfold Rdiv in *.
  assert (K : forall a b, INR a * / INR n <= x -> x < INR (S b) * / INR n -> (a <= b)%nat).
  { intros c d H1 H2. assert (H : INR c * / INR n < INR (S d) * / INR n) by lra.
    apply Rmult_lt_reg_r in H; auto. apply INR_lt in H. lia. }
  pose proof (K a b ltac:(tauto) ltac:(tauto)). pose proof (K b a ltac:(tauto) ltac:(tauto)). lia.
Qed.

(** C10: in every dimension each of the n strata contains the coordinate of exactly one of the n
    points, and all coordinates are in [0,1), for all draws of [0,1) and all shuffles. *)
Theorem C10_lhs_stratified :
  forall (n dim : nat) (u : nat -> nat -> R) (perm : nat -> list nat),
    (forall i j, (i < n)%nat -> (j < dim)%nat -> 0 <= u i j < 1) ->
    (forall j, (j < dim)%nat -> Permutation (perm j) (seq 0 n)) ->
    forall j, (j < dim)%nat ->
      (forall k, (k < n)%nat ->
         exists! r, (r < n)%nat /\ INR k / INR n <= random_lhs n u perm r j < INR (k + 1) / INR n) /\
      (forall r, (r < n)%nat -> 0 <= random_lhs n u perm r j < 1).
Proof.
  intros n dim u perm Hu Hp j Hj. specialize (Hp j Hj).
  assert (Len : length (perm j) = n) by (rewrite (Permutation_length Hp); apply seq_length).
  assert (ND : NoDup (perm j)) by (eapply Permutation_NoDup; [apply Permutation_sym; exact Hp|apply seq_NoDup]).
  assert (Row : forall r, (r < n)%nat -> exists m, (m < n)%nat /\ nth_error (perm j) m = Some r).
  { intros r Hr. assert (I : In r (perm j)).
    { eapply Permutation_in; [apply Permutation_sym; exact Hp|]. apply in_seq. lia. }
    apply In_nth_error in I. destruct I as (m & Hm). exists m. split; auto.
    rewrite <- Len. apply nth_error_Some. congruence. }
  split.
  - intros k Hk.
    destruct (nth_error (perm j) k) as [r|] eqn:Er;
      [|apply nth_error_None in Er; lia].
    assert (Hr : (r < n)%nat).
    { apply nth_error_In in Er. eapply Permutation_in in Er; [|exact Hp]. apply in_seq in Er. lia. }
    exists r. rewrite Nat.add_1_r. split.
    + split; auto. rewrite (lhs_entry n u perm j k r Hp Er). apply stratum; auto.
    + intros r' (Hr' & B). destruct (Row r' Hr') as (m & Hm & Em).
      rewrite (lhs_entry n u perm j m r' Hp Em) in B.
      assert (m = k) by (apply (strata_disjoint n m k (lhs_rdpoints n u m j)); [lia|apply stratum; auto|exact B]).
      subst m. congruence.
  - intros r Hr. destruct (Row r Hr) as (m & Hm & Em).
    rewrite (lhs_entry n u perm j m r Hp Em).
    pose proof (stratum n u m j Hm (Hu m j Hm Hj)) as St.
    assert (Pn : 0 < INR n) by (apply lt_0_INR; lia).
    assert (0 <= INR m / INR n) by (apply Rmult_le_pos; [apply pos_INR|left; now apply Rinv_0_lt_compat]).
    assert (INR (S m) / INR n <= 1).
    { apply Rmult_le_reg_r with (INR n); auto. unfold Rdiv. rewrite Rmult_assoc, Rinv_l by lra.
      rewrite Rmult_1_r, Rmult_1_l. apply le_INR. lia. }
    lra.
Qed.
Print Assumptions C10_lhs_stratified.

(** non-vacuity: 3 points in 2 dimensions, constant draws, two different shuffles *)
Example C10_example :
  (forall i j, (i < 3)%nat -> (j < 2)%nat -> 0 <= (fun _ _ => / 2) i j < 1) /\
  (forall j, (j < 2)%nat -> Permutation ((fun j => if (j =? 0)%nat then [2; 0; 1] else [0; 2; 1])%nat j) (seq 0 3)) /\
  random_lhs 3 (fun _ _ => / 2) (fun j => if (j =? 0)%nat then [2; 0; 1]%nat else [0; 2; 1]%nat) 2 0 = / 6.
Proof.
  split; [intros; lra|]. split.
  - intros [|[|j]] H; simpl; [| |lia].
    + apply Permutation_trans with [0; 2; 1]%nat; [apply perm_swap|]. constructor. apply perm_swap.
    + constructor. apply perm_swap.
  - unfold random_lhs; simpl. unfold upd, lhs_rdpoints, lhs_cut; simpl. field.
Qed.
