(** C47: the scalarisation of GPParego. *)
From Coq Require Import Reals List Bool ZArith Lia Lra Permutation.
From Coq Require Import Floats.SpecFloat.
From Flocq Require Import Core.
From Verif Require Import F64 F64R Prop_Sparse ParegoModel.
Import ListNotations.
Open Scope R_scope.

(** * Real numbers *)
Lemma redux_sum t f : redux Rplus f t = fold_right Rplus 0 (map f (leaves t)).
Proof.
  induction t as [i|a IHa b IHb]; simpl; [ring|]. rewrite IHa, IHb, map_app.
  generalize (map f (leaves a)) as l. induction l; simpl; [ring|]. rewrite Rplus_assoc, IHl. ring.
Qed.
Lemma sum_perm (l l' : list R) : Permutation l l' -> fold_right Rplus 0 l = fold_right Rplus 0 l'.
Proof. induction 1; simpl; try lra. Qed.
Lemma redux_pos t f : (forall i, In i (leaves t) -> 0 <= f i) -> 0 <= redux Rplus f t.
Proof.
  induction t as [i|a IHa b IHb]; intros H; simpl in *; auto.
  assert (0 <= redux Rplus f a) by (apply IHa; intros; apply H, in_or_app; auto).
  assert (0 <= redux Rplus f b) by (apply IHb; intros; apply H, in_or_app; auto). lra.
Qed.
Lemma redux_scale t f c : redux Rplus (fun i => f i / c) t = redux Rplus f t / c.
Proof. induction t as [i|a IHa b IHb]; simpl; auto. rewrite IHa, IHb. unfold Rdiv. ring. Qed.
Lemma redux_max_spec t f : (exists i, In i (leaves t) /\ redux Rmax f t = f i) /\ forall i, In i (leaves t) -> f i <= redux Rmax f t.
Proof.
  induction t as [i|a [(ia & Ia & Ea) IHa] b [(ib & Ib & Eb) IHb]]; simpl.
  - split; [exists i; auto|]. intros j [<-|[]]. lra.
  - split.
    + destruct (Rle_dec (redux Rmax f a) (redux Rmax f b)).
      * exists ib. split; [apply in_or_app; auto|]. rewrite Rmax_right; auto.
      * exists ia. split; [apply in_or_app; auto|]. rewrite Rmax_left; auto. lra.
    + intros i H. apply in_app_or in H. destruct H as [H|H]; [specialize (IHa i H)|specialize (IHb i H)];
        eapply Rle_trans; eauto; [apply Rmax_l|apply Rmax_r].
Qed.

(** [n] objectives, the draws are non-negative and not all zero *)
Section Reals.
Variables (n : nat) (tw tm ts : tree) (rho : R).
Hypothesis Hw : Permutation (leaves tw) (seq 0 n).
Hypothesis Hm : Permutation (leaves tm) (seq 0 n).
Hypothesis Hs : Permutation (leaves ts) (seq 0 n).
Lemma in_tree t i : Permutation (leaves t) (seq 0 n) -> In i (leaves t) <-> (i < n)%nat.
Proof.
  intros P. split; intros H.
  - apply (Permutation_in _ P) in H. apply in_seq in H. lia.
  - apply (Permutation_in _ (Permutation_sym P)). apply in_seq. lia.
Qed.

(** the weights are non-negative and sum to one *)
Theorem C47_weights u : (forall i, (i < n)%nat -> 0 <= u i) -> (exists i, (i < n)%nat /\ u i <> 0) ->
  (forall i, (i < n)%nat -> 0 <= rweights tw u i) /\
  fold_right Rplus 0 (map (rweights tw u) (seq 0 n)) = 1.
Proof.
  intros Hu (i0 & L0 & N0). assert (P : 0 < redux Rplus u tw).
  { assert (G : forall t, (forall i, In i (leaves t) -> 0 <= u i) -> In i0 (leaves t) -> 0 < redux Rplus u t).
    { induction t as [i|a IHa b IHb]; intros H I; simpl in *.
      - destruct I as [->|[]]. specialize (Hu i0 L0). lra.
      - assert (0 <= redux Rplus u a) by (apply redux_pos; intros; apply H, in_or_app; auto).
        assert (0 <= redux Rplus u b) by (apply redux_pos; intros; apply H, in_or_app; auto).
        apply in_app_or in I. destruct I as [I|I].
        + assert (0 < redux Rplus u a) by (apply IHa; auto; intros; apply H, in_or_app; auto). lra.
        + assert (0 < redux Rplus u b) by (apply IHb; auto; intros; apply H, in_or_app; auto). lra. }
    apply G; [intros i Hi; apply Hu; now apply (in_tree tw)|now apply (in_tree tw)]. }
  split.
  - intros i Hi. unfold rweights, weights. apply Rmult_le_pos; auto. left. now apply Rinv_0_lt_compat.
  - rewrite <- (sum_perm _ _ (Permutation_map _ Hw)), <- redux_sum.
    unfold rweights, weights. rewrite redux_scale. field. lra.
Qed.

(** the scalar is the largest weighted value plus rho times their sum *)
Theorem C47_value lambda x : exists m, (exists i, (i < n)%nat /\ m = lambda i * x i) /\ (forall i, (i < n)%nat -> lambda i * x i <= m) /\
  rscalar rho tm ts lambda x = m + rho * fold_right Rplus 0 (map (fun i => lambda i * x i) (seq 0 n)).
Proof.
  destruct (redux_max_spec tm (fun i => lambda i * x i)) as ((i & Hi & E) & B).
  exists (redux Rmax (fun i => lambda i * x i) tm). split; [exists i; split; auto; now apply (in_tree tm)|].
  split; [intros j Hj; apply B; now apply (in_tree tm)|].
  unfold rscalar, scalar. rewrite redux_sum. f_equal. f_equal. apply sum_perm, Permutation_map, Hs.
Qed.

(** an observation at least as good everywhere does not get a smaller scalar; one that is better somewhere
    gets a larger one when rho and the weights are positive *)
Theorem C47_monotone lambda x y : 0 <= rho -> (forall i, (i < n)%nat -> 0 <= lambda i) -> (forall i, (i < n)%nat -> x i <= y i) ->
  rscalar rho tm ts lambda x <= rscalar rho tm ts lambda y.
Proof.
  intros Hr Hl Hxy. destruct (C47_value lambda x) as (mx & (i & Li & Ei) & _ & Ex). destruct (C47_value lambda y) as (my & _ & By & Ey).
  rewrite Ex, Ey. assert (mx <= my). { rewrite Ei. eapply Rle_trans; [|apply (By i Li)]. apply Rmult_le_compat_l; auto. }
  assert (fold_right Rplus 0 (map (fun i => lambda i * x i) (seq 0 n)) <= fold_right Rplus 0 (map (fun i => lambda i * y i) (seq 0 n))).
  { assert (G : forall l, (forall i, In i l -> (i < n)%nat) -> fold_right Rplus 0 (map (fun i => lambda i * x i) l) <= fold_right Rplus 0 (map (fun i => lambda i * y i) l)).
    { induction l as [|j l IH]; intros H1; simpl; [lra|]. assert (lambda j * x j <= lambda j * y j) by (apply Rmult_le_compat_l; [apply Hl|apply Hxy]; apply H1; now left).
      specialize (IH (fun i Hi => H1 i (or_intror Hi))). lra. }
    apply G. intros j Hj. apply in_seq in Hj. lia. }
  assert (rho * fold_right Rplus 0 (map (fun i => lambda i * x i) (seq 0 n)) <= rho * fold_right Rplus 0 (map (fun i => lambda i * y i) (seq 0 n))) by (apply Rmult_le_compat_l; auto).
  lra.
Qed.

Theorem C47_strictly_monotone lambda x y k : 0 < rho -> (forall i, (i < n)%nat -> 0 < lambda i) -> (forall i, (i < n)%nat -> x i <= y i) ->
  (k < n)%nat -> x k < y k -> rscalar rho tm ts lambda x < rscalar rho tm ts lambda y.
Proof.
  intros Hr Hl Hxy Lk Hk. destruct (C47_value lambda x) as (mx & (i & Li & Ei) & _ & Ex). destruct (C47_value lambda y) as (my & _ & By & Ey).
  rewrite Ex, Ey. assert (mx <= my). { rewrite Ei. eapply Rle_trans; [|apply (By i Li)]. apply Rmult_le_compat_l; auto. left. auto. }
  assert (fold_right Rplus 0 (map (fun i => lambda i * x i) (seq 0 n)) < fold_right Rplus 0 (map (fun i => lambda i * y i) (seq 0 n))).
  { assert (G : forall l, (forall i, In i l -> (i < n)%nat) ->
      fold_right Rplus 0 (map (fun i => lambda i * x i) l) <= fold_right Rplus 0 (map (fun i => lambda i * y i) l) /\
      (In k l -> fold_right Rplus 0 (map (fun i => lambda i * x i) l) < fold_right Rplus 0 (map (fun i => lambda i * y i) l))).
    { induction l as [|j l IH]; intros H1; simpl; [split; [lra|tauto]|].
      assert (Lj : (j < n)%nat) by (apply H1; now left). specialize (Hl j Lj) as Hlj.
      assert (lambda j * x j <= lambda j * y j) by (apply Rmult_le_compat_l; [lra|auto]).
      destruct (IH (fun i Hi => H1 i (or_intror Hi))) as [I1 I2]. split; [lra|]. intros [->|I].
      - assert (lambda k * x k < lambda k * y k) by (apply Rmult_lt_compat_l; auto). lra.
      - specialize (I2 I). lra. }
    apply G; [intros j Hj; apply in_seq in Hj; lia|]. apply in_seq. lia. }
  assert (rho * fold_right Rplus 0 (map (fun i => lambda i * x i) (seq 0 n)) < rho * fold_right Rplus 0 (map (fun i => lambda i * y i) (seq 0 n))) by (apply Rmult_lt_compat_l; auto).
  lra.
Qed.
End Reals.

(** * Doubles *)
Definition B900 := bpow radix2 900.
Definition within (k : nat) (x : F) : Prop := fvalid x /\ ffin x /\ Rabs (fval x) <= INR k * B900.
Definition unit_f (x : F) : Prop := fvalid x /\ ffin x /\ 0 <= fval x <= 1.

Lemma B900_pos : 0 < B900. Proof. apply bpow_gt_0. Qed.
Lemma fval1 : fvalid f1 /\ ffin f1 /\ fval f1 = 1.
Proof. destruct (fofZ_correct 1) as [A B]; [lia|]. split; [reflexivity|]. split; auto. Qed.
Lemma rnd_opp x : rnd (- x) = - rnd x.
Proof. unfold rnd. now rewrite round_NE_opp. Qed.
Lemma rnd_bound k x : (Z.of_nat k <= 2 ^ 53)%Z -> Rabs x <= INR k * B900 -> Rabs (rnd x) <= INR k * B900.
Proof.
  intros Hk H. apply Rabs_le. apply Rabs_le_inv in H. pose proof (big_multiple k Hk) as E. fold B900 in E. split.
  - rewrite <- E at 1. rewrite <- rnd_opp. apply rnd_le. lra.
  - rewrite <- E. apply rnd_le. lra.
Qed.
Lemma big_fin k x : (Z.of_nat k <= 2 ^ 53)%Z -> Rabs x <= INR k * B900 -> Rabs (rnd x) < bpow radix2 1024.
Proof.
  intros Hk H. apply rnd_small. eapply Rle_trans; [exact H|]. apply Rle_trans with (bpow radix2 53 * B900)%R.
  - apply Rmult_le_compat_r; [apply bpow_ge_0|]. rewrite INR_IZR_INZ. change (bpow radix2 53) with (IZR (2 ^ 53)). apply IZR_le. lia.
  - unfold B900. rewrite <- bpow_plus. apply bpow_le. lia.
Qed.

Lemma add_within k l x y : within k x -> within l y -> (Z.of_nat (k + l) <= 2 ^ 53)%Z ->
  within (k + l) (fadd x y) /\ fval (fadd x y) = rnd (fval x + fval y).
Proof.
  intros (Vx & Fx & Bx) (Vy & Fy & By) H.
  assert (S : Rabs (fval x + fval y) <= INR (k + l) * B900) by (rewrite plus_INR; eapply Rle_trans; [apply Rabs_triang|]; lra).
  destruct (fadd_correct x y Vx Vy Fx Fy) as (A & B); [now apply (big_fin (k + l))|].
  split; auto. split; [now apply fadd_valid|]. split; auto. rewrite B. now apply rnd_bound.
Qed.

Lemma mul_within k a x : unit_f a -> within k x -> (Z.of_nat k <= 2 ^ 53)%Z ->
  within k (fmul a x) /\ fval (fmul a x) = rnd (fval a * fval x).
Proof.
  intros (Va & Fa & Ba) (Vx & Fx & Bx) H.
  assert (S : Rabs (fval a * fval x) <= INR k * B900).
  { rewrite Rabs_mult, (Rabs_pos_eq (fval a)) by lra. pose proof (Rabs_pos (fval x)). nra. }
  destruct (fmul_correct a x Va Vx Fa Fx) as (A & B); [now apply (big_fin k)|].
  split; auto. split; [now apply fmul_valid|]. split; auto. rewrite B. now apply rnd_bound.
Qed.

Definition size (t : tree) := length (leaves t).

Section Doubles.
Variables (n : nat) (tw tm ts : tree) (rho : F) (lambda x y : nat -> F).
Hypothesis Hn : (Z.of_nat (S n) <= 2 ^ 53)%Z.
Hypothesis Hw : Permutation (leaves tw) (seq 0 n).
Hypothesis Hm : Permutation (leaves tm) (seq 0 n).
Hypothesis Hs : Permutation (leaves ts) (seq 0 n).

Lemma sum_mono (f g : nat -> F) t : (Z.of_nat (size t) <= 2 ^ 53)%Z ->
  (forall i, In i (leaves t) -> within 1 (f i) /\ within 1 (g i) /\ fval (f i) <= fval (g i)) ->
  within (size t) (redux fadd f t) /\ within (size t) (redux fadd g t) /\ fval (redux fadd f t) <= fval (redux fadd g t).
Proof.
  induction t as [i|a IHa b IHb]; intros Hz H; cbn [redux].
  - apply H. now left.
  - unfold size in *. cbn [leaves] in *. rewrite app_length in Hz |- *.
    destruct IHa as (A1 & A2 & A3); [lia|intros; apply H, in_or_app; auto|].
    destruct IHb as (B1 & B2 & B3); [lia|intros; apply H, in_or_app; auto|].
    destruct (add_within _ _ _ _ A1 B1) as (C1 & E1); auto. destruct (add_within _ _ _ _ A2 B2) as (C2 & E2); auto.
    split; auto. split; auto. rewrite E1, E2. apply rnd_le. lra.
Qed.

Lemma max_mono (f g : nat -> F) t :
  (forall i, In i (leaves t) -> within 1 (f i) /\ within 1 (g i) /\ fval (f i) <= fval (g i)) ->
  within 1 (redux fmaxc f t) /\ within 1 (redux fmaxc g t) /\ fval (redux fmaxc f t) <= fval (redux fmaxc g t).
Proof.
  assert (MX : forall a b, within 1 a -> within 1 b -> within 1 (fmaxc a b) /\ fval (fmaxc a b) = Rmax (fval a) (fval b)).
  { intros a b (V1 & F1 & B1) (V2 & F2 & B2). unfold fmaxc. destruct (flt a b) eqn:E.
    - apply flt_R in E; auto. split; [repeat split; auto|]. rewrite Rmax_right; lra.
    - apply flt_R_false in E; auto. split; [repeat split; auto|]. rewrite Rmax_left; lra. }
  induction t as [i|a IHa b IHb]; intros H; cbn [redux].
  - apply H. now left.
  - destruct IHa as (A1 & A2 & A3); [intros; apply H, in_or_app; auto|].
    destruct IHb as (B1 & B2 & B3); [intros; apply H, in_or_app; auto|].
    destruct (MX _ _ A1 B1) as (C1 & E1). destruct (MX _ _ A2 B2) as (C2 & E2). split; auto. split; auto.
    rewrite E1, E2. apply Rmax_lub; [eapply Rle_trans; [exact A3|apply Rmax_l]|eapply Rle_trans; [exact B3|apply Rmax_r]].
Qed.

(** in floating point too: never smaller, and never infinite or NaN, for values up to 2^900 *)
Theorem C47_monotone_float : unit_f rho -> (forall i, (i < n)%nat -> unit_f (lambda i)) ->
  (forall i, (i < n)%nat -> within 1 (x i) /\ within 1 (y i) /\ fle (x i) (y i) = true) ->
  ffin (fscalar rho tm ts lambda x) /\ ffin (fscalar rho tm ts lambda y) /\
  fle (fscalar rho tm ts lambda x) (fscalar rho tm ts lambda y) = true.
Proof.
  intros Hr Hl Hxy.
  assert (L : forall i, (i < n)%nat -> within 1 (fmul (lambda i) (x i)) /\ within 1 (fmul (lambda i) (y i)) /\ fval (fmul (lambda i) (x i)) <= fval (fmul (lambda i) (y i))).
  { intros i Hi. destruct (Hxy i Hi) as (Wx & Wy & Le). specialize (Hl i Hi).
    destruct (mul_within 1 _ _ Hl Wx) as (A & EA); [lia|]. destruct (mul_within 1 _ _ Hl Wy) as (B & EB); [lia|].
    split; auto. split; auto. rewrite EA, EB. apply rnd_le. apply Rmult_le_compat_l; [apply Hl|].
    apply fle_R; auto; first [apply Wx|apply Wy]. }
  assert (Sz : forall t, Permutation (leaves t) (seq 0 n) -> size t = n) by (intros t P; unfold size; rewrite (Permutation_length P); apply seq_length).
  destruct (sum_mono _ _ ts ltac:(rewrite Sz by auto; lia) (fun i Hi => L i (proj1 (in_tree n ts i Hs) Hi))) as (A1 & A2 & A3).
  destruct (max_mono _ _ tm (fun i Hi => L i (proj1 (in_tree n tm i Hm) Hi))) as (B1 & B2 & B3).
  rewrite Sz in A1, A2 by auto.
  destruct (mul_within n _ _ Hr A1) as (C1 & D1); [lia|]. destruct (mul_within n _ _ Hr A2) as (C2 & D2); [lia|].
  destruct (add_within 1 n _ _ B1 C1) as (E1 & G1); [lia|]. destruct (add_within 1 n _ _ B2 C2) as (E2 & G2); [lia|].
  assert (fval (fmul rho (redux fadd (fun i => fmul (lambda i) (x i)) ts)) <= fval (fmul rho (redux fadd (fun i => fmul (lambda i) (y i)) ts))).
  { rewrite D1, D2. apply rnd_le, Rmult_le_compat_l; auto. apply Hr. }
  unfold fscalar, scalar. split; [apply E1|]. split; [apply E2|]. apply fle_R; try apply E1; try apply E2.
  rewrite G1, G2. apply rnd_le. lra.
Qed.
End Doubles.

(** the weights computed in floating point, when their sum is not zero *)
Lemma sum_units u t : (Z.of_nat (size t) <= 2 ^ 53)%Z -> (forall i, In i (leaves t) -> unit_f (u i)) ->
  within (size t) (redux fadd u t) /\ 0 <= fval (redux fadd u t) /\ forall i, In i (leaves t) -> fval (u i) <= fval (redux fadd u t).
Proof.
  assert (U1 : forall a, unit_f a -> within 1 a).
  { intros a (V & Fi & B). split; auto. split; auto. rewrite Rabs_pos_eq by lra. simpl INR. rewrite Rmult_1_l.
    apply Rle_trans with 1; [lra|]. unfold B900. change 1 with (bpow radix2 0). apply bpow_le. lia. }
  assert (R0 : rnd 0 = 0) by (change 0 with (fval f0); apply rnd_id; reflexivity).
  induction t as [i|a IHa b IHb]; intros Hz H; cbn [redux].
  - assert (Hi : unit_f (u i)) by (apply H; now left). split; [now apply U1|]. split; [apply Hi|]. intros j [<-|[]]. lra.
  - unfold size in *. cbn [leaves] in *. rewrite app_length in Hz |- *.
    destruct IHa as (A1 & A2 & A3); [lia|intros; apply H, in_or_app; auto|].
    destruct IHb as (B1 & B2 & B3); [lia|intros; apply H, in_or_app; auto|].
    destruct (add_within _ _ _ _ A1 B1) as (C1 & E1); auto. split; auto.
    assert (P1 : fval (redux fadd u a) <= fval (fadd (redux fadd u a) (redux fadd u b))).
    { rewrite E1. rewrite <- (rnd_id (redux fadd u a)) at 1 by apply A1. apply rnd_le. lra. }
    assert (P2 : fval (redux fadd u b) <= fval (fadd (redux fadd u a) (redux fadd u b))).
    { rewrite E1. rewrite <- (rnd_id (redux fadd u b)) at 1 by apply B1. apply rnd_le. lra. }
    split; [lra|]. intros i Hi. apply in_app_or in Hi. destruct Hi as [Hi|Hi]; [specialize (A3 i Hi)|specialize (B3 i Hi)]; lra.
Qed.

Theorem C47_weights_float n tw u : (Z.of_nat n <= 2 ^ 53)%Z -> Permutation (leaves tw) (seq 0 n) ->
  (forall i, (i < n)%nat -> unit_f (u i)) -> (exists i, (i < n)%nat /\ fval (u i) <> 0) ->
  forall i, (i < n)%nat -> unit_f (fweights tw u i).
Proof.
  intros Hn Hw Hu (k & Lk & Nk) i Li. assert (Sz : size tw = n) by (unfold size; rewrite (Permutation_length Hw); apply seq_length).
  destruct (sum_units u tw) as ((V & Fi & B) & P & Q); [rewrite Sz; lia|intros j Hj; apply Hu; now apply (in_tree n tw)|].
  set (s := redux fadd u tw) in *. unfold fweights, weights. fold s.
  assert (Ps : 0 < fval s) by (specialize (Q k (proj2 (in_tree n tw k Hw) Lk)); destruct (Hu k Lk) as (_ & _ & ?); lra).
  specialize (Q i (proj2 (in_tree n tw i Hw) Li)). destruct (Hu i Li) as (Vi & Fii & Bi).
  assert (Rng : 0 <= fval (u i) / fval s <= 1).
  { split; [apply Rmult_le_pos; [lra|left; now apply Rinv_0_lt_compat]|]. apply Rmult_le_reg_r with (fval s); auto. unfold Rdiv. rewrite Rmult_assoc, Rinv_l by lra. lra. }
  assert (R0 : rnd 0 = 0) by (change 0 with (fval f0); apply rnd_id; reflexivity).
  assert (R1 : rnd 1 = 1) by (destruct fval1 as (V1 & _ & <-); now apply rnd_id).
  assert (Rr : 0 <= rnd (fval (u i) / fval s) <= 1) by (split; [rewrite <- R0|rewrite <- R1]; apply rnd_le; lra).
  destruct (fdiv_correct (u i) s Vi V Fii Fi) as (A & E); [lra| |].
  { rewrite Rabs_pos_eq by lra. apply Rle_lt_trans with 1; [lra|]. change 1 with (bpow radix2 0). apply bpow_lt. lia. }
  split; [now apply fdiv_valid|]. split; auto. rewrite E. auto.
Qed.

(** ** a draw of zeros only (of positive probability) gives NaN weights *)
Theorem C47_zero_draw_refuted : exists tw u, Permutation (leaves tw) (seq 0 2) /\ (forall i, (i < 2)%nat -> unit_f (u i)) /\
  fweights tw u 0 = fnan.
Proof.
  exists (Node (Leaf 0) (Leaf 1)), (fun _ => f0). split; [apply Permutation_refl|]. split; [|reflexivity].
  intros i _. split; [reflexivity|]. split; [reflexivity|]. change (fval f0) with 0. lra.
Qed.

(** ** the hypotheses can be met *)
Example C47_ex : let t := Node (Leaf 1) (Leaf 0) in let u := fun i => if (i =? 0)%nat then f1 else f0 in
  Permutation (leaves t) (seq 0 2) /\ (forall i, (i < 2)%nat -> unit_f (u i)) /\ (exists i, (i < 2)%nat /\ fval (u i) <> 0) /\
  within 1 f1 /\ within 1 f0 /\ fle f0 f1 = true.
Proof.
  intros t u. destruct fval1 as (V1 & F1 & E1). split; [apply perm_swap|]. split.
  { intros i _. unfold u. destruct (i =? 0)%nat; (split; [reflexivity|split; [reflexivity|]]); [rewrite E1|change (fval f0) with 0]; lra. }
  split; [exists 0%nat; split; [lia|]; unfold u; cbn [Nat.eqb]; rewrite E1; lra|].
  assert (P : 1 <= B900) by (unfold B900; change 1 with (bpow radix2 0); apply bpow_le; lia).
  split; [|split; [|reflexivity]]; (split; [reflexivity|split; [reflexivity|]]); simpl INR; [rewrite E1, Rabs_pos_eq; lra|].
  change (fval f0) with 0. rewrite Rabs_R0. lra.
Qed.
