(** C31: what the leave-one-out score is; C30 and C31 for the kernels and means of limbo. *)
From Coq Require Import Reals List Bool ZArith Lia Lra.
From Coquelicot Require Import Coquelicot.
From Verif Require Import LinAlgModel LinAlg MatCalc Det KernelModel GPModel GPSpec GPFacts Prop_GP KernelSpec KernelFacts KernelGrad Prop_Kernel
  MeanSpec MeanFacts Prop_Mean Prop_Lik.
Import ListNotations.
Open Scope R_scope.

(** the list without its element [i] *)
Definition without {A} (i : nat) (l : list A) : list A := firstn i l ++ skipn (S i) l.
Lemma without_length {A} i (l : list A) : (i < length l)%nat -> length (without i l) = (length l - 1)%nat.
Proof. intro H. unfold without. rewrite app_length, firstn_length, skipn_length. lia. Qed.
Lemma nth_without {A} i (l : list A) a dflt : (i < length l)%nat -> nth a (without i l) dflt = nth (skip i a) l dflt.
Proof.
  intro H. unfold without, skip. destruct (Nat.ltb_spec a i).
  - rewrite app_nth1 by (rewrite firstn_length; lia). revert a l H H0. induction i as [|i IH]; intros a l Hl Ha; [lia|].
    destruct l as [|x l]; [simpl in Hl; lia|]. destruct a; [reflexivity|]. cbn [firstn nth]. apply IH; simpl in *; lia.
  - rewrite app_nth2 by (rewrite firstn_length; lia). rewrite firstn_length, Nat.min_l by lia.
    rewrite <- (firstn_skipn (S i) l) at 2. rewrite app_nth2 by (rewrite firstn_length; lia).
    rewrite firstn_length, Nat.min_l by lia. f_equal; lia.
Qed.
Lemma rsum_skip m i f : (i <= m)%nat -> rsum (S m) f = f i + rsum m (fun a => f (skip i a)).
Proof.
  revert f. induction m as [|m IH]; intros f Hi.
  - replace i with O by lia. cbn. ring.
  - destruct (Nat.eq_dec i (S m)) as [->|Ne].
    + change (rsum (S (S m)) f) with (rsum (S m) f + f (S m)). rewrite (rsum_ext (S m) (fun a => f (skip (S m) a)) f); [ring|].
      intros a Ha. unfold skip. destruct (Nat.ltb_spec a (S m)); [reflexivity|lia].
    + change (rsum (S (S m)) f) with (rsum (S m) f + f (S m)). rewrite IH by lia. cbn [rsum].
      replace (skip i m) with (S m); [ring|]. unfold skip. destruct (Nat.ltb_spec m i); [lia|reflexivity].
Qed.
Lemma skip_lt m i a : (a < m)%nat -> (skip i a < S m)%nat. Proof. intro. unfold skip. destruct (a <? i)%nat; lia. Qed.
Lemma skip_ne i a : skip i a <> i. Proof. unfold skip. destruct (Nat.ltb_spec a i); lia. Qed.
Lemma delta_skip i a b : delta (skip i a) (skip i b) = delta a b.
Proof.
  unfold delta. destruct (Nat.eqb_spec a b) as [->|Ne]; [now rewrite Nat.eqb_refl|].
  destruct (Nat.eqb_spec (skip i a) (skip i b)) as [E|]; [exfalso|reflexivity].
  unfold skip in E. destruct (Nat.ltb_spec a i); destruct (Nat.ltb_spec b i); lia.
Qed.
Lemma delta_ne a b : a <> b -> delta a b = 0. Proof. intro H. unfold delta. destruct (Nat.eqb_spec a b); [contradiction|reflexivity]. Qed.
Section Block.
Variables (m i : nat) (A B : nat -> nat -> R).
Hypotheses (Hi : (i <= m)%nat) (HB : is_inv (S m) A B) (Hd : B i i <> 0).
Let Cm (a b : nat) := B (skip i a) (skip i b) - B (skip i a) i * B i (skip i b) / B i i.
Lemma AB a b : (a < S m)%nat -> (b < S m)%nat -> rsum m (fun c => A a (skip i c) * B (skip i c) b) = delta a b - A a i * B i b.
Proof. intros Ha Hb. destruct HB as [H _]. specialize (H a b Ha Hb). unfold mmul in H. rewrite (rsum_skip m i) in H by exact Hi. lra. Qed.
Lemma BA a b : (a < S m)%nat -> (b < S m)%nat -> rsum m (fun c => B a (skip i c) * A (skip i c) b) = delta a b - B a i * A i b.
Proof. intros Ha Hb. destruct HB as [_ H]. specialize (H a b Ha Hb). unfold mmul in H. rewrite (rsum_skip m i) in H by exact Hi. lra. Qed.
Lemma block_inv : is_inv m (fun a b => A (skip i a) (skip i b)) Cm.
Proof.
  split; intros a b Ha Hb; unfold mmul, Cm.
  - rewrite (rsum_ext m _ (fun c => A (skip i a) (skip i c) * B (skip i c) (skip i b) - A (skip i a) (skip i c) * B (skip i c) i * (B i (skip i b) / B i i)))
      by (intros; field; exact Hd).
    rewrite rsum_minus, rsum_scal_r, !AB by (auto using skip_lt; lia). rewrite delta_skip, (delta_ne (skip i a) i) by apply skip_ne. field. exact Hd.
  - rewrite (rsum_ext m _ (fun c => B (skip i a) (skip i c) * A (skip i c) (skip i b) - B (skip i a) i / B i i * (B i (skip i c) * A (skip i c) (skip i b))))
      by (intros; field; exact Hd).
    rewrite rsum_minus, rsum_scal_l, !BA by (auto using skip_lt; lia). rewrite delta_skip, (delta_ne i (skip i b)) by (apply not_eq_sym, skip_ne). field. exact Hd.
Qed.
(** weights of the left-out prediction *)
Lemma block_row b : (b < m)%nat -> rsum m (fun a => A i (skip i a) * Cm a b) = - B i (skip i b) / B i i.
Proof.
  intro Hb. unfold Cm.
  rewrite (rsum_ext m _ (fun c => A i (skip i c) * B (skip i c) (skip i b) - A i (skip i c) * B (skip i c) i * (B i (skip i b) / B i i)))
    by (intros; field; exact Hd).
  rewrite rsum_minus, rsum_scal_r, !AB by (auto using skip_lt; lia). rewrite (delta_ne i (skip i b)) by (apply not_eq_sym, skip_ne).
  unfold delta. rewrite Nat.eqb_refl. field. exact Hd.
Qed.
Lemma block_mean r al : al = rsum (S m) (fun b => B i b * r b) ->
  rsum m (fun a => rsum m (fun b => A i (skip i a) * Cm a b * r (skip i b))) = r i - al / B i i.
Proof.
  intro Ea. rewrite rsum_swap. rewrite (rsum_ext m _ (fun b => - / B i i * (B i (skip i b) * r (skip i b)))).
  - rewrite rsum_scal_l. rewrite (rsum_skip m i) in Ea by exact Hi. rewrite Ea. field. exact Hd.
  - intros b Hb. rewrite rsum_scal_r, block_row by exact Hb. field. exact Hd.
Qed.
Lemma block_var : rsum m (fun a => rsum m (fun b => A i (skip i a) * Cm a b * A (skip i b) i)) = A i i - / B i i.
Proof.
  rewrite rsum_swap. rewrite (rsum_ext m _ (fun b => - / B i i * (B i (skip i b) * A (skip i b) i))).
  - rewrite rsum_scal_l, BA by lia. unfold delta. rewrite Nat.eqb_refl. field. exact Hd.
  - intros b Hb. rewrite rsum_scal_r, block_row by exact Hb. field. exact Hd.
Qed.
End Block.

Section Loo.
Variables (K : Kern) (M : Mean) (KO : KernOK K) (MO : MeanOK M).
(** the mean does not look at the observations *)
Hypothesis blind : forall st x mo mo', m_val M st x mo = m_val M st x mo'.

(** One term of the score: the log density that the GP trained without sample [i] gives to the
    noisy observation [i]; [B] is the inverse of the kernel matrix without sample [i]. *)
Definition left_out (k : kst K) (mm : mst M) (xs ys : list vec) (p : nat) (B : nat -> nat -> R) (i o : nat) : R :=
  log_normal (post_mean K M k mm (without i xs) (without i ys) p B (x_ xs i) o)
             (post_var K k (without i xs) B (x_ xs i) + (k_noise K k + / 100000000)) (y_ ys i o).

Lemma gram_without k (xs : list vec) i a b : (i < length xs)%nat -> gram K k (without i xs) a b = gram K k xs (skip i a) (skip i b).
Proof.
  intro Hi. unfold gram, x_. rewrite !nth_without by exact Hi. f_equal. unfold skip.
  destruct (Nat.eqb_spec a b) as [->|Ne]; [now rewrite Nat.eqb_refl|]. destruct (Nat.ltb_spec a i); destruct (Nat.ltb_spec b i); destruct (Nat.eqb_spec (if true then 0 else 0) 0)%nat; try lia;
  repeat match goal with |- context [(?x =? ?y)%nat] => destruct (Nat.eqb_spec x y); try lia end; reflexivity.
Qed.

Theorem C31_leave_one_out g0 s0 os g (Bs : nat -> nat -> nat -> R) :
  fresh K M g0 s0 -> run K M g0 os = Done g ->
  let s := meaning K M s0 os in
  let xs := s_xs K M s in let ys := s_ys K M s in let k := s_k K M s in
  s_xs K M s <> [] -> s_dk K M s = false -> s_dm K M s = false ->
  (forall i, (i < length xs)%nat -> is_inv (length xs - 1) (gram K k (without i xs)) (Bs i)) ->
  exists g', compute_log_loo_cv K M g =
    Done (g', rsum (oget (s_dout K M s)) (fun o => rsum (length xs) (fun i => left_out k (s_m K M s) xs ys (oget (s_dout K M s)) (Bs i) i o))).
Proof.
  intros F E s xs ys k Hx Hk Hm HBs. pose proof (run_inv K M KO MO os g0 s0 g (fresh_inv _ _ _ _ _ _ F) E) as I. fold s in I.
  destruct (v_nonempty _ _ _ _ _ _ I Hx) as ((d & D1 & _ & D3) & (p & P1 & P2) & _).
  assert (Kk : kok KO d k) by exact (v_kok _ _ _ _ _ _ I d D1).
  assert (Hys : length ys = length xs) by exact (v_len _ _ _ _ _ _ I).
  pose proof (Lof_ok K KO d k xs Kk D3) as HL. set (L := Lof K k xs) in *.
  destruct (loo_value K M KO MO g s L I Hx Hk Hm HL) as (g' & Ev). exists g'. etransitivity; [exact Ev|]. clear Ev. f_equal. f_equal.
  unfold GPFacts.P. apply rsum_ext. intros o Ho. unfold GPFacts.N. change (length (s_xs K M s)) with (length xs). apply rsum_ext. intros i Hi. cbn zeta.
  destruct (inv_of_is_inv _ _ _ HL) as [HI SI]. set (B := inv_of (length xs) L) in *.
  pose proof (gram_pd K KO d k xs Kk D3) as PD. pose proof (gram_symm K KO d k xs Kk D3) as SG.
  assert (Bp : 0 < B i i) by exact (inv_diag_pos (length xs) (gram K k xs) B i PD HI Hi).
  set (r := fun a => Rs K M s a o).
  assert (Eal : bwd (length xs) L (fwd (length xs) L r) i = rsum (length xs) (fun b => B i b * r b)).
  { exact (inv_solves _ _ _ r _ HI (solve_both (length xs) L (gram K k xs) r HL) i Hi). }
  change (fun a : nat => Rs K M s a o) with r. rewrite Eal. set (al := rsum (length xs) (fun b => B i b * r b)) in *.
  destruct (length xs) as [|m] eqn:En; [lia|]. specialize (HBs i Hi). rewrite Nat.sub_succ, Nat.sub_0_r in HBs.
  assert (Him : (i <= m)%nat) by lia. assert (Hd : B i i <> 0) by lra.
  assert (Hix : (i < length xs)%nat) by lia.
  assert (EB : meq m m (Bs i) (fun a b => B (skip i a) (skip i b) - B (skip i a) i * B i (skip i b) / B i i)).
  { apply (inv_unique m (gram K k (without i xs))); [exact HBs|].
    assert (HM : meq m m (gram K k (without i xs)) (fun a b => gram K k xs (skip i a) (skip i b))) by (intros a b _ _; now apply gram_without).
    pose proof (block_inv m i (gram K k xs) B Him HI Hd) as [H1 H2].
    split; intros a b Ha Hb; [rewrite <- (H1 a b Ha Hb)|rewrite <- (H2 a b Ha Hb)]; unfold mmul; apply rsum_ext; intros c Hc; rewrite HM by auto; reflexivity. }
  assert (Lw : length (without i xs) = m) by (rewrite without_length by exact Hix; lia).
  assert (Pos : forall a, length (x_ xs a) = d \/ x_ xs a = []).
  { intro a. unfold x_. destruct (Nat.lt_ge_cases a (length xs)) as [Ha|Ha]; [left; apply (proj1 (List.Forall_forall _ _) D3), nth_In, Ha|right; now apply nth_overflow]. }
  assert (Ci : forall a, (a < m)%nat -> cov K k (without i xs) (x_ xs i) a = gram K k xs i (skip i a)).
  { intros a Ha. unfold cov, gram. unfold x_ at 1. rewrite nth_without by exact Hix. fold (x_ xs (skip i a)).
    pose proof (skip_ne i a) as Hne. destruct (Nat.eqb_spec i (skip i a)) as [Hc|_]; [exfalso; apply Hne; now symmetry|]. rewrite Rplus_0_r.
    apply (kok_sym KO d); auto; apply (proj1 (List.Forall_forall _ _) D3), nth_In; fold xs; rewrite En; [now apply skip_lt|exact Hi]. }
  assert (Ri : forall b, resid M (s_m K M s) (without i xs) (without i ys) (oget (s_dout K M s)) b o = r (skip i b)).
  { intro b. unfold r, GPFacts.Rs, resid, prior_mean, y_, x_. rewrite !nth_without by (unfold xs, ys in *; lia).
    rewrite (blind (s_m K M s) _ _ (data_mean (s_ys K M s) (oget (s_dout K M s)))). reflexivity. }
  assert (SG' : symm (S m) (gram K k xs)) by (rewrite <- En; exact SG).
  unfold left_out, log_normal.
  assert (Em : post_mean K M k (s_m K M s) (without i xs) (without i ys) (oget (s_dout K M s)) (Bs i) (x_ xs i) o = y_ ys i o - al / B i i).
  { unfold post_mean. cbn zeta. rewrite Lw.
    rewrite (rsum_ext m _ (fun a => rsum m (fun b => gram K k xs i (skip i a) * (B (skip i a) (skip i b) - B (skip i a) i * B i (skip i b) / B i i) * r (skip i b)))).
    2:{ intros a Ha. apply rsum_ext. intros b Hb. rewrite Ci, Ri, EB by auto. reflexivity. }
    rewrite (block_mean m i (gram K k xs) B Him HI Hd r al eq_refl).
    unfold r, GPFacts.Rs, resid, prior_mean. fold xs ys.
    rewrite (blind (s_m K M s) (x_ xs i) (data_mean (without i ys) (oget (s_dout K M s))) (data_mean ys (oget (s_dout K M s)))). ring. }
  assert (Evr : post_var K k (without i xs) (Bs i) (x_ xs i) + (k_noise K k + / 100000000) = / B i i).
  { unfold post_var. cbn zeta. rewrite Lw.
    rewrite (rsum_ext m _ (fun a => rsum m (fun b => gram K k xs i (skip i a) * (B (skip i a) (skip i b) - B (skip i a) i * B i (skip i b) / B i i) * gram K k xs (skip i b) i))).
    2:{ intros a Ha. apply rsum_ext. intros b Hb. rewrite !Ci, EB by auto. rewrite (SG' i (skip i b) Hi (skip_lt m i b Hb)). reflexivity. }
    rewrite (block_var m i (gram K k xs) B Him HI Hd). unfold gram at 1. rewrite Nat.eqb_refl. ring. }
  rewrite Em, Evr. replace (y_ ys i o - (y_ ys i o - al / B i i)) with (al / B i i) by ring. field. exact Hd.
Qed.
(** the reduced kernel matrices are invertible *)
Lemma reduced_inverses d k (xs : list vec) : kok KO d k -> List.Forall (fun x => length x = d) xs ->
  exists Bs : nat -> nat -> nat -> R, forall i, (i < length xs)%nat -> is_inv (length xs - 1) (gram K k (without i xs)) (Bs i).
Proof.
  intros Hk Hx. exists (fun i => inv_of (length xs - 1) (Lof K k (without i xs))). intros i Hi.
  rewrite <- (without_length i xs Hi).
  apply (fun H => proj1 (inv_of_is_inv _ _ _ H)). apply (Lof_ok K KO d k); [exact Hk|].
  unfold without. rewrite List.Forall_app. rewrite <- (firstn_skipn i xs) in Hx at 1. pose proof Hx as Hx2. rewrite List.Forall_app in Hx. split; [apply Hx|].
  clear - Hx2. rewrite firstn_skipn in Hx2. rewrite <- (firstn_skipn (S i) xs), List.Forall_app in Hx2. apply Hx2.
Qed.
End Loo.
