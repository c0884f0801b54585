(** The factor, the mean and the variance of FpModel.v against exact linear algebra. *)
From Coq Require Import ZArith List Bool Lia Permutation Reals Lra.
From Coq Require Import Floats.SpecFloat.
From Flocq Require Import Core.
From Verif Require Import F64 F64R AdamFloat OptFloat FpModel FpErr LinAlgModel LinAlg FpAlg FpChol FpSolve.
Import ListNotations.
Open Scope R_scope.

(** ** every way of building the factor computes the same columns *)
Lemma prods_ext from len f f' g g' : (forall k, (from <= k < from + len)%nat -> f k = f' k /\ g k = g' k) ->
  prods from len f g = prods from len f' g'.
Proof.
  intros H. apply map_ext_in. intros k Hk. apply in_seq in Hk. destruct (H k Hk) as [-> ->]. reflexivity.
Qed.
Lemma below_ext m A A' L L' i j : (j < i)%nat -> A i j = A' i j -> (forall c, (c <= j)%nat -> L i c = L' i c /\ L j c = L' j c) ->
  below m A L i j -> below m A' L' i j.
Proof.
  intros Hj HA H (s & H1 & H2). exists s. rewrite (prods_ext 0 j (L j) (L' j) (L i) (L' i)) in H1.
  - rewrite HA in H1. split; auto. destruct (H j (le_n _)) as [E1 E2]. now rewrite <- E1, <- E2.
  - intros k Hk. destruct (H k) as [E1 E2]; [lia|]. auto.
Qed.
Lemma pivot_ext m A A' L L' j s : A j j = A' j j -> (forall c, (c < j)%nat -> L j c = L' j c) ->
  pivot m A L j s -> pivot m A' L' j s.
Proof.
  intros HA H H1. unfold pivot in *. rewrite (prods_ext 0 j (L j) (L' j) (L j) (L' j)) in H1.
  - now rewrite HA in H1.
  - intros k Hk. rewrite H by lia. auto.
Qed.

Lemma built_columns m kf n A L : built m kf n A L -> forall j, (j < n)%nat ->
  (exists s, pivot m A L j s /\ L j j = fsqrt s) /\ forall i, (j < i < n)%nat -> below m A L i j.
Proof.
  induction 1 as [n L H|n A L L' H IH (C1 & C2 & s & C3 & C4)]; intros j Hj.
  - destruct (H j Hj) as ((s & H1 & H2 & H3) & H4). split; eauto.
  - assert (AA : forall p q, (p < n)%nat -> (q < n)%nat -> A p q = kernel_add kf n A p q).
    { intros p q Hp Hq. unfold kernel_add. rewrite (proj2 (Nat.eqb_neq q n)) by lia. rewrite (proj2 (Nat.eqb_neq p n)) by lia. reflexivity. }
    split.
    + destruct (Nat.eq_dec j n) as [->|Hn]; [eauto|]. destruct (IH j ltac:(lia)) as ((t & T1 & T2) & _).
      exists t. split; [|rewrite C1 by lia; exact T2].
      eapply pivot_ext; [apply AA; lia| |exact T1]. intros c Hc. symmetry. apply C1; lia.
    + intros i Hi. destruct (Nat.eq_dec i n) as [->|Hn]; [apply C2; lia|]. destruct (IH j ltac:(lia)) as (_ & B).
      eapply below_ext; [lia|apply AA; lia| |apply B; lia]. intros c Hc. split; symmetry; apply C1; lia.
Qed.

Lemma built_symm m kf n A L : built m kf n A L -> forall i j, (i < n)%nat -> (j < n)%nat -> A i j = A j i.
Proof.
  induction 1 as [n L H|n A L L' H IH _]; intros i j Hi Hj.
  - unfold kernel_full. destruct (Nat.leb_spec j i), (Nat.leb_spec i j); auto; try lia. replace j with i by lia. auto.
  - unfold kernel_add. destruct (Nat.eqb_spec i n), (Nat.eqb_spec j n); subst; auto. apply IH; lia.
Qed.

(** ** the smallest eigenvalue and perturbations *)
Lemma quad_sub n A B x : quad n A x - quad n B x = quad n (fun i j => A i j - B i j) x.
Proof.
  unfold quad. rewrite <- rsum_minus. apply rsum_ext. intros i _. rewrite <- rsum_minus. apply rsum_ext. intros; ring.
Qed.
Lemma quad_abs n B x d : (forall i j, (i < n)%nat -> (j < n)%nat -> Rabs (B i j) <= d) -> 0 <= d ->
  Rabs (quad n B x) <= INR n * d * ssq n x.
Proof.
  intros H Hd. unfold quad. apply Rle_trans with (1 := rsum_abs _ _).
  apply Rle_trans with (rsum n (fun i => rsum n (fun j => d * (Rabs (x i) * Rabs (x j))))).
  - apply rsum_le. intros i Hi. apply Rle_trans with (1 := rsum_abs _ _). apply rsum_le. intros j Hj.
    rewrite !Rabs_mult. rewrite (Rmult_comm d). apply Rmult_le_compat_l; auto. apply Rmult_le_pos; apply Rabs_pos.
  - rewrite (rsum_ext n _ (fun i => d * rsum n (fun j => Rabs (x i) * Rabs (x j)))) by (intros; apply rsum_scal_l).
    rewrite rsum_scal_l. replace (INR n * d * ssq n x) with (d * (INR n * ssq n x)) by ring.
    apply Rmult_le_compat_l; auto. apply abs_sum_sq.
Qed.
Lemma eig_pert n A B lam d : eig_min n A lam -> (forall i j, (i < n)%nat -> (j < n)%nat -> Rabs (B i j - A i j) <= d) -> 0 <= d ->
  eig_min n B (lam - INR n * d).
Proof.
  intros H Hb Hd x. specialize (H x). pose proof (quad_abs n (fun i j => B i j - A i j) x d Hb Hd) as Q.
  rewrite <- quad_sub in Q. apply Rabs_le_inv in Q. lra.
Qed.
Lemma eig_diag n A lam i : eig_min n A lam -> (i < n)%nat -> lam <= A i i.
Proof.
  intros H Hi. specialize (H (fun k => if (k =? i)%nat then 1 else 0)).
  assert (E1 : ssq n (fun k => if (k =? i)%nat then 1 else 0) = 1).
  { transitivity (rsum n (fun k => if (k =? i)%nat then 1 else 0)); [|exact (rsum_delta n i (fun _ => 1) Hi)]. apply rsum_ext. intros k _. destruct (k =? i)%nat; ring. }
  assert (E2 : quad n A (fun k => if (k =? i)%nat then 1 else 0) = A i i).
  { unfold quad. cbv beta. rewrite <- (rsum_delta n i (fun k => A k k) Hi). apply rsum_ext. intros p Hp. destruct (Nat.eqb_spec p i) as [->|].
    - rewrite <- (rsum_delta n i (fun k => A i k) Hi). apply rsum_ext. intros q _. destruct (q =? i)%nat; ring.
    - rewrite rsum_0; auto. intros; ring. }
  rewrite E1, E2 in H. lra.
Qed.
Lemma eig_inv n A lam : 0 < lam -> symm n A -> eig_min n A lam -> exists B, is_inv n A B.
Proof.
  intros Hl Hs H. assert (P : pd n A).
  { intros c (i & Hi & Hc). apply Rlt_le_trans with (2 := H c). apply Rmult_lt_0_compat; auto.
    destruct (Rle_lt_or_eq_dec 0 (ssq n c) (ssq_nonneg n c)) as [|E]; auto. exfalso. apply Hc. symmetry in E. now apply (rsum_sq_0 n c E). }
  destruct (chol_succeeds n A Hs P) as (L & E). exists (inv_of n L). apply inv_of_is_inv. now apply chol_is_chol.
Qed.
Lemma inv_mvec n A B y : is_inv n A B -> forall i, (i < n)%nat -> mvec n A (mvec n B y) i = y i.
Proof.
  intros [H _] i Hi. rewrite <- mvec_mmul. unfold mvec. rewrite (rsum_ext n _ (fun k => delta i k * y k)).
  - now apply delta_sum.
  - intros k Hk. now rewrite H.
Qed.

(** ** the factor *)
Definition dbl (D : R) (x : F) : Prop := fvalid x /\ ffin x /\ Rabs (fval x) <= D.

Section Factor.
  Variables (m n : nat) (A L : fmat) (D lam : R).
  Hypothesis Hm : small m.
  Hypothesis HA : forall i j, (i < n)%nat -> (j < n)%nat -> dbl D (A i j).
  Hypothesis Hsym : forall i j, (i < n)%nat -> (j < n)%nat -> A i j = A j i.
  Hypothesis HD : bp (-500) <= D <= bp 500.
  Hypothesis Heig : eig_min n (fun i j => fval (A i j)) lam.
  Hypothesis Hlam : (INR n + 1) * kap m D <= lam.

  Lemma kap_pos : 0 < kap m D.
  Proof. unfold kap. pose proof uu_pos. pose proof (pos_INR m). pose proof (bp_pos (-500)). apply Rmult_lt_0_compat; [|lra]. apply Rmult_lt_0_compat; lra. Qed.
  Lemma kap_small : kap m D <= D / 1000.
  Proof.
    unfold kap. pose proof (small_uu' m Hm). pose proof uu_small. pose proof (bp_pos (-500)). unfold Rdiv. rewrite (Rmult_comm D).
    apply Rmult_le_compat_r; lra.
  Qed.
  Lemma hdiag i : (i < n)%nat -> fval (A i i) - (lam - INR n * kap m D) <= 2 * D.
  Proof.
    intros Hi. destruct (HA i i Hi Hi) as (_ & _ & B). apply Rabs_le_inv in B. pose proof kap_pos. lra.
  Qed.
  Lemma hA : forall i j, (i < n)%nat -> (j < n)%nat -> (j <= i)%nat ->
    fvalid (A i j) /\ ffin (A i j) /\ fval (A i j) = fval (A i j) /\ Rabs (fval (A i j)) <= D.
  Proof. intros i j Hi Hj _. destruct (HA i j Hi Hj) as (V & F & B). auto. Qed.

  Lemma columns_good k : (k <= n)%nat -> (forall j, (j < k)%nat -> (exists s, pivot m A L j s /\ L j j = fsqrt s) /\ forall i, (j < i < n)%nat -> below m A L i j) ->
    good m n L (fun i j => fval (A i j)) D k.
  Proof.
    intros Hk H. apply (good_columns m n n A L (fun i j => fval (A i j)) D lam (le_n _) Hm hA) with (k := k); auto.
    - intros. now rewrite Hsym.
    - apply hdiag.
  Qed.
  Lemma next_pivot k s : (k < n)%nat -> (forall j, (j < k)%nat -> (exists s, pivot m A L j s /\ L j j = fsqrt s) /\ forall i, (j < i < n)%nat -> below m A L i j) ->
    pivot m A L k s -> fvalid s /\ ffin s /\ 0 < fval s.
  Proof.
    intros Hk H Hs. pose proof (columns_good k ltac:(lia) H) as G.
    destruct (pivot_pos m n n A L (fun i j => fval (A i j)) D lam (le_n _) Hm hA) with (k := k) (s := s) as (V & F & B & _); auto.
    - intros. now rewrite Hsym.
    - apply hdiag.
    - split; auto. split; auto. apply Rlt_le_trans with (2 := proj1 B). pose proof uu_pos. pose proof (bp_pos (-500)). apply Rmult_lt_0_compat; lra.
  Qed.

  Lemma full_rows : good m n L (fun i j => fval (A i j)) D n -> forall i, (i < n)%nat -> ssq n (lw L i) <= 101 / 100 * D.
  Proof.
    intros (_ & _ & _ & G4) i Hi. specialize (G4 i i Hi Hi (le_n _)). apply Rabs_le_inv in G4. destruct (HA i i Hi Hi) as (_ & _ & B). apply Rabs_le_inv in B.
    pose proof kap_small. pose proof (bp_pos (-500)). unfold ssq. lra.
  Qed.
  Lemma full_prod : good m n L (fun i j => fval (A i j)) D n -> forall i j, (i < n)%nat -> (j < n)%nat ->
    Rabs (fval (A i j) - rsum n (fun c => lw L i c * lw L j c)) <= kap m D.
  Proof.
    intros (_ & _ & _ & G4) i j Hi Hj. destruct (Nat.le_gt_cases j i) as [E|E]; [apply G4; auto|].
    rewrite Hsym by auto. rewrite (rsum_ext n _ (fun c => lw L j c * lw L i c)) by (intros; ring). apply G4; auto; lia.
  Qed.
End Factor.

(** ** the mean *)
Definition und (n : nat) (D : R) : R := 2 * tau D * (INR n + 1 + 2 * D).
Lemma und_nonneg n D : 0 <= D -> 0 <= und n D.
Proof.
  intros H. unfold und, tau. pose proof (bp_pos 50). pose proof e0_pos. pose proof (pos_INR n).
  apply Rmult_le_pos; [|lra]. apply Rmult_le_pos; [lra|]. apply Rmult_le_pos; lra.
Qed.

Section Mean.
  Variables (m n : nat) (A L : fmat) (D lam : R).
  Hypothesis Hm : small m.
  Hypothesis HA : forall i j, (i < n)%nat -> (j < n)%nat -> dbl D (A i j).
  Hypothesis Hsym : forall i j, (i < n)%nat -> (j < n)%nat -> A i j = A j i.
  Hypothesis HD : bp (-500) <= D <= bp 500.
  Hypothesis G : good m n L (fun i j => fval (A i j)) D n.
  (** an exact matrix close to the one in memory *)
  Variables (a : nat -> nat -> R) (eps : R).
  Hypothesis Ha : forall i j, (i < n)%nat -> (j < n)%nat -> Rabs (fval (A i j) - a i j) <= eps.
  Hypothesis Heps : 0 <= eps.
  Hypothesis Hl : 0 < lam.
  Hypothesis Heig : eig_min n a lam.

  Lemma alpha_residual y x : (forall i, (i < n)%nat -> fvalid (y i)) -> (forall i, (i < n)%nat -> ffin (x i)) -> alpha_of m n L y x ->
    forall i, (i < n)%nat -> fvalid (x i) /\
    Rabs (fval (y i) - mvec n a (fun k => fval (x k)) i) <= (3 * kap m D + eps) * rsum n (fun k => Rabs (fval (x k))) + und n D.
  Proof.
    intros Vy Fx H i Hi. pose proof (bp_pos (-500)) as DP. pose proof G as (G1 & G2 & _).
    destruct (alpha_res m n L D Hm ltac:(lra) (fun j Hj => G1 j Hj Hj) (fun i j Hi Hj => proj1 (G2 i j Hi ltac:(lia) Hj)) (full_rows m n A L D Hm HA HD G) y x Vy Fx H i Hi) as (V & _ & E).
    split; auto. set (X := rsum n (fun k => Rabs (fval (x k)))) in *. unfold und.
    set (P := rsum n (fun k => rsum n (fun j => lw L i j * lw L k j) * fval (x k))) in *.
    replace (fval (y i) - mvec n a (fun k => fval (x k)) i) with ((fval (y i) - P) + (P - mvec n a (fun k => fval (x k)) i)) by ring.
    apply Rle_trans with (1 := Rabs_triang _ _).
    assert (B : Rabs (P - mvec n a (fun k => fval (x k)) i) <= (kap m D + eps) * X).
    { unfold P, mvec. rewrite <- rsum_minus. apply Rle_trans with (1 := rsum_abs _ _). unfold X. rewrite <- rsum_scal_l. apply rsum_le. intros k Hk.
      rewrite <- Rmult_minus_distr_r, Rabs_mult. apply Rmult_le_compat_r; [apply Rabs_pos|].
      replace (rsum n (fun j => lw L i j * lw L k j) - a i k) with (- (fval (A i k) - rsum n (fun j => lw L i j * lw L k j)) + (fval (A i k) - a i k)) by ring.
      apply Rle_trans with (1 := Rabs_triang _ _). rewrite Rabs_Ropp. apply Rplus_le_compat; auto. now apply (full_prod m n A L D Hsym G). }
    lra.
  Qed.

  Lemma mean_err y x k mv r B (kr : nat -> R) : (forall i, (i < n)%nat -> fvalid (y i)) -> (forall i, (i < n)%nat -> ffin (x i)) -> alpha_of m n L y x ->
    (forall i, (i < n)%nat -> fvalid (k i)) -> fvalid mv -> mu_of m n k x mv r -> ffin r ->
    (forall i, (i < n)%nat -> Rabs (fval (k i) - kr i) <= eps) -> (forall i, (i < n)%nat -> Rabs (kr i) <= D) ->
    is_inv n a B ->
    Rabs (fval r - (fval mv + rsum n (fun i => kr i * mvec n B (fun j => fval (y j)) i)))
    <= D * (INR n * ((3 * kap m D + eps) * rsum n (fun i => Rabs (fval (x i))) + und n D) / lam)
       + eps * rsum n (fun i => Rabs (fval (x i)))
       + (2 * INR m * uu * (Rabs (fval mv) + rsum n (fun i => Rabs (fval (k i) * fval (x i)))) + 2 * INR m * e0).
  Proof.
    intros Vy Fx Hx Vk Vm Hr Fr Hk Bk HB. pose proof (bp_pos (-500)) as DP.
    pose proof (alpha_residual y x Vy Fx Hx) as Res.
    set (X := rsum n (fun i => Rabs (fval (x i)))) in *. assert (X0 : 0 <= X) by (apply rsum_nonneg; intros; apply Rabs_pos).
    set (xs := mvec n B (fun j => fval (y j))) in *.
    pose proof (kap_pos m D HD) as KP.
    assert (F := forward n a lam (fun i => fval (x i)) xs ((3 * kap m D + eps) * X + und n D) Hl Heig).
    assert (R0 : 0 <= (3 * kap m D + eps) * X + und n D).
    { pose proof (und_nonneg n D ltac:(lra)). assert (0 <= (3 * kap m D + eps) * X) by (apply Rmult_le_pos; lra). lra. }
    specialize (F R0). cbv beta in F.
    assert (F' : rsum n (fun i => Rabs (fval (x i) - xs i)) <= INR n * ((3 * kap m D + eps) * X + und n D) / lam).
    { apply F. intros i Hi. unfold xs. rewrite (inv_mvec n a B _ HB i Hi). apply Res. exact Hi. }
    assert (V : forall i, (0 <= i < 0 + n)%nat -> fvalid (k i) /\ fvalid (x i)).
    { intros i Hi. split; [apply Vk; lia|]. apply Res. lia. }
    pose proof (dot_error m false mv 0 n k x r Hm Vm V Hr Fr) as E. cbv iota in E. unfold adot, rdot in E. cbn [Nat.add] in E.
    set (q := rsum n (fun i => fval (k i) * fval (x i))) in *.
    replace (fval r - (fval mv + rsum n (fun i => kr i * xs i)))
      with (rsum n (fun i => kr i * (fval (x i) - xs i)) + rsum n (fun i => (fval (k i) - kr i) * fval (x i)) + (fval r - (fval mv + 1 * q))).
    2:{ unfold q. rewrite <- rsum_plus. replace (rsum n (fun i => kr i * (fval (x i) - xs i) + (fval (k i) - kr i) * fval (x i))) with (rsum n (fun i => fval (k i) * fval (x i)) - rsum n (fun i => kr i * xs i)); [ring|].
        rewrite <- rsum_minus. apply rsum_ext. intros; ring. }
    apply Rle_trans with (1 := Rabs_triang _ _). apply Rplus_le_compat; [|exact E].
    apply Rle_trans with (1 := Rabs_triang _ _). apply Rplus_le_compat.
    - apply Rle_trans with (D * rsum n (fun i => Rabs (fval (x i) - xs i))).
      + apply Rle_trans with (1 := rsum_abs _ _). rewrite <- rsum_scal_l. apply rsum_le. intros i Hi. rewrite Rabs_mult. apply Rmult_le_compat_r; [apply Rabs_pos|auto].
      + apply Rmult_le_compat_l; [lra|exact F'].
    - apply Rle_trans with (1 := rsum_abs _ _). unfold X. rewrite <- rsum_scal_l. apply rsum_le. intros i Hi. rewrite Rabs_mult. apply Rmult_le_compat_r; [apply Rabs_pos|auto].
  Qed.
End Mean.

(** ** the variance *)
(** the samples and one more point *)
Definition ext (n : nat) (a : nat -> nat -> R) (k : nat -> R) (c : R) : nat -> nat -> R := fun i j =>
  if (i <? n)%nat then (if (j <? n)%nat then a i j else k i) else if (j <? n)%nat then k j else c.

Lemma ext_lt n a k c i j : (i < n)%nat -> (j < n)%nat -> ext n a k c i j = a i j.
Proof. intros Hi Hj. unfold ext. now rewrite (proj2 (Nat.ltb_lt _ _) Hi), (proj2 (Nat.ltb_lt _ _) Hj). Qed.
Lemma ext_r n a k c i : (i < n)%nat -> ext n a k c i n = k i.
Proof. intros Hi. unfold ext. now rewrite (proj2 (Nat.ltb_lt _ _) Hi), Nat.ltb_irrefl. Qed.
Lemma ext_b n a k c j : (j < n)%nat -> ext n a k c n j = k j.
Proof. intros Hi. unfold ext. now rewrite (proj2 (Nat.ltb_lt _ _) Hi), Nat.ltb_irrefl. Qed.
Lemma ext_c n a k c : ext n a k c n n = c.
Proof. unfold ext. now rewrite Nat.ltb_irrefl. Qed.

Lemma quad_ext_form n a k c x : quad (S n) (ext n a k c) x = quad n a x + 2 * (x n * rsum n (fun i => k i * x i)) + c * (x n * x n).
Proof.
  unfold quad. cbn [rsum].
  rewrite (rsum_ext n _ (fun i => rsum n (fun j => x i * x j * a i j) + x n * (k i * x i))).
  2:{ intros i Hi. f_equal; [|rewrite ext_r by auto; ring]. apply rsum_ext. intros j Hj. now rewrite ext_lt. }
  rewrite rsum_plus, rsum_scal_l. rewrite (rsum_ext n (fun j => x n * x j * ext n a k c n j) (fun i => x n * (k i * x i))).
  2:{ intros j Hj. rewrite ext_b by auto. ring. }
  rewrite rsum_scal_l, ext_c. ring.
Qed.

(** the minimum of a quadratic form *)
Lemma quad_shift n a k xs x t : symm n a -> (forall i, (i < n)%nat -> mvec n a xs i = k i) ->
  quad n a (fun i => x i + t * xs i) = quad n a x + 2 * (t * rsum n (fun i => k i * x i)) + t * t * rsum n (fun i => k i * xs i).
Proof.
  intros Hs H. rewrite !quad_mvec.
  assert (E : forall i, mvec n a (fun i => x i + t * xs i) i = mvec n a x i + t * mvec n a xs i).
  { intros i. unfold mvec. rewrite <- rsum_scal_l, <- rsum_plus. apply rsum_ext. intros; ring. }
  rewrite (rsum_ext n _ (fun i => x i * mvec n a x i + (t * (k i * x i) + (t * (xs i * mvec n a x i) + t * t * (k i * xs i))))).
  2:{ intros i Hi. rewrite E, H by auto. ring. }
  rewrite !rsum_plus, !rsum_scal_l.
  assert (C : rsum n (fun i => xs i * mvec n a x i) = rsum n (fun i => k i * x i)).
  { unfold mvec. rewrite (rsum_ext n _ (fun i => rsum n (fun j => x j * (a j i * xs i)))).
    2:{ intros i Hi. rewrite <- rsum_scal_l. apply rsum_ext. intros j Hj. rewrite (Hs i j) by auto. ring. }
    rewrite rsum_swap. apply rsum_ext. intros j Hj. rewrite <- H by auto. unfold mvec. rewrite rsum_scal_l. ring. }
  rewrite C. ring.
Qed.

Lemma ssq_split n x xs t : ssq n x <= 2 * ssq n (fun i => x i + t * xs i) + 2 * (t * t) * ssq n xs.
Proof.
  unfold ssq. rewrite <- !rsum_scal_l, <- rsum_plus. apply rsum_le. intros i _.
  pose proof (Rle_0_sqr (x i + 2 * (t * xs i))) as H. unfold Rsqr in H. lra.
Qed.

(** the Schur complement computed from approximate factors *)
Lemma variance_close n a kr lam cr (l : nat -> nat -> R) del xs : symm n a -> 0 <= del -> 0 < lam ->
  2 * ((INR n + 1) * del) <= lam ->
  (forall x, lam * ssq n x <= quad (S n) (ext n a kr cr) x) ->
  (forall i, (i < n)%nat -> mvec n a xs i = kr i) -> lower n l ->
  (forall p q, (p < n)%nat -> (q < n)%nat -> Rabs (a p q - rsum n (fun c => l p c * l q c)) <= del) ->
  (forall p, (p < n)%nat -> Rabs (kr p - rsum n (fun c => l n c * l p c)) <= del) ->
  let q := rsum n (fun i => kr i * xs i) in
  Rabs (ssq n (l n) - q) <= (INR n + 1) * del * (1 + cr / lam) /\ 0 <= q <= cr.
Proof.
  intros Hs Hdel Hl Hld Hj Hx Hlow Ha Hk q.
  assert (Qxs : quad n a xs = q). { rewrite quad_mvec. apply rsum_ext. intros i Hi. rewrite Hx by auto. ring. }
  assert (Heig : eig_min n a lam).
  { intros x. specialize (Hj (fun i => if (i <? n)%nat then x i else 0)). rewrite quad_ext_form, Nat.ltb_irrefl in Hj.
    assert (E1 : ssq n (fun i => if (i <? n)%nat then x i else 0) = ssq n x) by (apply rsum_ext; intros i Hi; now rewrite (proj2 (Nat.ltb_lt _ _) Hi)).
    assert (E2 : quad n a (fun i => if (i <? n)%nat then x i else 0) = quad n a x).
    { apply quad_ext; [intros i j _ _; reflexivity|]. intros i Hi. now rewrite (proj2 (Nat.ltb_lt _ _) Hi). }
    rewrite E1, E2 in Hj. lra. }
  set (s := ssq n xs) in *. assert (S0 : 0 <= s) by apply ssq_nonneg.
  assert (Q1 : lam * s <= q) by (rewrite <- Qxs; apply Heig).
  set (w := fun i => if (i <? n)%nat then - xs i else 1).
  assert (Wn : w n = 1) by (unfold w; now rewrite Nat.ltb_irrefl).
  assert (Ws : ssq n w = s). { apply rsum_ext. intros i Hi. unfold w. rewrite (proj2 (Nat.ltb_lt _ _) Hi). ring. }
  assert (Wk : rsum n (fun i => kr i * w i) = - q). { unfold q. rewrite <- rsum_opp. apply rsum_ext. intros i Hi. unfold w. rewrite (proj2 (Nat.ltb_lt _ _) Hi). ring. }
  assert (Wq : quad n a w = q). { rewrite <- Qxs. unfold quad. apply rsum_ext. intros i Hi. apply rsum_ext. intros j Hj'. unfold w. rewrite (proj2 (Nat.ltb_lt _ _) Hi), (proj2 (Nat.ltb_lt _ _) Hj'). ring. }
  assert (Q2 : lam * s <= cr - q). { pose proof (Hj w) as J. rewrite quad_ext_form, Wn, Ws, Wk, Wq in J. lra. }
  assert (N0 : 0 <= INR n) by apply pos_INR.
  assert (N1 : 0 <= (INR n + 1) * del) by (apply Rmult_le_pos; lra).
  assert (Sq : 2 * s <= cr / lam). { apply Rmult_le_reg_r with lam; auto. replace (cr / lam * lam) with cr by (field; lra). lra. }
  assert (LS : 0 <= lam * s) by (apply Rmult_le_pos; lra).
  split; [|lra].
  apply Rle_trans with ((INR n + 1) * del * (1 + 2 * s)); [|apply Rmult_le_compat_l; lra].
  set (qh := ssq n (l n)).
  assert (Up : qh <= q + (INR n + 1) * del * (1 + 2 * s)).
  { set (th := (INR n + 1) * del * (1 + 2 * s)).
    assert (E : eig_min (S n) (ext n a kr (q + th)) ((INR n + 1) * del)).
    { intros x. rewrite quad_ext_form. set (t := x n).
      replace (quad n a x + 2 * (t * rsum n (fun i => kr i * x i)) + (q + th) * (t * t)) with (quad n a (fun i => x i + t * xs i) + th * (t * t)).
      2:{ rewrite (quad_shift n a kr xs x t Hs Hx). fold q. ring. }
      change (ssq (S n) x) with (ssq n x + t * t).
      pose proof (Heig (fun i => x i + t * xs i)) as E1. pose proof (ssq_split n x xs t) as E2. fold s in E2.
      set (y := ssq n (fun i => x i + t * xs i)) in *. assert (Y0 : 0 <= y) by apply ssq_nonneg.
      assert (E3 : (INR n + 1) * del * (ssq n x) <= (INR n + 1) * del * (2 * y + 2 * (t * t) * s)) by (apply Rmult_le_compat_l; lra).
      assert (E4 : 2 * ((INR n + 1) * del) * y <= lam * y) by (apply Rmult_le_compat_r; lra).
      unfold th. lra. }
    pose proof (schur (S n) n n (ext n a kr (q + th)) l ((INR n + 1) * del) del ltac:(lia) Hdel E Hlow) as Sc.
    rewrite ext_c, S_INR in Sc.
    assert (F : (INR n + 1) * del - (INR n + 1) * del <= q + th - ssq n (l n)).
    { apply Sc; try lra.
      - intros p r Hp Hr. rewrite ext_lt by auto. now apply Ha.
      - intros p Hp. rewrite ext_r by auto. rewrite (rsum_ext n _ (fun c => l n c * l p c)) by (intros; ring). now apply Hk.
      - intros p Hp. rewrite ext_b by auto. now apply Hk. }
    unfold qh. lra. }
  assert (Lo : q <= qh + (INR n + 1) * del * (1 + s)).
  { set (gr := fun p r => rsum n (fun c => l p c * l r c)).
    assert (P : 0 <= quad (S n) gr w). { unfold gr. rewrite quad_gram. apply rsum_nonneg. intros. apply Rle_0_sqr. }
    pose proof (quad_sub (S n) gr (ext n a kr cr) w) as Sb.
    pose proof (quad_pert (S n) (fun i j => gr i j - ext n a kr cr i j) w n del ltac:(lia) Wn Hdel) as Pt.
    rewrite <- Sb in Pt. cbv beta in Pt. rewrite ext_c, quad_ext_form, Wn, Wk, Wq, S_INR in Pt.
    change (ssq (S n) w) with (ssq n w + w n * w n) in Pt. rewrite Ws, Wn in Pt. change (gr n n) with qh in Pt.
    assert (quad (S n) gr w - (q + 2 * (1 * - q) + cr * (1 * 1)) <= qh - cr + del * ((INR n + 1) * (s + 1 * 1))); [|lra].
    apply Pt. intros p r Hp Hr _ _ Hpr. rewrite Rabs_minus_sym. unfold gr.
    destruct (Nat.eq_dec p n) as [->|Np].
    - assert (r < n)%nat by (assert (r <> n) by (intro; subst; now apply Hpr); lia). rewrite ext_b by auto. now apply Hk.
    - destruct (Nat.eq_dec r n) as [->|Nr].
      + rewrite ext_r by lia. rewrite (rsum_ext n _ (fun c => l n c * l p c)) by (intros; ring). apply Hk. lia.
      + rewrite ext_lt by lia. apply Ha; lia. }
  assert (0 <= (INR n + 1) * del * s) by (apply Rmult_le_pos; lra).
  apply Rabs_le. lra.
Qed.

Section Variance.
  Variables (m n : nat) (A L : fmat) (k : fvec) (kvv : F) (D lam eps : R) (a : nat -> nat -> R) (kr : nat -> R) (cr : R).
  Hypothesis Hn : (0 < n)%nat.
  Hypothesis Hm : small m.
  Hypothesis HA : forall i j, (i < n)%nat -> (j < n)%nat -> dbl D (A i j).
  Hypothesis Hk : forall i, (i < n)%nat -> dbl D (k i).
  Hypothesis Hc : dbl D kvv.
  Hypothesis Hsym : forall i j, (i < n)%nat -> (j < n)%nat -> A i j = A j i.
  Hypothesis HD : bp (-500) <= D <= bp 500.
  Hypothesis Hcols : forall j, (j < n)%nat -> (exists s, pivot m A L j s /\ L j j = fsqrt s) /\ forall i, (j < i < n)%nat -> below m A L i j.
  Hypothesis Sa : symm n a.
  Hypothesis Ha : forall i j, (i < n)%nat -> (j < n)%nat -> Rabs (fval (A i j) - a i j) <= eps.
  Hypothesis Hkr : forall i, (i < n)%nat -> Rabs (fval (k i) - kr i) <= eps.
  Hypothesis Hcr : Rabs (fval kvv - cr) <= eps.
  Hypothesis Heps : 0 <= eps.
  Hypothesis Hj : forall x, lam * ssq n x <= quad (S n) (ext n a kr cr) x.
  Hypothesis Hlam : 2 * ((INR n + 2) * (kap m D + eps)) <= lam.

  Lemma n_ge_1 : 1 <= INR n. Proof. change 1 with (INR 1). apply le_INR. lia. Qed.
  Lemma kp : 0 < kap m D. Proof. now apply kap_pos. Qed.
  Lemma products : 0 <= INR n * kap m D /\ 0 <= INR n * eps.
  Proof. pose proof n_ge_1. pose proof kp. split; apply Rmult_le_pos; lra. Qed.

  Lemma eig_a : eig_min n a lam.
  Proof.
    intros x. specialize (Hj (fun i => if (i <? n)%nat then x i else 0)). rewrite quad_ext_form, Nat.ltb_irrefl in Hj.
    assert (E1 : ssq n (fun i => if (i <? n)%nat then x i else 0) = ssq n x) by (apply rsum_ext; intros i Hi; now rewrite (proj2 (Nat.ltb_lt _ _) Hi)).
    assert (E2 : quad n a (fun i => if (i <? n)%nat then x i else 0) = quad n a x).
    { apply quad_ext; [intros i j _ _; reflexivity|]. intros i Hi. now rewrite (proj2 (Nat.ltb_lt _ _) Hi). }
    rewrite E1, E2 in Hj. lra.
  Qed.
  Lemma lam_D : lam <= D + eps /\ 5 * eps <= D.
  Proof.
    assert (lam <= D + eps).
    { apply Rle_trans with (1 := eig_diag n a lam 0%nat eig_a Hn). destruct (HA 0%nat 0%nat Hn Hn) as (_ & _ & B). specialize (Ha 0%nat 0%nat Hn Hn).
      apply Rabs_le_inv in B. apply Rabs_le_inv in Ha. lra. }
    split; auto. pose proof kp. pose proof n_ge_1. assert (1 * eps <= INR n * eps) by (apply Rmult_le_compat_r; lra). pose proof products. lra.
  Qed.

  Let Ap : fmat := fun i j => if (i <? n)%nat then A i j else k j.
  Let cp : R := fval kvv + (INR n + 1) * eps + (INR n + 2) * kap m D.
  Let ap := ext n (fun i j => fval (A i j)) (fun i => fval (k i)) cp.

  Lemma eig_ap : eig_min (S n) ap ((INR n + 2) * kap m D).
  Proof.
    intros x. unfold ap. rewrite quad_ext_form.
    pose proof (quad_abs (S n) (fun i j => ext n (fun i j => fval (A i j)) (fun i => fval (k i)) (fval kvv) i j - ext n a kr cr i j) x eps) as Q.
    assert (Q' : Rabs (quad (S n) (fun i j => ext n (fun i j => fval (A i j)) (fun i => fval (k i)) (fval kvv) i j - ext n a kr cr i j) x) <= INR (S n) * eps * ssq (S n) x).
    { apply Q; auto. intros i j Hi Hj'. destruct (Nat.eq_dec i n) as [->|Ni], (Nat.eq_dec j n) as [->|Nj].
      - rewrite !ext_c. exact Hcr.
      - rewrite !ext_b by lia. apply Hkr. lia.
      - rewrite !ext_r by lia. apply Hkr. lia.
      - rewrite !ext_lt by lia. apply Ha; lia. }
    rewrite <- quad_sub, quad_ext_form, S_INR in Q'. apply Rabs_le_inv in Q'. specialize (Hj x).
    change (ssq (S n) x) with (ssq n x + x n * x n) in *. set (t := x n * x n) in *. set (y := ssq n x) in *.
    assert (0 <= t) by apply Rle_0_sqr. assert (0 <= y) by apply ssq_nonneg.
    assert (((INR n + 2) * (kap m D + eps)) * y <= lam * y).
    { apply Rmult_le_compat_r; auto. pose proof products. pose proof kp. lra. }
    assert (0 <= eps * y) by (apply Rmult_le_pos; lra).
    unfold cp. lra.
  Qed.

  (** the forward solve for the query point is one more row of the factor *)
  Lemma row_good z : fsolve m n L k z ->
    let Lp := fun i j => if (i <? n)%nat then L i j else z j in good m (S n) Lp ap D n.
  Proof.
    intros Hz Lp. pose proof products as Pr. pose proof kp as KP. pose proof lam_D as LD.
    assert (HApl : forall i j, (i < S n)%nat -> (j < n)%nat -> (j <= i)%nat -> fvalid (Ap i j) /\ ffin (Ap i j) /\ fval (Ap i j) = ap i j /\ Rabs (ap i j) <= D).
    { intros i j Hi Hj' _. unfold Ap, ap. destruct (Nat.ltb_spec i n) as [Li|Li].
      - rewrite ext_lt by auto. destruct (HA i j Li Hj') as (V & F & B). auto.
      - replace i with n by lia. rewrite ext_b by auto. destruct (Hk j Hj') as (V & F & B). auto. }
    apply (good_columns m (S n) n Ap Lp ap D ((INR n + 2) * kap m D)) with (k := n); auto.
    - intros i j Hi Hj'. unfold ap. destruct (Nat.eq_dec i n) as [->|Ni], (Nat.eq_dec j n) as [->|Nj]; auto.
      + rewrite ext_b, ext_r by lia; auto.
      + rewrite ext_b, ext_r by lia; auto.
      + rewrite !ext_lt by lia. now rewrite Hsym by lia.
    - exact eig_ap.
    - rewrite S_INR. lra.
    - intros i Hi. rewrite S_INR. replace ((INR n + 2) * kap m D - (INR n + 1) * kap m D) with (kap m D) by ring. unfold ap. destruct (Nat.eq_dec i n) as [->|Ni].
      + rewrite ext_c. unfold cp. destruct Hc as (_ & _ & B). apply Rabs_le_inv in B. lra.
      + rewrite ext_lt by lia. destruct (HA i i ltac:(lia) ltac:(lia)) as (_ & _ & B). apply Rabs_le_inv in B. pose proof (bp_pos (-500)). lra.
    - intros j Hj'. destruct (Hcols j Hj') as ((s & P1 & P2) & Hb). split.
      + exists s. split; [|unfold Lp; now rewrite (proj2 (Nat.ltb_lt _ _) Hj')].
        eapply pivot_ext; [| |exact P1]; [unfold Ap|intros c Hc'; unfold Lp]; now rewrite (proj2 (Nat.ltb_lt _ _) Hj').
      + intros i Hi. destruct (Nat.eq_dec i n) as [->|Ni].
        * destruct (Hz j Hj') as (t & T1 & T2). exists t. split.
          -- unfold Ap. rewrite Nat.ltb_irrefl. rewrite (prods_ext 0 j (Lp j) (L j) (Lp n) z); auto.
             intros c Hc'. unfold Lp. now rewrite Nat.ltb_irrefl, (proj2 (Nat.ltb_lt _ _) Hj').
          -- unfold Lp. now rewrite Nat.ltb_irrefl, (proj2 (Nat.ltb_lt _ _) Hj').
        * assert (Li : (i < n)%nat) by lia. eapply below_ext; [lia| | |apply Hb; lia].
          -- unfold Ap. now rewrite (proj2 (Nat.ltb_lt _ _) Li).
          -- intros c Hc'. unfold Lp. now rewrite (proj2 (Nat.ltb_lt _ _) Li), (proj2 (Nat.ltb_lt _ _) Hj').
  Qed.

  Lemma variance_err z res B : fsolve m n L k z -> minus_dot m kvv (prods 0 n z z) res -> is_inv n a B ->
    let V := cr - rsum n (fun i => kr i * mvec n B kr i) in
    fvalid res /\ ffin res /\ 0 <= V /\ Rabs (fval res - V) <= (INR n + 2) * (kap m D + eps) * (1 + cr / lam).
  Proof.
    intros Hz Hr HB V. pose proof (row_good z Hz) as (G1 & G2 & G3 & G4). set (Lp := fun i j => if (i <? n)%nat then L i j else z j) in *.
    pose proof products as Pr. pose proof kp as KP. pose proof (bp_pos (-500)) as DP.
    assert (Vz : forall c, (0 <= c < 0 + n)%nat -> (fvalid (z c) /\ fvalid (z c)) /\ (ffin (z c) /\ ffin (z c))).
    { intros c Hc'. destruct (G2 n c) as (V1 & F1); try lia. unfold Lp in V1, F1. rewrite Nat.ltb_irrefl in V1, F1. auto. }
    assert (Lz : forall c, (c < n)%nat -> lw Lp n c = fval (z c)).
    { intros c Hc'. rewrite lw_low by lia. unfold Lp. now rewrite Nat.ltb_irrefl. }
    assert (Qz : ssq n (lw Lp n) = rsum n (fun c => fval (z c) * fval (z c))) by (apply rsum_ext; intros c Hc'; now rewrite Lz).
    pose proof (G3 n ltac:(lia)) as Bz. rewrite Qz in Bz.
    assert (Az : adot 0 n z z = rsum n (fun c => fval (z c) * fval (z c))).
    { apply rsum_ext. intros c Hc'. simpl. apply Rabs_pos_eq. apply Rle_0_sqr. }
    assert (Z0 : 0 <= rsum n (fun c => fval (z c) * fval (z c))) by (apply rsum_nonneg; intros; apply Rle_0_sqr).
    destruct Hc as (Vc & Fc & Bc).
    assert (Fr : ffin res).
    { apply (dot_fin m true kvv 0 n z z res Hm Vc (fun c Hc' => proj1 (Vz c Hc')) Hr Fc (fun c Hc' => proj2 (Vz c Hc'))).
      rewrite Az. apply Rle_trans with (4 * bp 500); [lra|]. change 4 with (bp 2). rewrite <- bpow_plus. apply bp_le. lia. }
    pose proof (dot_valid m true kvv 0 n z z res Vc (fun c Hc' => proj1 (Vz c Hc')) Hr) as Vr.
    pose proof (dot_error m true kvv 0 n z z res Hm Vc (fun c Hc' => proj1 (Vz c Hc')) Hr Fr) as E. cbv iota in E. rewrite Az in E.
    change (rdot 0 n z z) with (rsum n (fun c => fval (z c) * fval (z c))) in E. rewrite <- Qz in *.
    (* against the exact matrix *)
    assert (Low : lower n (lw Lp)).
    { split; [intros i j _ _ H; now apply lw_up|]. intros i Hi. rewrite lw_low by lia. destruct (mid_e0 (Lp i i)); auto. apply G1; lia. }
    destruct (variance_close n a kr lam cr (lw Lp) (kap m D + eps) (mvec n B kr) Sa ltac:(lra)) as (C1 & C2); auto; try lra.
    - now apply inv_mvec.
    - assert (W : forall p q, (p < n)%nat -> (q < n)%nat -> (q <= p)%nat -> Rabs (a p q - rsum n (fun c => lw Lp p c * lw Lp q c)) <= kap m D + eps).
      { intros p q Hp Hq Hpq. specialize (G4 p q ltac:(lia) Hq Hpq). unfold ap in G4. rewrite ext_lt in G4 by auto. specialize (Ha p q Hp Hq).
        replace (a p q - rsum n (fun c => lw Lp p c * lw Lp q c)) with (- (fval (A p q) - a p q) + (fval (A p q) - rsum n (fun c => lw Lp p c * lw Lp q c))) by ring.
        apply Rle_trans with (1 := Rabs_triang _ _). rewrite Rabs_Ropp. lra. }
      intros p q Hp Hq. destruct (Nat.le_gt_cases q p) as [Hle|Hle]; [now apply W|].
      rewrite (Sa p q) by auto. rewrite (rsum_ext n _ (fun c => lw Lp q c * lw Lp p c)) by (intros; ring). apply W; auto; lia.
    - intros p Hp. specialize (G4 n p ltac:(lia) Hp ltac:(lia)). unfold ap in G4. rewrite ext_b in G4 by auto. specialize (Hkr p Hp).
      replace (kr p - rsum n (fun c => lw Lp n c * lw Lp p c)) with (- (fval (k p) - kr p) + (fval (k p) - rsum n (fun c => lw Lp n c * lw Lp p c))) by ring.
      apply Rle_trans with (1 := Rabs_triang _ _). rewrite Rabs_Ropp. lra.
    - cbv zeta in C1, C2. set (q := rsum n (fun i => kr i * mvec n B kr i)) in *. fold V.
      split; auto. split; auto. split; [unfold V; lra|].
      replace (fval res - V) with ((fval res - (fval kvv + -1 * ssq n (lw Lp n))) + (fval kvv - cr) + (- (ssq n (lw Lp n) - q))) by (unfold V; ring).
      apply Rle_trans with (1 := Rabs_triang _ _). rewrite Rabs_Ropp.
      assert (T1 : 2 * INR m * uu * (Rabs (fval kvv) + ssq n (lw Lp n)) + 2 * INR m * e0 <= kap m D).
      { pose proof (small_uu' m Hm) as Mu. pose proof uu_pos as U.
        assert (0 <= INR m * uu * D) by (apply Rmult_le_pos; lra). assert (0 < uu * D) by (apply Rmult_lt_0_compat; lra).
        assert (INR m * uu * (Rabs (fval kvv) + ssq n (lw Lp n)) <= INR m * uu * (301 / 100 * D)) by (apply Rmult_le_compat_l; lra).
        assert (2 * INR m * e0 <= uu * D / 16) by (apply (me0 m 0 0 D (le_n _)); auto). unfold kap. lra. }
      pose proof (Rabs_triang (fval res - (fval kvv + -1 * ssq n (lw Lp n))) (fval kvv - cr)) as T2.
      assert (P1 : 0 <= cr / lam). { unfold Rdiv. apply Rmult_le_pos; [lra|]. left. apply Rinv_0_lt_compat. lra. }
      assert (P2 : 0 <= (kap m D + eps) * (cr / lam)) by (apply Rmult_le_pos; lra). lra.
  Qed.

  Lemma sigma_err r B : sigma_of m n L k kvv r -> is_inv n a B ->
    let V := cr - rsum n (fun i => kr i * mvec n B kr i) in
    ffin r /\ 0 <= fval r /\ 0 <= V /\ Rabs (fval r - V) <= (INR n + 2) * (kap m D + eps) * (1 + cr / lam) + bp (-52).
  Proof.
    intros (z & res & Hz & Hr & E) HB V. destruct (variance_err z res B Hz Hr HB) as (V1 & F1 & P & E1). fold V in P, E1.
    pose proof (bp_pos (-52)) as BP.
    assert (Fe : fvalid feps /\ ffin feps /\ fval feps = bp (-52)).
    { split; [reflexivity|]. split; [reflexivity|]. unfold feps. cbn. unfold F2R. simpl. lra. }
    destruct Fe as (Ve & Fe & Ee).
    destruct (fle res feps) eqn:C.
    - subst r. split; [reflexivity|]. replace (fval f0) with 0 by (symmetry; apply f0_ok). split; [lra|]. split; auto.
      apply fle_R in C; auto. rewrite Ee in C. apply Rabs_le_inv in E1. apply Rabs_le. lra.
    - subst r. split; auto. assert (C' : ~ fval res <= fval feps) by (intro X; apply fle_R in X; auto; congruence). rewrite Ee in C'. split; [lra|]. split; auto. lra.
  Qed.
End Variance.
