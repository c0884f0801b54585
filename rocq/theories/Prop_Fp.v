(** C69: the predictions of a GP computed in double precision. *)
From Coq Require Import ZArith List Bool Lia Permutation Reals Lra.
From Coq Require Import Floats.SpecFloat.
From Flocq Require Import Core.
From Verif Require Import F64 F64R AdamFloat OptFloat FpModel FpErr LinAlgModel LinAlg FpAlg FpChol FpSolve FpGp FpFin.
Import ListNotations.
Open Scope R_scope.

(** ** Specification *)
(** [K] = exact kernel values of the samples (indices below [n]) and of the queried point (index [n]);
    the samples carry noise *)
Definition noisy (K : nat -> nat -> R) (noise : R) (i j : nat) : R := K i j + (if (i =? j)%nat then noise else 0).
(** the doubles [kf i j] are the computed values of the exact [K i j] (plus noise on the diagonal):
    finite, of magnitude at most [D], each within [eps] of the exact value *)
Definition computed (n : nat) (K : nat -> nat -> R) (noise D eps : R) (kf : fmat) : Prop :=
  forall i j, (i < n)%nat -> (j < n)%nat -> dbl D (kf i j) /\ Rabs (fval (kf i j) - noisy K noise i j) <= eps.
(** the relative error of a sum of products with at most [m] rounded operations, times 7 *)
Definition err (m : nat) (D : R) : R := 7 * (INR m + 4) * / 2 ^ 53 * D.
(** at most 2^40 operations in one sum; no magnitude near the limits of the exponent *)
Definition in_range (m : nat) (D : R) : Prop := INR m <= 2 ^ 40 /\ / 2 ^ 500 <= D <= 2 ^ 500.
(** the numbers in the lower triangle *)
Definition lowr (L : fmat) (i j : nat) : R := if (j <=? i)%nat then fval (L i j) else 0.

Lemma bp_pow n : bp (Z.of_nat n) = 2 ^ n.
Proof.
  induction n; [reflexivity|]. rewrite Nat2Z.inj_succ. unfold Z.succ. rewrite bpow_plus, IHn. cbn [pow]. change (bp 1) with 2. ring.
Qed.
Lemma bp_inv n : bp (- Z.of_nat n) = / 2 ^ n.
Proof. rewrite bpow_opp. now rewrite bp_pow. Qed.
Lemma err_kap m D : err m D = kap m D.
Proof. unfold err, kap, uu. rewrite <- (bp_inv 53). reflexivity. Qed.
Lemma in_range_ok m D : in_range m D -> small m /\ bp (-500) <= D <= bp 500.
Proof.
  intros [H1 H2]. split; [unfold small; rewrite bpow_pos_IZR by lia; rewrite <- (bp_pow 40) in H1; exact H1|].
  rewrite <- (bp_inv 500), <- (bp_pow 500) in H2. exact H2.
Qed.
Lemma lowr_lw L i j : lowr L i j = lw L i j. Proof. reflexivity. Qed.

Lemma noisy_eig n K noise : psd n K -> eig_min n (noisy K noise) noise.
Proof.
  intros H x. specialize (H x).
  assert (E : quad n (noisy K noise) x = quad n K x + noise * ssq n x); [|lra].
  unfold quad, ssq, noisy. rewrite <- rsum_scal_l, <- rsum_plus. apply rsum_ext. intros i Hi.
  rewrite (rsum_ext n _ (fun j => x i * x j * K i j + (if (i =? j)%nat then noise * (x i * x j) else 0))).
  2:{ intros j _. destruct (i =? j)%nat; ring. }
  rewrite rsum_plus. f_equal. exact (rsum_delta' n i (fun j => noise * (x i * x j)) Hi).
Qed.
Lemma noisy_symm n K noise : symm n K -> symm n (noisy K noise).
Proof. intros H i j Hi Hj. unfold noisy. rewrite H by auto. now rewrite Nat.eqb_sym. Qed.
Lemma psd_minor n K : psd (S n) K -> psd n K.
Proof.
  intros H c. specialize (H (fun i => if (i <? n)%nat then c i else 0)).
  replace (quad n K c) with (quad (S n) K (fun i => if (i <? n)%nat then c i else 0)); auto.
  unfold quad. cbn [rsum]. rewrite Nat.ltb_irrefl.
  rewrite (rsum_ext n _ (fun i => rsum n (fun j => c i * c j * K i j))).
  - rewrite (rsum_0 n (fun j => 0 * _ * _)) by (intros; ring). ring.
  - intros i Hi. rewrite (proj2 (Nat.ltb_lt _ _) Hi). rewrite Rmult_0_r, Rmult_0_l, Rplus_0_r. apply rsum_ext. intros j Hj.
    now rewrite (proj2 (Nat.ltb_lt _ _) Hj).
Qed.
Lemma joint_eig n K noise : symm (S n) K -> psd (S n) K ->
  forall x, noise * ssq n x <= quad (S n) (ext n (noisy K noise) (fun i => K i n) (K n n)) x.
Proof.
  intros Hs H x. specialize (H x). rewrite quad_ext_form.
  assert (E : quad n (noisy K noise) x = quad n K x + noise * ssq n x).
  { unfold quad, ssq, noisy. rewrite <- rsum_scal_l, <- rsum_plus. apply rsum_ext. intros i Hi.
    rewrite (rsum_ext n _ (fun j => x i * x j * K i j + (if (i =? j)%nat then noise * (x i * x j) else 0))).
    2:{ intros j _. destruct (i =? j)%nat; ring. }
    rewrite rsum_plus. f_equal. exact (rsum_delta' n i (fun j => noise * (x i * x j)) Hi). }
  rewrite E. replace (quad (S n) K x) with (quad (S n) (ext n K (fun i => K i n) (K n n)) x) in H.
  - rewrite quad_ext_form in H. lra.
  - apply quad_ext; [|intros i _; reflexivity]. intros i j Hi Hj. unfold ext.
    destruct (Nat.ltb_spec i n), (Nat.ltb_spec j n); auto.
    + now replace j with n by lia.
    + replace i with n by lia. apply Hs; lia.
    + now replace i with n by lia; replace j with n by lia.
Qed.

Lemma built_entries m kf n A L : built m kf n A L -> forall i j, (i < n)%nat -> (j < n)%nat -> A i j = kf i j \/ A i j = kf j i.
Proof.
  induction 1 as [n L H|n A L L' H IH _]; intros i j Hi Hj.
  - unfold kernel_full. destruct (j <=? i)%nat; auto.
  - unfold kernel_add. destruct (Nat.eqb_spec j n); subst; auto. destruct (Nat.eqb_spec i n); subst; auto. apply IH; lia.
Qed.
Lemma entries_ok n K noise D eps kf A : symm n K -> computed n K noise D eps kf ->
  (forall i j, (i < n)%nat -> (j < n)%nat -> A i j = kf i j \/ A i j = kf j i) ->
  forall i j, (i < n)%nat -> (j < n)%nat -> dbl D (A i j) /\ Rabs (fval (A i j) - noisy K noise i j) <= eps.
Proof.
  intros Hs Hc H i j Hi Hj. destruct (H i j Hi Hj) as [->| ->]; [now apply Hc|].
  rewrite (noisy_symm n K noise Hs i j) by auto. now apply Hc.
Qed.
Lemma full_entries kf n : forall i j, (i < n)%nat -> (j < n)%nat -> kernel_full kf i j = kf i j \/ kernel_full kf i j = kf j i.
Proof. intros i j _ _. unfold kernel_full. destruct (j <=? i)%nat; auto. Qed.
Lemma full_symm kf i j : kernel_full kf i j = kernel_full kf j i.
Proof. unfold kernel_full. destruct (Nat.leb_spec j i), (Nat.leb_spec i j); auto; try lia. now replace j with i by lia. Qed.

(** the conditions of the analysis follow from enough noise *)
Lemma setting m n K noise D eps kf A : in_range m D -> 0 <= eps -> symm n K -> psd n K -> computed n K noise D eps kf ->
  (forall i j, (i < n)%nat -> (j < n)%nat -> A i j = kf i j \/ A i j = kf j i) ->
  (INR n + 1) * (err m D + eps) <= noise ->
  (forall i j, (i < n)%nat -> (j < n)%nat -> dbl D (A i j)) /\
  (forall i j, (i < n)%nat -> (j < n)%nat -> Rabs (fval (A i j) - noisy K noise i j) <= eps) /\
  eig_min n (fun i j => fval (A i j)) (noise - INR n * eps) /\ (INR n + 1) * kap m D <= noise - INR n * eps.
Proof.
  intros HR He Hs Hp Hc Hen Hn. pose proof (entries_ok n K noise D eps kf A Hs Hc Hen) as E. rewrite err_kap in Hn.
  split; [intros i j Hi Hj; now apply E|]. split; [intros i j Hi Hj; now apply E|]. split; [|lra].
  apply (eig_pert n (noisy K noise)); auto; [now apply noisy_eig|]. intros i j Hi Hj. now apply E.
Qed.

(** ** some evaluation order exists, so the factorisation runs to its end *)
Fixpoint chain (c : F) (l : list (F * F)) : sumx :=
  match l with [] => Num c | p :: l => Fnma (fst p) (snd p) (chain c l) end.
Lemma chain_ok m c l : (length l <= m)%nat -> minus_dot m c l (feval (chain c l)).
Proof.
  intros H. exists (chain c l), []. split; [|split; [constructor|split; [|reflexivity]]].
  - rewrite app_nil_r. clear H. induction l as [|p l IH]; cbn; [constructor; constructor|].
    apply Permutation_trans with ((true, TMul (fst p) (snd p)) :: (false, TNum c) :: map (fun p => (true, TMul (fst p) (snd p))) l); [now constructor|apply perm_swap].
  - replace (ops (chain c l)) with (length l); auto. clear H. induction l as [|p l IH]; cbn; auto.
Qed.
Lemma prods_length from len f g : length (prods from len f g) = len.
Proof. unfold prods. now rewrite map_length, seq_length. Qed.

Lemma llt_exists m n A D lam : small m -> (forall i j, (i < n)%nat -> (j < n)%nat -> dbl D (A i j)) ->
  (forall i j, (i < n)%nat -> (j < n)%nat -> A i j = A j i) -> bp (-500) <= D <= bp 500 ->
  eig_min n (fun i j => fval (A i j)) lam -> (INR n + 1) * kap m D <= lam -> (n <= m)%nat ->
  forall k, (k <= n)%nat -> exists L, forall j, (j < k)%nat -> column m n A L j.
Proof.
  intros Hm HA Hsym HD Heig Hlam Hnm. induction k as [|k IH]; intros Hk.
  - exists (fun _ _ => f0). intros; lia.
  - destruct (IH ltac:(lia)) as (L & HL). clear IH.
    set (s := feval (chain (A k k) (prods 0 k (L k) (L k)))).
    set (L1 := fun i j => if (j =? k)%nat then (if (i =? k)%nat then fsqrt s else fdiv (feval (chain (A i k) (prods 0 k (L k) (L i)))) (fsqrt s)) else L i j).
    assert (Old : forall i j, (j < k)%nat -> L1 i j = L i j) by (intros i j Hj; unfold L1; now rewrite (proj2 (Nat.eqb_neq j k)) by lia).
    assert (Hs : pivot m A L k s) by (apply chain_ok; rewrite prods_length; lia).
    assert (Hs1 : pivot m A L1 k s) by (eapply pivot_ext; [reflexivity| |exact Hs]; intros c Hc; symmetry; now apply Old).
    exists L1. intros j Hj. destruct (Nat.eq_dec j k) as [->|Nj].
    + split.
      * exists s. split; auto. split; [|unfold L1; now rewrite Nat.eqb_refl].
        destruct (next_pivot m n A L D lam Hm HA Hsym HD Heig Hlam k s ltac:(lia)) as (V & F & P); auto.
        { intros j Hj'. destruct (HL j Hj') as ((t & T1 & _ & T2) & B). split; eauto. }
        destruct (fle s f0) eqn:E; auto. apply fle_R in E; auto; try apply f0_ok. destruct f0_ok as (_ & _ & Z). rewrite Z in E. lra.
      * intros i Hi. exists (feval (chain (A i k) (prods 0 k (L k) (L i)))). split.
        { rewrite (prods_ext 0 k (L1 k) (L k) (L1 i) (L i)) by (intros c Hc; split; apply Old; lia). apply chain_ok. rewrite prods_length. lia. }
        left. unfold L1. rewrite Nat.eqb_refl. now rewrite (proj2 (Nat.eqb_neq i k)) by lia.
    + destruct (HL j ltac:(lia)) as ((t & T1 & T2 & T3) & B). split.
      * exists t. split; [|split; auto; rewrite Old by lia; auto]. eapply pivot_ext; [reflexivity| |exact T1]. intros c Hc. symmetry. apply Old. lia.
      * intros i Hi. eapply below_ext; [lia|reflexivity| |apply B; lia]. intros c Hc. split; symmetry; apply Old; lia.
Qed.

(** ** The factorisation *)
(** With noise above [(n + 1) (err + eps)], whatever the order of Eigen's sums: the factorisation
    never meets a pivot that is not positive, it runs to its end, and every factor limbo may hold,
    computed at once or grown sample by sample, is finite with a positive diagonal and multiplies
    back to the exact matrix within [err + eps]. *)
Theorem C69_factorisation : forall m n K noise D eps kf,
  in_range m D -> 0 <= eps -> symm n K -> psd n K -> computed n K noise D eps kf ->
  (INR n + 1) * (err m D + eps) <= noise ->
  ~ llt_stops m n (kernel_full kf) /\
  ((n <= m)%nat -> exists L, llt m n (kernel_full kf) L) /\
  forall A L, built m kf n A L ->
    (forall i j, (j <= i < n)%nat -> fvalid (L i j) /\ ffin (L i j)) /\
    (forall i, (i < n)%nat -> 0 < fval (L i i)) /\
    (forall i j, (i < n)%nat -> (j < n)%nat ->
       Rabs (fval (A i j) - rsum n (fun c => lowr L i c * lowr L j c)) <= err m D /\
       Rabs (noisy K noise i j - rsum n (fun c => lowr L i c * lowr L j c)) <= err m D + eps).
Proof.
  intros m n K noise D eps kf HR He Hs Hp Hc Hn. destruct (in_range_ok m D HR) as [Hm HD].
  destruct (setting m n K noise D eps kf (kernel_full kf) HR He Hs Hp Hc (full_entries kf n) Hn) as (S1 & S2 & S3 & S4).
  split; [|split].
  - intros (L & k & s & Hk & Hcol & Hs' & Hle).
    destruct (next_pivot m n (kernel_full kf) L D _ Hm S1 (fun i j _ _ => full_symm kf i j) HD S3 S4 k s Hk) as (V & F & P); auto.
    { intros j Hj. destruct (Hcol j Hj) as ((t & T1 & _ & T2) & B). split; eauto. }
    apply fle_R in Hle; auto; try apply f0_ok. destruct f0_ok as (_ & _ & Z). rewrite Z in Hle. lra.
  - intros Hnm. exact (llt_exists m n (kernel_full kf) D _ Hm S1 (fun i j _ _ => full_symm kf i j) HD S3 S4 Hnm n (le_n _)).
  - clear S1 S2 S3 S4. intros A L HB.
    destruct (setting m n K noise D eps kf A HR He Hs Hp Hc (built_entries m kf n A L HB) Hn) as (S1 & S2 & S3 & S4).
    pose proof (columns_good m n A L D _ Hm S1 (built_symm m kf n A L HB) HD S3 S4 n (le_n _) (built_columns m kf n A L HB)) as G.
    pose proof (full_prod m n A L D (built_symm m kf n A L HB) G) as P. destruct G as (G1 & G2 & _).
    split; [intros i j Hij; apply G2; lia|]. split.
    { intros i Hi. destruct (mid_e0 (L i i)); auto. }
    intros i j Hi Hj. rewrite err_kap. specialize (P i j Hi Hj). specialize (S2 i j Hi Hj).
    change (rsum n (fun c => lowr L i c * lowr L j c)) with (rsum n (fun c => lw L i c * lw L j c)). split; auto.
    replace (noisy K noise i j - rsum n (fun c => lw L i c * lw L j c)) with (- (fval (A i j) - noisy K noise i j) + (fval (A i j) - rsum n (fun c => lw L i c * lw L j c))) by ring.
    apply Rle_trans with (1 := Rabs_triang _ _). rewrite Rabs_Ropp. lra.
Qed.

(** ** The mean *)
(** magnitude lost when a product or a quotient is too small to be represented *)
Definition tiny (n : nat) (D : R) : R := 2 * (/ 2 ^ 1075 * (2 ^ 50 + 3 * D)) * (INR n + 1 + 2 * D).
Lemma tiny_und n D : tiny n D = und n D.
Proof.
  unfold tiny, und, tau, e0. rewrite <- (bp_inv 1075), <- (bp_pow 50). reflexivity.
Qed.

(** The computed mean against the exact posterior mean [m(v) + k^T (K + noise)^-1 (y - m)].
    [x] = the computed [alpha], [S] below = the sum of its absolute values. *)
Theorem C69_mean : forall m n K noise D eps kf A L k y x mv r,
  in_range m D -> 0 <= eps -> symm (S n) K -> psd n K -> computed n K noise D eps kf ->
  (INR n + 1) * (err m D + eps) <= noise -> built m kf n A L ->
  (forall i, (i < n)%nat -> Rabs (K i n) <= D /\ fvalid (k i) /\ Rabs (fval (k i) - K i n) <= eps) ->
  (forall i, (i < n)%nat -> fvalid (y i)) -> fvalid mv ->
  alpha_of m n L y x -> (forall i, (i < n)%nat -> ffin (x i)) -> mu_of m n k x mv r -> ffin r ->
  exists B, is_inv n (noisy K noise) B /\
    let S1 := rsum n (fun i => Rabs (fval (x i))) in
    Rabs (fval r - (fval mv + rsum n (fun i => K i n * rsum n (fun j => B i j * fval (y j)))))
    <= D * (INR n * ((3 * err m D + eps) * S1 + tiny n D) / noise) + eps * S1
       + (2 * INR m * / 2 ^ 53 * (Rabs (fval mv) + rsum n (fun i => Rabs (fval (k i) * fval (x i)))) + 2 * INR m * / 2 ^ 1075).
Proof.
  intros m n K noise D eps kf A L k y x mv r HR He Hs Hp Hc Hn HB Hk Hy Hmv Hx Fx Hr Fr. destruct (in_range_ok m D HR) as [Hm HD].
  assert (Hs' : symm n K) by (intros i j Hi Hj; apply Hs; lia).
  destruct (setting m n K noise D eps kf A HR He Hs' Hp Hc (built_entries m kf n A L HB) Hn) as (S1 & S2 & S3 & S4).
  pose proof (columns_good m n A L D _ Hm S1 (built_symm m kf n A L HB) HD S3 S4 n (le_n _) (built_columns m kf n A L HB)) as G.
  assert (Hl : 0 < noise).
  { apply Rlt_le_trans with (2 := Hn). rewrite err_kap. pose proof (kap_pos m D HD). pose proof (pos_INR n). apply Rmult_lt_0_compat; lra. }
  pose proof (noisy_eig n K noise Hp) as Eg.
  destruct (eig_inv n (noisy K noise) noise Hl (noisy_symm n K noise Hs') Eg) as (B & Bi). exists B. split; auto. cbv zeta.
  pose proof (mean_err m n A L D noise Hm S1 (built_symm m kf n A L HB) HD G (noisy K noise) eps S2 He Hl Eg y x k mv r B (fun i => K i n) Hy Fx Hx
    (fun i Hi => proj1 (proj2 (Hk i Hi))) Hmv Hr Fr (fun i Hi => proj2 (proj2 (Hk i Hi))) (fun i Hi => proj1 (Hk i Hi)) Bi) as E.
  rewrite err_kap, tiny_und. rewrite <- (bp_inv 53), <- (bp_inv 1075). exact E.
Qed.

(** With a margin of 6 and magnitudes far from the limits of the exponent nothing overflows: the
    computed [alpha] and the mean are finite, and the error is bounded by the exact
    [xs = (K + noise)^-1 (y - m)] alone. *)
Theorem C69_mean_finite : forall m n K noise D eps kf A L k y x mv r,
  INR m <= 2 ^ 40 -> / 2 ^ 100 <= D <= 2 ^ 100 -> 0 <= eps -> symm (S n) K -> psd n K -> computed n K noise D eps kf ->
  6 * ((INR n + 2) * (err m D + eps)) <= noise -> built m kf n A L ->
  (forall i, (i < n)%nat -> Rabs (K i n) <= D /\ dbl D (k i) /\ Rabs (fval (k i) - K i n) <= eps) ->
  (forall i, (i < n)%nat -> dbl (2 ^ 200) (y i)) -> dbl (2 ^ 200) mv ->
  alpha_of m n L y x -> mu_of m n k x mv r ->
  (forall i, (i < n)%nat -> ffin (x i)) /\ ffin r /\
  exists B, is_inv n (noisy K noise) B /\
    let xs := fun i => rsum n (fun j => B i j * fval (y j)) in
    let S1 := 2 * (rsum n (fun i => Rabs (xs i)) + INR n * tiny n D / noise) in
    Rabs (fval r - (fval mv + rsum n (fun i => K i n * xs i)))
    <= D * (INR n * ((3 * err m D + eps) * S1 + tiny n D) / noise) + eps * S1
       + (2 * INR m * / 2 ^ 53 * (Rabs (fval mv) + D * S1) + 2 * INR m * / 2 ^ 1075).
Proof.
  intros m n K noise D eps kf A L k y x mv r Hm0 HD0 He Hs Hp Hc Hn HB Hk Hy Hmv Hx Hr.
  rewrite <- (bp_inv 100), <- (bp_pow 100) in HD0. change (bp (- Z.of_nat 100)) with (bp (-100)) in HD0. change (bp (Z.of_nat 100)) with (bp 100) in HD0.
  pose proof (HD' D HD0) as HD.
  assert (HR : in_range m D).
  { split; auto. rewrite <- (bp_inv 500), <- (bp_pow 500). exact HD. }
  destruct (in_range_ok m D HR) as [Hm _].
  assert (Hs' : symm n K) by (intros i j Hi Hj; apply Hs; lia).
  pose proof (kap_pos m D HD) as KP. pose proof (pos_INR n) as NP. rewrite err_kap in *.
  assert (P1 : 0 <= INR n * kap m D) by (apply Rmult_le_pos; lra). assert (P2 : 0 <= INR n * eps) by (apply Rmult_le_pos; lra).
  destruct (setting m n K noise D eps kf A HR He Hs' Hp Hc (built_entries m kf n A L HB)) as (S1 & S2 & S3 & S4); [rewrite err_kap; lra|].
  pose proof (columns_good m n A L D _ Hm S1 (built_symm m kf n A L HB) HD S3 S4 n (le_n _) (built_columns m kf n A L HB)) as G.
  destruct Hx as (z & Hz & Hx).
  assert (Hy' : forall i, (i < n)%nat -> dbl (bp 200) (y i)). { intros i Hi. specialize (Hy i Hi). rewrite <- (bp_pow 200) in Hy. exact Hy. }
  destruct (alpha_fin m n A L D (noise - INR n * eps) y z x Hm S1 (built_symm m kf n A L HB) HD0 S3 ltac:(lra) G Hy' Hz Hx) as (Fx & Bx).
  assert (Hal : alpha_of m n L y x) by (exists z; auto).
  pose proof (bp_pos (-100)) as DP.
  assert (Fr : ffin r).
  { destruct Hmv as (Vm & Fm & Bm).
    apply (dot_fin m false mv 0 n k x r Hm Vm) with (2 := Hr); auto.
    - intros i Hi. split; [apply Hk; lia|apply Fx; lia].
    - intros i Hi. split; [apply Hk; lia|apply Fx; lia].
    - unfold adot. cbn [Nat.add]. pose proof (cs n (fun i => fval (k i)) (fun i => fval (x i))) as C. cbv beta in C.
      set (q := rsum n (fun i => Rabs (fval (k i) * fval (x i)))) in *.
      assert (Q0 : 0 <= q) by (apply rsum_nonneg; intros; apply Rabs_pos).
      assert (Kk : ssq n (fun i => fval (k i)) <= bp 49 * (bp 100 * bp 100)).
      { apply Rle_trans with (INR n * (bp 100 * bp 100)).
        - unfold ssq. rewrite <- rsum_const. apply rsum_le. intros i Hi. destruct (Hk i Hi) as (_ & (_ & _ & B) & _).
          pose proof (Rabs_pos (fval (k i))) as A0. pose proof (Rsqr_abs (fval (k i))) as A1. unfold Rsqr in A1. rewrite A1. apply Rmult_le_compat; lra.
        - apply Rmult_le_compat_r; [apply Rmult_le_pos; apply bpow_ge_0|].
          apply (N49 m n A D (noise - INR n * eps) S1 HD0 S3). lra. }
      assert (Qb : q <= bp 503).
      { apply sq_bp_sum; auto. apply Rle_trans with (1 := C). pose proof (ssq_nonneg n (fun i => fval (k i))). pose proof (ssq_nonneg n (fun i => fval (x i))).
        apply Rle_trans with (bp 49 * (bp 100 * bp 100) * bp 756); [apply Rmult_le_compat; auto|]. rewrite <- !bpow_plus. apply bp_le. lia. }
      rewrite <- (bp_pow 200) in Bm. change (bp (Z.of_nat 200)) with (bp 200) in Bm.
      apply Rle_trans with (2 * bp 503).
      + assert (bp 200 <= bp 503) by (apply bp_le; lia). lra.
      + change 2 with (bp 1). rewrite <- bpow_plus. apply bp_le. lia. }
  split; [intros i Hi; now apply Fx|]. split; auto.
  assert (Hl : 0 < noise) by lra.
  pose proof (noisy_eig n K noise Hp) as Eg.
  destruct (eig_inv n (noisy K noise) noise Hl (noisy_symm n K noise Hs') Eg) as (B & Bi). exists B. split; auto. cbv zeta.
  pose proof (mean_err m n A L D noise Hm S1 (built_symm m kf n A L HB) HD G (noisy K noise) eps S2 He Hl Eg y x k mv r B (fun i => K i n) (fun i Hi => proj1 (Hy i Hi)) (fun i Hi => proj2 (Fx i Hi)) Hal
    (fun i Hi => proj1 (proj1 (proj2 (Hk i Hi)))) (proj1 Hmv) Hr Fr (fun i Hi => proj2 (proj2 (Hk i Hi))) (fun i Hi => proj1 (Hk i Hi)) Bi) as E.
  rewrite tiny_und. rewrite <- (bp_inv 53), <- (bp_inv 1075). change (bp (- Z.of_nat 53)) with uu. change (bp (- Z.of_nat 1075)) with e0.
  set (X := rsum n (fun i => Rabs (fval (x i)))) in *.
  set (xs := fun i => rsum n (fun j => B i j * fval (y j))) in *.
  change (mvec n B (fun j => fval (y j))) with xs in E.
  set (S0 := 2 * (rsum n (fun i => Rabs (xs i)) + INR n * und n D / noise)).
  pose proof (und_nonneg n D ltac:(lra)) as U0.
  assert (X0 : 0 <= X) by (apply rsum_nonneg; intros; apply Rabs_pos).
  assert (F : rsum n (fun i => Rabs (fval (x i) - xs i)) <= INR n * ((3 * kap m D + eps) * X + und n D) / noise).
  { apply (forward n (noisy K noise) noise (fun i => fval (x i)) xs); auto.
    - assert (0 <= (3 * kap m D + eps) * X) by (apply Rmult_le_pos; lra). lra.
    - intros i Hi. change xs with (mvec n B (fun j => fval (y j))). rewrite (inv_mvec n (noisy K noise) B _ Bi i Hi).
      apply (alpha_residual m n A L D Hm S1 (built_symm m kf n A L HB) HD G (noisy K noise) eps S2 y x (fun i Hi => proj1 (Hy i Hi)) (fun i Hi => proj2 (Fx i Hi)) Hal i Hi). }
  assert (XS : X <= S0).
  { assert (T : X <= rsum n (fun i => Rabs (xs i)) + rsum n (fun i => Rabs (fval (x i) - xs i))).
    { unfold X. rewrite <- rsum_plus. apply rsum_le. intros i _. replace (fval (x i)) with (xs i + (fval (x i) - xs i)) at 1 by ring. apply Rabs_triang. }
    assert (H2 : INR n * (3 * kap m D + eps) * X / noise <= X / 2).
    { apply Rmult_le_reg_r with noise; auto. replace (INR n * (3 * kap m D + eps) * X / noise * noise) with (INR n * (3 * kap m D + eps) * X) by (field; lra).
      replace (X / 2 * noise) with (noise / 2 * X) by field. apply Rmult_le_compat_r; auto. lra. }
    replace (INR n * ((3 * kap m D + eps) * X + und n D) / noise) with (INR n * (3 * kap m D + eps) * X / noise + INR n * und n D / noise) in F by (field; lra).
    unfold S0. lra. }
  apply Rle_trans with (1 := E). pose proof uu_pos as UP. pose proof (pos_INR m) as MP.
  apply Rplus_le_compat; [apply Rplus_le_compat|].
  - apply Rmult_le_compat_l; [lra|]. unfold Rdiv. apply Rmult_le_compat_r; [left; now apply Rinv_0_lt_compat|]. apply Rmult_le_compat_l; auto.
    apply Rplus_le_compat_r. apply Rmult_le_compat_l; [lra|exact XS].
  - apply Rmult_le_compat_l; auto.
  - apply Rplus_le_compat_r. apply Rmult_le_compat_l; [apply Rmult_le_pos; lra|]. apply Rplus_le_compat_l.
    apply Rle_trans with (D * X); [|apply Rmult_le_compat_l; [lra|exact XS]]. unfold X. rewrite <- rsum_scal_l. apply rsum_le. intros i Hi. rewrite Rabs_mult.
    apply Rmult_le_compat_r; [apply Rabs_pos|]. apply Hk. exact Hi.
Qed.

(** ** The variance *)
(** The computed variance is a number, finite and not negative, close to the exact posterior
    variance [k(v, v) - k^T (K + noise)^-1 k], which is not negative. *)
Theorem C69_variance : forall m n K noise D eps kf A L k kvv r,
  (0 < n)%nat -> in_range m D -> 0 <= eps -> symm (S n) K -> psd (S n) K -> computed n K noise D eps kf ->
  2 * ((INR n + 2) * (err m D + eps)) <= noise -> built m kf n A L ->
  (forall i, (i < n)%nat -> dbl D (k i) /\ Rabs (fval (k i) - K i n) <= eps) ->
  dbl D kvv -> Rabs (fval kvv - K n n) <= eps ->
  sigma_of m n L k kvv r ->
  exists B, is_inv n (noisy K noise) B /\
    let V := K n n - rsum n (fun i => K i n * rsum n (fun j => B i j * K j n)) in
    ffin r /\ 0 <= fval r /\ 0 <= V /\
    Rabs (fval r - V) <= (INR n + 2) * (err m D + eps) * (1 + K n n / noise) + / 2 ^ 52.
Proof.
  intros m n K noise D eps kf A L k kvv r Hn0 HR He Hs Hp Hc Hn HB Hk Hv1 Hv2 Hr. destruct (in_range_ok m D HR) as [Hm HD].
  assert (Hs' : symm n K) by (intros i j Hi Hj; apply Hs; lia).
  pose proof (kap_pos m D HD) as KP. pose proof (pos_INR n) as NP. rewrite err_kap in *.
  assert (P1 : 0 <= INR n * (kap m D + eps)) by (apply Rmult_le_pos; lra).
  destruct (setting m n K noise D eps kf A HR He Hs' (psd_minor n K Hp) Hc (built_entries m kf n A L HB)) as (S1 & S2 & S3 & S4); [rewrite err_kap; lra|].
  assert (Hl : 0 < noise) by lra.
  destruct (eig_inv n (noisy K noise) noise Hl (noisy_symm n K noise Hs') (noisy_eig n K noise (psd_minor n K Hp))) as (B & Bi). exists B. split; auto. cbv zeta.
  rewrite <- (bp_inv 52).
  exact (sigma_err m n A L k kvv D noise eps (noisy K noise) (fun i => K i n) (K n n) Hn0 Hm S1 (fun i Hi => proj1 (Hk i Hi)) Hv1
    (built_symm m kf n A L HB) HD (built_columns m kf n A L HB) (noisy_symm n K noise Hs') S2 (fun i Hi => proj2 (Hk i Hi)) Hv2 He (joint_eig n K noise Hs Hp) Hn r B Hr Bi).
Qed.

(** ** What the jitter of limbo gives *)
(** Every kernel adds at least 1e-8 to the diagonal (kernel.hpp:83).  For a kernel of magnitude at
    most 2 and up to 1000 samples that is enough, if the kernel values are accurate to 3e-13. *)
Theorem C69_jitter : forall m n K noise D eps kf,
  (n <= 1000)%nat -> INR m <= 3000 -> / 2 ^ 500 <= D <= 2 -> 0 <= eps <= 3 / 10000000000000 -> / 100000000 <= noise ->
  symm n K -> psd n K -> computed n K noise D eps kf ->
  ~ llt_stops m n (kernel_full kf) /\
  forall A L, built m kf n A L ->
    (forall i j, (j <= i < n)%nat -> ffin (L i j)) /\ (forall i, (i < n)%nat -> 0 < fval (L i i)).
Proof.
  intros m n K noise D eps kf Hn Hm HD He Hno Hs Hp Hc.
  assert (N1 : INR n <= 1000). { replace 1000 with (INR (Z.to_nat 1000)) by (rewrite INR_IZR_INZ, Z2Nat.id by lia; reflexivity). apply le_INR. lia. }
  pose proof (pos_INR n) as N0. pose proof (pos_INR m) as M0.
  assert (D0 : 0 < D). { apply Rlt_le_trans with (2 := proj1 HD). apply Rinv_0_lt_compat, pow_lt. lra. }
  assert (E : err m D <= 47 / 10000000000000).
  { unfold err. apply Rle_trans with (7 * (INR m + 4) * / 2 ^ 53 * 2).
    - apply Rmult_le_compat_l; [|lra]. apply Rmult_le_pos; [lra|]. left. apply Rinv_0_lt_compat, pow_lt. lra.
    - apply Rle_trans with (7 * 3004 * / 2 ^ 53 * 2); lra. }
  assert (E0 : 0 <= err m D). { unfold err. apply Rmult_le_pos; [|lra]. apply Rmult_le_pos; [lra|]. left. apply Rinv_0_lt_compat, pow_lt. lra. }
  destruct (C69_factorisation m n K noise D eps kf) as (F1 & _ & F2); auto; try lra.
  - split; [apply Rle_trans with (1 := Hm); lra|]. split; [lra|]. apply Rle_trans with 2; [lra|]. rewrite <- (pow_1 2) at 1. apply Rle_pow; [lra|lia].
  - apply Rle_trans with (1001 * (50 / 10000000000000)); [|lra]. apply Rmult_le_compat; lra.
  - split; auto. intros A L HB. destruct (F2 A L HB) as (G1 & G2 & _). split; auto. intros i j Hij. now apply G1.
Qed.

(** With the default noise 0.01 the variance is then accurate to 2e-6. *)
Theorem C69_default_noise : forall m n K noise D eps kf A L k kvv r,
  (0 < n <= 1000)%nat -> INR m <= 3000 -> / 2 ^ 500 <= D <= 2 -> 0 <= eps <= 3 / 10000000000000 -> 1 / 100 <= noise ->
  symm (S n) K -> psd (S n) K -> computed n K noise D eps kf -> built m kf n A L ->
  (forall i, (i < n)%nat -> dbl D (k i) /\ Rabs (fval (k i) - K i n) <= eps) ->
  dbl D kvv -> Rabs (fval kvv - K n n) <= eps ->
  sigma_of m n L k kvv r ->
  exists B, is_inv n (noisy K noise) B /\
    ffin r /\ 0 <= fval r /\
    Rabs (fval r - (K n n - rsum n (fun i => K i n * rsum n (fun j => B i j * K j n)))) <= 2 / 1000000.
Proof.
  intros m n K noise D eps kf A L k kvv r Hn Hm HD He Hno Hs Hp Hc HB Hk Hv1 Hv2 Hr.
  assert (N1 : INR n <= 1000). { replace 1000 with (INR (Z.to_nat 1000)) by (rewrite INR_IZR_INZ, Z2Nat.id by lia; reflexivity). apply le_INR. lia. }
  pose proof (pos_INR n) as N0. pose proof (pos_INR m) as M0.
  assert (D0 : 0 < D). { apply Rlt_le_trans with (2 := proj1 HD). apply Rinv_0_lt_compat, pow_lt. lra. }
  assert (E : err m D <= 47 / 10000000000000).
  { unfold err. apply Rle_trans with (7 * (INR m + 4) * / 2 ^ 53 * 2).
    - apply Rmult_le_compat_l; [|lra]. apply Rmult_le_pos; [lra|]. left. apply Rinv_0_lt_compat, pow_lt. lra.
    - apply Rle_trans with (7 * 3004 * / 2 ^ 53 * 2); lra. }
  assert (E0 : 0 <= err m D). { unfold err. apply Rmult_le_pos; [|lra]. apply Rmult_le_pos; [lra|]. left. apply Rinv_0_lt_compat, pow_lt. lra. }
  assert (E1 : 0 <= (INR n + 2) * (err m D + eps) <= 1002 * (50 / 10000000000000)).
  { split; [apply Rmult_le_pos; lra|]. apply Rmult_le_compat; lra. }
  destruct (C69_variance m n K noise D eps kf A L k kvv r) as (B & Bi & F1 & F2 & F3 & F4); auto; try lra; try lia.
  - split; [apply Rle_trans with (1 := Hm); lra|]. split; [lra|]. apply Rle_trans with 2; [lra|]. rewrite <- (pow_1 2) at 1. apply Rle_pow; [lra|lia].
  - exists B. split; auto. split; auto. split; auto. apply Rle_trans with (1 := F4).
    assert (Kb : K n n <= 21 / 10). { destruct Hv1 as (_ & _ & Bv). apply Rabs_le_inv in Bv. apply Rabs_le_inv in Hv2. lra. }
    assert (Kn : K n n / noise <= 210).
    { apply Rmult_le_reg_r with noise; [lra|]. replace (K n n / noise * noise) with (K n n) by (field; lra). lra. }
    assert (Q : (INR n + 2) * (err m D + eps) * (1 + K n n / noise) <= 1002 * (50 / 10000000000000) * 211).
    { apply Rle_trans with ((INR n + 2) * (err m D + eps) * 211); [apply Rmult_le_compat_l; lra|apply Rmult_le_compat_r; lra]. }
    apply Rle_trans with (1002 * (50 / 10000000000000) * 211 + / 2 ^ 52); lra.
Qed.

(** ** Without the margin *)
Lemma md0 m c : minus_dot m c [] c.
Proof. exists (Num c), []. cbn. repeat split; auto. lia. Qed.
Lemma md1 m c a b : (2 <= m)%nat -> minus_dot m c [(a, b)] (fsub c (fmul a b)).
Proof. intros H. exists (Minus (Num c) (Mul a b)), []. cbn. repeat split; auto. Qed.
Lemma pd1 m c a b : (2 <= m)%nat -> plus_dot m c [(a, b)] (fadd c (fmul a b)).
Proof. intros H. exists (Plus (Num c) (Mul a b)), []. cbn. repeat split; auto. Qed.
Lemma pd2 m c a b a' b' : (4 <= m)%nat -> plus_dot m c [(a, b); (a', b')] (fadd c (fadd (fmul a b) (fmul a' b'))).
Proof. intros H. exists (Plus (Num c) (Plus (Mul a b) (Mul a' b'))), []. cbn. repeat split; auto. Qed.

(** two samples at the same place *)
Definition wm (a b : F) : fmat := fun i j => if (i =? j)%nat then a else b.
Definition wL (a b : F) : fmat := fun i j =>
  let l0 := fsqrt a in let l1 := fdiv b l0 in
  match i, j with
  | O, _ => l0
  | _, O => l1
  | _, _ => fsqrt (fsub a (fmul l1 l1))
  end.

Lemma wL_built m a b : (2 <= m)%nat -> fle a f0 = false -> built m (wm a b) 2 (kernel_add (wm a b) 1 (kernel_full (wm a b))) (wL a b).
Proof.
  intros Hm Ha. apply (built_add m (wm a b) 1 (kernel_full (wm a b)) (wL a b)).
  - apply built_full. intros j Hj. replace j with 0%nat by lia. split; [|intros; lia]. exists a. split; [apply md0|]. split; auto.
  - split; [auto|]. split.
    + intros j Hj. replace j with 0%nat by lia. exists b. split; [apply md0|left; reflexivity].
    + exists (fsub a (fmul (wL a b 1%nat 0%nat) (wL a b 1%nat 0%nat))). split; [|reflexivity]. apply md1. exact Hm.
Qed.
Lemma wL_stops m a b : (2 <= m)%nat -> fle a f0 = false -> fle (fsub a (fmul (wL a b 1%nat 0%nat) (wL a b 1%nat 0%nat))) f0 = true -> llt_stops m 2 (kernel_full (wm a b)).
Proof.
  intros Hm Ha Hs. exists (wL a b), 1%nat, (fsub a (fmul (wL a b 1%nat 0%nat) (wL a b 1%nat 0%nat))). split; [lia|]. split.
  - intros j Hj. replace j with 0%nat by lia. split.
    + exists a. split; [apply md0|]. split; auto.
    + intros i Hi. replace i with 1%nat by lia. exists b. split; [apply md0|left; reflexivity].
  - split; auto. apply md1. exact Hm.
Qed.

Definition run_mean (a b y0 y1 : F) : F * F * F :=
  let L := wL a b in
  let z0 := fdiv y0 (L 0 0)%nat in let z1 := fdiv (fsub y1 (fmul (L 1 0)%nat z0)) (L 1 1)%nat in
  let x1 := fdiv z1 (L 1 1)%nat in let x0 := fdiv (fsub z0 (fmul (L 1 0)%nat x1)) (L 0 0)%nat in
  (x0, x1, fadd f0 (fadd (fmul f1 x0) (fmul f1 x1))).
Lemma run_mean_ok m a b y0 y1 : (4 <= m)%nat ->
  let '(x0, x1, r) := run_mean a b y0 y1 in
  let x := fun i => match i with O => x0 | _ => x1 end in
  alpha_of m 2 (wL a b) (fun i => match i with O => y0 | _ => y1 end) x /\ mu_of m 2 (fun _ => f1) x f0 r.
Proof.
  intros Hm. unfold run_mean. split.
  - exists (fun i => match i with O => fdiv y0 (wL a b 0 0)%nat | _ => fdiv (fsub y1 (fmul (wL a b 1 0)%nat (fdiv y0 (wL a b 0 0)%nat))) (wL a b 1 1)%nat end). split.
    + intros i Hi. destruct i as [|[|i]]; [| |lia].
      * exists y0. split; [apply md0|left; reflexivity].
      * eexists. split; [apply md1; lia|left; reflexivity].
    + intros i Hi. destruct i as [|[|i]]; [| |lia].
      * eexists. split; [apply md1; lia|left; reflexivity].
      * eexists. split; [apply md0|left; reflexivity].
  - apply pd2. lia.
Qed.

(** A matrix of doubles that is exactly positive definite is not enough: the factorisation stops,
    the incremental one puts 0 on the diagonal, and the mean is NaN. *)
Definition wa : F := fofZe 21 (-4).
Definition wb : F := fofZe (21 * 2 ^ 48 - 1) (-52).
Theorem C69_exact_pd_refuted : exists kf : fmat,
  (forall i j, fvalid (kf i j) /\ ffin (kf i j)) /\ pd 2 (fun i j => fval (kf i j)) /\
  llt_stops 4 2 (kernel_full kf) /\
  exists A L, built 4 kf 2 A L /\ L 1%nat 1%nat = f0 /\
    exists y x k mv r, (forall i, ffin (y i)) /\ (forall i, ffin (k i)) /\ ffin mv /\
      alpha_of 4 2 L y x /\ mu_of 4 2 k x mv r /\ r = fnan.
Proof.
  exists (wm wa wb). split; [|split; [|split]].
  - intros i j. unfold wm. destruct (i =? j)%nat; split; reflexivity.
  - assert (Ea : fval wa = 21 / 16) by (cbv -[IZR F2R bpow Rdiv]; unfold F2R; simpl; lra).
    assert (Eb : fval wb = 21 / 16 - / 2 ^ 52) by (cbv -[IZR F2R bpow Rdiv Rinv pow Rminus]; unfold F2R; simpl; lra).
    intros c (i & Hi & Hc). unfold quad, wm. cbn [rsum Nat.eqb]. rewrite Ea, Eb.
    assert (N : c 0%nat <> 0 \/ c 1%nat <> 0) by (destruct i as [|[|i]]; [left|right|lia]; auto).
    set (p := c 0%nat) in *. set (q := c 1%nat) in *.
    assert (0 < p * p + q * q) by (destruct N as [N|N]; apply (Rsqr_pos_lt _) in N; unfold Rsqr in N; [pose proof (Rle_0_sqr q)|pose proof (Rle_0_sqr p)]; unfold Rsqr in *; lra).
    pose proof (Rle_0_sqr (p + q)) as Q. unfold Rsqr in Q. pose proof (Rle_0_sqr (p - q)) as Q'. unfold Rsqr in Q'.
    assert (2 ^ 52 = 4503599627370496) by (simpl; lra). lra.
  - apply wL_stops; [lia|reflexivity|vm_compute; reflexivity].
  - exists (kernel_add (wm wa wb) 1 (kernel_full (wm wa wb))), (wL wa wb). split; [apply wL_built; [lia|reflexivity]|]. split; [vm_compute; reflexivity|].
    pose proof (run_mean_ok 4 wa wb f1 f0 (le_n _)) as R0. destruct (run_mean wa wb f1 f0) as [[x0 x1] r] eqn:E.
    destruct R0 as [R1 R2]. eexists _, _, _, _, r. split; [|split; [|split; [|split; [exact R1|split; [exact R2|]]]]].
    + intros i. destruct i; reflexivity.
    + intros i. reflexivity.
    + reflexivity.
    + assert (E' : snd (run_mean wa wb f1 f0) = r) by now rewrite E. rewrite <- E'. vm_compute. reflexivity.
Qed.

(** The condition on the noise cannot be dropped either: the noise must survive the addition to the
    kernel value.  kernel.hpp:83 computes "kernel(v1, v2) + (_noise + 1e-8)"; with the default noise
    0.01 and a signal variance 2^48 the sum is 2^48 again, and a point sampled twice stops the
    factorisation, although the exact matrix is positive definite. *)
Definition d001 : F := fofZe 5764607523034235 (-59).
Definition djit : F := fofZe 6044629098073146 (-79).
Definition kernel_diag (s noise : F) : F := fadd s (fadd noise djit).
Theorem C69_absorbed_noise_refuted : exists s noise : F,
  fvalid s /\ ffin s /\ 0 < fval s /\ fvalid noise /\ 0 < fval noise /\
  psd 2 (fun _ _ => fval s) /\ pd 2 (noisy (fun _ _ => fval s) (fval noise)) /\
  llt_stops 2 2 (kernel_full (wm (kernel_diag s noise) s)).
Proof.
  exists (fofZe 1 48), d001.
  assert (Es : fval (fofZe 1 48) = 2 ^ 48) by (cbv -[IZR F2R bpow pow]; unfold F2R; simpl; lra).
  assert (En : 0 < fval d001) by (cbv -[IZR F2R bpow Rlt]; unfold F2R; simpl; lra).
  assert (Ps : 0 < fval (fofZe 1 48)) by (rewrite Es; apply pow_lt; lra).
  assert (Pp : psd 2 (fun _ _ => fval (fofZe 1 48))).
  { intros c. unfold quad. cbn [rsum]. pose proof (Rle_0_sqr (c 0%nat + c 1%nat)) as Q. unfold Rsqr in Q.
    assert (0 <= fval (fofZe 1 48) * ((c 0%nat + c 1%nat) * (c 0%nat + c 1%nat))) by (apply Rmult_le_pos; lra). lra. }
  split; [reflexivity|]. split; [reflexivity|]. split; auto. split; [reflexivity|]. split; auto. split; auto. split.
  - intros c (i & Hi & Hc). apply Rlt_le_trans with (2 := noisy_eig 2 _ (fval d001) Pp c). apply Rmult_lt_0_compat; auto.
    destruct (Rle_lt_or_eq_dec 0 (ssq 2 c) (ssq_nonneg 2 c)) as [|E]; auto. exfalso. apply Hc. symmetry in E. now apply (rsum_sq_0 2 c E).
  - apply wL_stops; [lia|vm_compute; reflexivity|vm_compute; reflexivity].
Qed.

(** ** Examples *)
(** any number of samples of a constant kernel with noise 2 *)
Example C69_factorisation_example : forall n, (n <= 10)%nat ->
  let kf : fmat := fun i j => if (i =? j)%nat then fofZe 3 0 else f1 in
  in_range 20 4 /\ symm n (fun _ _ => 1) /\ psd n (fun _ _ => 1) /\ computed n (fun _ _ => 1) 2 4 0 kf /\
  (INR n + 1) * (err 20 4 + 0) <= 2 /\ exists L, llt 20 n (kernel_full kf) L /\ built 20 kf n (kernel_full kf) L.
Proof.
  intros n Hn kf.
  assert (R1 : in_range 20 4).
  { split; [simpl; lra|]. split; [|apply Rle_trans with (2 ^ 2); [simpl; lra|apply Rle_pow; [lra|lia]]].
    apply Rle_trans with (/ 1); [|lra]. apply Rinv_le_contravar; [lra|]. apply pow_R1_Rle. lra. }
  assert (P : psd n (fun _ _ => 1)).
  { intros c. unfold quad. rewrite (rsum_ext n _ (fun i => c i * rsum n c)).
    - rewrite rsum_scal_r. apply Rle_0_sqr.
    - intros i _. rewrite <- rsum_scal_l. apply rsum_ext. intros; ring. }
  assert (C : computed n (fun _ _ => 1) 2 4 0 kf).
  { intros i j _ _. assert (E3 : fval (fofZe 3 0) = 3) by (cbv -[IZR F2R bpow]; unfold F2R; simpl; lra).
    assert (E1 : fval f1 = 1) by apply f1_ok. unfold kf, noisy, dbl. destruct (i =? j)%nat.
    - rewrite E3. split; [split; [reflexivity|split; [reflexivity|rewrite Rabs_pos_eq; lra]]|]. rewrite Rabs_pos_eq; lra.
    - rewrite E1. split; [split; [reflexivity|split; [reflexivity|rewrite Rabs_pos_eq; lra]]|]. rewrite Rabs_pos_eq; lra. }
  assert (N : (INR n + 1) * (err 20 4 + 0) <= 2).
  { assert (INR n <= 10) by (replace 10 with (INR 10) by (simpl; lra); now apply le_INR). pose proof (pos_INR n).
    apply Rle_trans with (11 * (err 20 4 + 0)); [apply Rmult_le_compat_r; [|lra]|]; unfold err; simpl; lra. }
  split; auto. split; [intros i j _ _; reflexivity|]. split; auto. split; auto. split; auto.
  destruct (C69_factorisation 20 n (fun _ _ => 1) 2 4 0 kf R1 (Rle_refl 0) (fun i j _ _ => eq_refl) P C N) as (_ & X & _).
  destruct (X ltac:(lia)) as (L & HL). exists L. split; auto. now apply built_full.
Qed.

(** one sample: 4 with the noise, covariance 1 with the query, observation 2: mean 1/2, variance 11/4 *)
Example C69_prediction_example :
  let K : nat -> nat -> R := fun i j => if (i =? j)%nat then 3 else 1 in
  let kf : fmat := fun _ _ => fofZe 4 0 in
  let L : fmat := fun _ _ => fofZe 2 0 in
  let x : fvec := fun _ => fofZe 1 (-1) in
  in_range 3 4 /\ symm 2 K /\ psd 2 K /\ computed 1 K 1 4 0 kf /\ 2 * ((INR 1 + 2) * (err 3 4 + 0)) <= 1 /\
  built 3 kf 1 (kernel_full kf) L /\
  alpha_of 3 1 L (fun _ => fofZe 2 0) x /\ mu_of 3 1 (fun _ => f1) x f0 (fofZe 1 (-1)) /\
  sigma_of 3 1 L (fun _ => f1) (fofZe 3 0) (fofZe 11 (-2)).
Proof.
  intros K kf L x. split; [|split; [|split; [|split; [|split; [|split; [|split; [|split]]]]]]].
  - split; [simpl; lra|]. split; [|apply Rle_trans with (2 ^ 2); [simpl; lra|apply Rle_pow; [lra|lia]]].
    apply Rle_trans with (/ 1); [|lra]. apply Rinv_le_contravar; [lra|]. apply pow_R1_Rle. lra.
  - intros i j _ _. unfold K. now rewrite Nat.eqb_sym.
  - intros c. unfold quad, K. cbn [rsum Nat.eqb]. pose proof (Rle_0_sqr (c 0%nat + c 1%nat)). pose proof (Rle_0_sqr (c 0%nat)). pose proof (Rle_0_sqr (c 1%nat)). unfold Rsqr in *. lra.
  - intros i j Hi Hj. replace i with 0%nat by lia. replace j with 0%nat by lia. unfold noisy, K, kf, dbl. cbn [Nat.eqb].
    assert (E4 : fval (fofZe 4 0) = 4) by (cbv -[IZR F2R bpow]; unfold F2R; simpl; lra). rewrite E4.
    split; [split; [reflexivity|split; [reflexivity|rewrite Rabs_pos_eq; lra]]|]. rewrite Rabs_pos_eq; lra.
  - unfold err. simpl. lra.
  - apply built_full. intros j Hj. replace j with 0%nat by lia. split; [|intros; lia]. exists (fofZe 4 0). split; [apply md0|]. split; reflexivity.
  - exists (fun _ => f1). split; intros i Hi; replace i with 0%nat by lia; eexists; (split; [apply md0|left; reflexivity]).
  - apply (pd1 3 f0 f1 (fofZe 1 (-1))). lia.
  - exists (fun _ => fofZe 1 (-1)), (fofZe 11 (-2)). split; [|split; [|reflexivity]].
    + intros i Hi. replace i with 0%nat by lia. exists f1. split; [apply md0|left; reflexivity].
    + apply (md1 3 (fofZe 3 0) (fofZe 1 (-1)) (fofZe 1 (-1))). lia.
Qed.

(** the same sample is inside the stronger range and margin of [C69_mean_finite] *)
Example C69_mean_finite_example :
  INR 3 <= 2 ^ 40 /\ / 2 ^ 100 <= 4 <= 2 ^ 100 /\ 6 * ((INR 1 + 2) * (err 3 4 + 0)) <= 1 /\
  dbl 4 f1 /\ Rabs (fval f1 - 1) <= 0 /\ dbl (2 ^ 200) (fofZe 2 0) /\ dbl (2 ^ 200) f0.
Proof.
  assert (E2 : fval (fofZe 2 0) = 2) by (cbv -[IZR F2R bpow]; unfold F2R; simpl; lra).
  assert (E1 : fval f1 = 1) by (cbv -[IZR F2R bpow]; unfold F2R; simpl; lra).
  assert (B2 : 2 <= 2 ^ 200). { apply Rle_trans with (2 ^ 1); [simpl; lra|apply Rle_pow; [lra|lia]]. }
  split; [simpl; lra|]. split; [|split; [|split; [|split; [|split]]]].
  - split; [|apply Rle_trans with (2 ^ 2); [simpl; lra|apply Rle_pow; [lra|lia]]].
    apply Rle_trans with (/ 1); [|lra]. apply Rinv_le_contravar; [lra|]. apply pow_R1_Rle. lra.
  - unfold err. simpl. lra.
  - unfold dbl. rewrite E1. split; [reflexivity|]. split; [reflexivity|]. rewrite Rabs_pos_eq; lra.
  - rewrite E1. replace (1 - 1) with 0 by ring. rewrite Rabs_R0. lra.
  - unfold dbl. rewrite E2. split; [reflexivity|]. split; [reflexivity|]. rewrite Rabs_pos_eq; lra.
  - split; [reflexivity|]. split; [reflexivity|]. change (fval f0) with 0. rewrite Rabs_R0. lra.
Qed.
