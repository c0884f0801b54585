(** Linear algebra behind the sparse Gaussian process: push-through identity, matrix inversion lemma, and Sylvester's
    determinant identity, for [M = s I + V V^T] (m x m) and [H = s I + V^T V] (n x n). *)
From Coq Require Import Reals List Bool Lia Lra.
From Verif Require Import LinAlgModel LinAlg Det.
Open Scope R_scope.

Lemma mmul_assoc2 n m A B C i j : mmul m (mmul n A B) C i j = mmul n A (mmul m B C) i j.
Proof.
  unfold mmul. transitivity (rsum m (fun k => rsum n (fun a => A i a * B a k * C k j))).
  - apply rsum_ext. intros k _. now rewrite <- rsum_scal_r.
  - rewrite rsum_swap. apply rsum_ext. intros a _. rewrite <- rsum_scal_l. apply rsum_ext. intros; ring.
Qed.
Lemma mmul_ext n A A' B B' i j : (forall k, (k < n)%nat -> A i k = A' i k) -> (forall k, (k < n)%nat -> B k j = B' k j) ->
  mmul n A B i j = mmul n A' B' i j.
Proof. intros HA HB. apply rsum_ext. intros k Hk. now rewrite HA, HB. Qed.
Lemma mmul_delta_l n B i j : (i < n)%nat -> mmul n delta B i j = B i j.
Proof. intro H. unfold mmul. now apply (delta_sum n i (fun k => B k j)). Qed.
Lemma mmul_delta_r n A i j : (j < n)%nat -> mmul n A delta i j = A i j.
Proof. intro H. unfold mmul. now apply (delta_sum' n j (fun k => A i k)). Qed.
Definition tr (A : nat -> nat -> R) : nat -> nat -> R := fun i j => A j i.

(** [det (L U)] for triangular factors *)
Lemma det_lu n L U A : (forall i j, (i < n)%nat -> (j < n)%nat -> (i < j)%nat -> L i j = 0) ->
  (forall i j, (i < n)%nat -> (j < n)%nat -> (j < i)%nat -> U i j = 0) -> meq n n (mmul n L U) A ->
  det n A = prod_diag n L * prod_diag n U.
Proof. intros HL HU HA. rewrite <- (det_ext n _ _ HA). rewrite det_lower_mul by auto. now rewrite det_upper. Qed.

(** [det (U A) = (prod U_ii) det A] for an upper triangular [U] *)
Lemma det_upper_mul n U A : (forall i j, (i < n)%nat -> (j < n)%nat -> (j < i)%nat -> U i j = 0) ->
  det n (mmul n U A) = prod_diag n U * det n A.
Proof.
  intro HU. set (P := fun j i b => if (i <? j)%nat then mmul n U A i b else A i b).
  assert (X : forall j, (j <= n)%nat -> det n (P j) = prod_diag j U * det n A).
  { induction j as [|j IH]; intro Hj; cbn [prod_diag].
    - rewrite Rmult_1_l. apply det_ext. intros i b _ _. reflexivity.
    - transitivity (U j j * det n (P j)); [|rewrite IH by lia; ring].
      rewrite (det_ext n (P (S j)) (setrow (P j) j (fun b => rsum n (fun k => U j k * A k b)))).
      + rewrite det_setrow_sum by lia. rewrite (rsum_ext n _ (fun k => if (k =? j)%nat then U j k * det n (P j) else 0)).
        * rewrite (rsum_delta n j (fun k => U j k * det n (P j))) by lia. reflexivity.
        * intros k Hk. destruct (Nat.eqb_spec k j) as [->|Hkj].
          -- f_equal. apply det_ext. intros i b _ _. unfold setrow, P. destruct (Nat.eqb_spec i j) as [->|]; auto.
             destruct (Nat.ltb_spec j j); [lia|auto].
          -- destruct (Nat.lt_ge_cases k j).
             ++ rewrite HU by lia. ring.
             ++ rewrite (det_two_rows n _ k j); auto; [ring|]. intros b _. unfold setrow, P. rewrite Nat.eqb_refl.
                destruct (Nat.eqb_spec k j); [lia|]. destruct (Nat.ltb_spec k j); [lia|auto].
      + intros i b Hi Hb. unfold setrow, P. destruct (Nat.eqb_spec i j) as [->|].
        * destruct (Nat.ltb_spec j (S j)); [reflexivity|lia].
        * destruct (Nat.ltb_spec i j), (Nat.ltb_spec i (S j)); try lia; auto. }
  rewrite <- X by lia. apply det_ext. intros i b Hi _. unfold P. destruct (Nat.ltb_spec i n); [auto|lia].
Qed.

Section Push.
Variables (m n : nat) (s : R) (V : nat -> nat -> R).
Hypothesis Hs : 0 < s.
Definition MM (i j : nat) : R := s * delta i j + rsum n (fun k => V i k * V j k).
Definition HH (i j : nat) : R := s * delta i j + rsum m (fun a => V a i * V a j).
Lemma gram_psd p q W : psd p (fun i j => rsum q (fun k => W i k * W j k)).
Proof.
  intro c. unfold quad. rewrite (rsum_ext p _ (fun i => rsum q (fun k => c i * W i k * rsum p (fun j => c j * W j k)))).
  - rewrite rsum_swap. apply rsum_nonneg. intros k _. rewrite rsum_scal_r. apply Rle_0_sqr.
  - intros i _. transitivity (rsum p (fun j => rsum q (fun k => c i * c j * (W i k * W j k)))).
    + apply rsum_ext. intros j _. now rewrite rsum_scal_l.
    + rewrite rsum_swap. apply rsum_ext. intros k _. rewrite <- rsum_scal_l. apply rsum_ext. intros; ring.
Qed.
Lemma ridge_pd p A : psd p A -> pd p (fun i j => s * delta i j + A i j).
Proof.
  intro H. apply (pd_ext p (fun i j => A i j + (if (i =? j)%nat then s else 0))).
  - intros i j _ _. unfold delta. destruct (i =? j)%nat; ring.
  - now apply psd_noise_pd.
Qed.
Lemma MM_pd : pd m MM. Proof. apply (ridge_pd m (fun i j => rsum n (fun k => V i k * V j k))). apply gram_psd. Qed.
Lemma HH_pd : pd n HH. Proof. apply (ridge_pd n (fun i j => rsum m (fun a => V a i * V a j))). apply (gram_psd n m (tr V)). Qed.
Lemma MM_symm : symm m MM.
Proof. intros i j _ _. unfold MM. rewrite delta_sym. f_equal. apply rsum_ext. intros; ring. Qed.
Lemma HH_symm : symm n HH.
Proof. intros i j _ _. unfold HH. rewrite delta_sym. f_equal. apply rsum_ext. intros; ring. Qed.

(** [M V = V H] *)
Lemma MV_VH a j : (a < m)%nat -> (j < n)%nat -> mmul m MM V a j = mmul n V HH a j.
Proof.
  intros Ha Hj. unfold mmul, MM, HH.
  rewrite (rsum_ext m _ (fun k => s * (delta a k * V k j) + rsum n (fun q => V a q * (V k q * V k j)))).
  2:{ intros k _. rewrite Rmult_plus_distr_r, <- rsum_scal_r. f_equal; [ring|]. apply rsum_ext. intros; ring. }
  rewrite (rsum_ext n _ (fun k => s * (V a k * delta k j) + rsum m (fun q => V a k * (V q k * V q j)))).
  2:{ intros k _. rewrite Rmult_plus_distr_l, <- rsum_scal_l. f_equal; ring. }
  rewrite !rsum_plus, !rsum_scal_l, delta_sum, delta_sum' by auto. f_equal. apply rsum_swap.
Qed.
Variables (Mi Hi : nat -> nat -> R).
Hypothesis HMi : is_inv m MM Mi.
Hypothesis HHi : is_inv n HH Hi.
(** push-through *)
Lemma push a j : (a < m)%nat -> (j < n)%nat -> mmul m Mi V a j = mmul n V Hi a j.
Proof.
  intros Ha Hj.
  transitivity (mmul m Mi (mmul n (mmul n V HH) Hi) a j).
  - apply mmul_ext; [reflexivity|]. intros k Hk. rewrite mmul_assoc2.
    transitivity (mmul n V delta k j); [now rewrite mmul_delta_r|]. apply mmul_ext; [reflexivity|]. intros q Hq. symmetry. now apply (proj1 HHi).
  - transitivity (mmul m Mi (mmul n (mmul m MM V) Hi) a j).
    + apply mmul_ext; [reflexivity|]. intros k Hk. apply mmul_ext; [|reflexivity]. intros q Hq. symmetry. now apply MV_VH.
    + transitivity (mmul n (mmul m (mmul m Mi MM) V) Hi a j).
      * rewrite <- (mmul_assoc2 m n Mi (mmul m MM V) Hi). apply mmul_ext; [|reflexivity]. intros q Hq. symmetry. apply mmul_assoc2.
      * apply mmul_ext; [|reflexivity]. intros q Hq. transitivity (mmul m delta V a q); [|now apply mmul_delta_l].
        apply mmul_ext; [|reflexivity]. intros k Hk. now apply (proj2 HMi).
Qed.
(** matrix inversion lemma *)
Lemma woodbury i j : (i < n)%nat -> (j < n)%nat -> s * Hi i j = delta i j - rsum m (fun a => V a i * mmul m Mi V a j).
Proof.
  intros Hi' Hj. rewrite <- (proj1 HHi i j Hi' Hj). unfold mmul at 1. unfold HH.
  rewrite (rsum_ext n _ (fun k => s * (delta i k * Hi k j) + rsum m (fun a => V a i * (V a k * Hi k j)))).
  2:{ intros k _. rewrite Rmult_plus_distr_r, <- rsum_scal_r. f_equal; [ring|]. apply rsum_ext. intros; ring. }
  rewrite rsum_plus, rsum_scal_l, delta_sum by auto. rewrite rsum_swap.
  rewrite (rsum_ext m (fun a => rsum n (fun k => V a i * (V a k * Hi k j))) (fun a => V a i * mmul m Mi V a j)); [ring|].
  intros a Ha. rewrite rsum_scal_l. f_equal. symmetry. now apply push.
Qed.

(** Sylvester *)
Lemma sylvester LM LH : is_chol m LM MM -> is_chol n LH HH -> s ^ n * det m MM = s ^ m * det n HH.
Proof.
  intros CM CH.
  assert (Pc : forall q, prod_diag q (fun _ _ => s) = s ^ q) by (induction q; cbn; [ring|]; rewrite IHq; ring).
  (* B = [[s I, V], [-V^T, I]] *)
  set (B := fun i j => if (i <? m)%nat then (if (j <? m)%nat then s * delta i j else V i (j - m)%nat)
                       else (if (j <? m)%nat then - V j (i - m)%nat else delta i j)).
  assert (Pd_split : forall q p A, prod_diag (q + p) A = prod_diag q A * prod_diag p (fun i j => A (q + i)%nat (q + j)%nat)).
  { intros q p A. induction p as [|p IH]; [rewrite Nat.add_0_r; cbn; ring|]. rewrite Nat.add_succ_r. cbn [prod_diag]. rewrite IH. ring. }
  assert (Pd_ext : forall q A A', (forall i, (i < q)%nat -> A i i = A' i i) -> prod_diag q A = prod_diag q A').
  { induction q as [|q IH]; intros A A' H; cbn; [reflexivity|]. rewrite (IH A A'), H by (auto; lia). reflexivity. }
  assert (Pd_scal : forall q A t, prod_diag q (fun i j => t * A i j) = t ^ q * prod_diag q A).
  { induction q as [|q IH]; intros A t; cbn; [ring|]. rewrite IH. ring. }
  assert (Hsq : 0 < sqrt s) by now apply sqrt_lt_R0.
  assert (Hss : sqrt s * sqrt s = s) by (apply sqrt_sqrt; lra).
  (* first factorisation *)
  set (L1 := fun i j => if (i <? m)%nat then (if (j <? m)%nat then delta i j else 0)
                        else (if (j <? m)%nat then - V j (i - m)%nat / s else / sqrt s * LH (i - m)%nat (j - m)%nat)).
  set (U1 := fun i j => if (i <? m)%nat then (if (j <? m)%nat then s * delta i j else V i (j - m)%nat)
                        else (if (j <? m)%nat then 0 else / sqrt s * LH (j - m)%nat (i - m)%nat)).
  destruct CH as [[HLu HLd] HLf]. destruct CM as [[MLu MLd] MLf].
  assert (E1 : det (m + n) B = prod_diag (m + n) L1 * prod_diag (m + n) U1).
  { apply det_lu.
    - intros i j Hi' Hj Hij. unfold L1. destruct (Nat.ltb_spec i m), (Nat.ltb_spec j m); try lia; auto.
      + unfold delta. destruct (Nat.eqb_spec i j); [lia|auto].
      + rewrite HLu by lia. ring.
    - intros i j Hi' Hj Hij. unfold U1. destruct (Nat.ltb_spec i m), (Nat.ltb_spec j m); try lia; auto.
      + unfold delta. destruct (Nat.eqb_spec i j); [lia|ring].
      + rewrite HLu by lia. ring.
    - intros i j Hi' Hj. unfold mmul. rewrite rsum_split. unfold B. destruct (Nat.ltb_spec i m) as [Hi1|Hi1].
      + rewrite (rsum_ext m _ (fun k => delta i k * U1 k j)).
        2:{ intros k Hk. unfold L1. rewrite (proj2 (Nat.ltb_lt i m)), (proj2 (Nat.ltb_lt k m)) by lia. reflexivity. }
        rewrite delta_sum by auto. rewrite rsum_0.
        2:{ intros k Hk. unfold L1. rewrite (proj2 (Nat.ltb_lt i m)), (proj2 (Nat.ltb_ge (m + k) m)) by lia. ring. }
        unfold U1. rewrite (proj2 (Nat.ltb_lt i m)) by lia. destruct (Nat.ltb_spec j m); ring.
      + rewrite (rsum_ext m _ (fun k => - V k (i - m)%nat / s * (if (j <? m)%nat then s * delta k j else V k (j - m)%nat))).
        2:{ intros k Hk. unfold L1, U1. rewrite (proj2 (Nat.ltb_ge i m)), (proj2 (Nat.ltb_lt k m)) by lia. reflexivity. }
        rewrite (rsum_ext n _ (fun k => / sqrt s * LH (i - m)%nat k * (if (j <? m)%nat then 0 else / sqrt s * LH (j - m)%nat k))).
        2:{ intros k Hk. unfold L1, U1. rewrite (proj2 (Nat.ltb_ge i m)), (proj2 (Nat.ltb_ge (m + k) m)) by lia. now replace (m + k - m)%nat with k by lia. }
        destruct (Nat.ltb_spec j m) as [Hj1|Hj1].
        * rewrite (rsum_ext m _ (fun k => (- V k (i - m)%nat) * delta k j)) by (intros k _; field; lra). rewrite delta_sum' by auto.
          rewrite rsum_0 by (intros; ring). ring.
        * rewrite (rsum_ext n _ (fun k => / s * (LH (i - m)%nat k * LH (j - m)%nat k))).
          2:{ intros k _. replace (/ s) with (/ sqrt s * / sqrt s) by (rewrite <- Rinv_mult; now rewrite Hss). ring. }
          rewrite rsum_scal_l, HLf by lia. unfold HH.
          rewrite (rsum_ext m _ (fun k => - / s * (V k (i - m)%nat * V k (j - m)%nat))) by (intros k _; field; lra). rewrite rsum_scal_l.
          replace (delta (i - m) (j - m)) with (delta i j); [field; lra|].
          unfold delta. destruct (Nat.eqb_spec i j), (Nat.eqb_spec (i - m) (j - m)); auto; lia. }
  (* second: B = U2 C, C = L3 U3 *)
  set (U2 := fun i j => if (i <? m)%nat then (if (j <? m)%nat then delta i j else V i (j - m)%nat) else delta i j).
  set (C := fun i j => if (i <? m)%nat then (if (j <? m)%nat then MM i j else 0) else (if (j <? m)%nat then - V j (i - m)%nat else delta i j)).
  assert (E2 : det (m + n) B = prod_diag (m + n) U2 * det (m + n) C).
  { rewrite <- det_upper_mul.
    - apply det_ext. intros i j Hi' Hj. unfold mmul. rewrite rsum_split. unfold B, U2, C. destruct (Nat.ltb_spec i m) as [Hi1|Hi1].
      + rewrite (rsum_ext m _ (fun k => delta i k * (if (j <? m)%nat then MM k j else 0))).
        2:{ intros k Hk. rewrite (proj2 (Nat.ltb_lt k m)) by lia. reflexivity. }
        rewrite delta_sum by auto.
        rewrite (rsum_ext n _ (fun k => V i k * (if (j <? m)%nat then - V j k else delta k (j - m)))).
        2:{ intros k Hk. rewrite (proj2 (Nat.ltb_ge (m + k) m)) by lia. replace (m + k - m)%nat with k by lia. destruct (Nat.ltb_spec j m); auto.
            f_equal. unfold delta. destruct (Nat.eqb_spec (m + k) j), (Nat.eqb_spec k (j - m)); auto; lia. }
        destruct (Nat.ltb_spec j m) as [Hj1|Hj1].
        * unfold MM. rewrite (rsum_ext n (fun k => V i k * - V j k) (fun k => - (V i k * V j k))) by (intros; ring). rewrite rsum_opp. ring.
        * rewrite delta_sum' by lia. ring.
      + rewrite (rsum_0 m).
        2:{ intros k Hk. unfold delta. destruct (Nat.eqb_spec i k); [lia|ring]. }
        rewrite (rsum_ext n _ (fun k => delta (i - m) k * (if (j <? m)%nat then - V j k else delta (m + k) j))).
        2:{ intros k Hk. rewrite (proj2 (Nat.ltb_ge (m + k) m)) by lia. replace (m + k - m)%nat with k by lia. f_equal.
            unfold delta. destruct (Nat.eqb_spec i (m + k)), (Nat.eqb_spec (i - m) k); auto; lia. }
        rewrite delta_sum by lia. replace (m + (i - m))%nat with i by lia. ring.
    - intros i j Hi' Hj Hij. unfold U2. destruct (Nat.ltb_spec i m), (Nat.ltb_spec j m); try lia; unfold delta; destruct (Nat.eqb_spec i j); auto; lia. }
  (* W solves W LM^T = -V^T *)
  set (W := fun i => fwd m LM (fun a => - V a i)).
  assert (HW : forall i j, (j < m)%nat -> rsum m (fun k => W i k * LM j k) = - V j i).
  { intros i j Hj. rewrite <- (fwd_solves m LM (fun a => - V a i) (conj MLu MLd) j Hj). unfold mvec. apply rsum_ext. intros; unfold W; ring. }
  set (L3 := fun i j => if (i <? m)%nat then (if (j <? m)%nat then LM i j else 0) else (if (j <? m)%nat then W (i - m)%nat j else delta i j)).
  set (U3 := fun i j => if (i <? m)%nat then (if (j <? m)%nat then LM j i else 0) else (if (j <? m)%nat then 0 else delta i j)).
  assert (E3 : det (m + n) C = prod_diag (m + n) L3 * prod_diag (m + n) U3).
  { apply det_lu.
    - intros i j Hi' Hj Hij. unfold L3. destruct (Nat.ltb_spec i m), (Nat.ltb_spec j m); try lia; auto.
      unfold delta. destruct (Nat.eqb_spec i j); [lia|auto].
    - intros i j Hi' Hj Hij. unfold U3. destruct (Nat.ltb_spec i m), (Nat.ltb_spec j m); try lia; auto.
      unfold delta. destruct (Nat.eqb_spec i j); [lia|auto].
    - intros i j Hi' Hj. unfold mmul. rewrite rsum_split. unfold C.
      assert (T1 : rsum m (fun k => L3 i k * U3 k j) = if (j <? m)%nat then (if (i <? m)%nat then MM i j else - V j (i - m)%nat) else 0).
      { destruct (Nat.ltb_spec j m) as [Hj1|Hj1].
        - destruct (Nat.ltb_spec i m) as [Hi1|Hi1].
          + rewrite <- MLf by auto. apply rsum_ext. intros k Hk. unfold L3, U3. rewrite (proj2 (Nat.ltb_lt i m)), (proj2 (Nat.ltb_lt k m)), (proj2 (Nat.ltb_lt j m)) by lia. reflexivity.
          + rewrite <- HW by auto. apply rsum_ext. intros k Hk. unfold L3, U3. rewrite (proj2 (Nat.ltb_ge i m)), (proj2 (Nat.ltb_lt k m)), (proj2 (Nat.ltb_lt j m)) by lia. reflexivity.
        - apply rsum_0. intros k Hk. unfold U3. rewrite (proj2 (Nat.ltb_lt k m)), (proj2 (Nat.ltb_ge j m)) by lia. ring. }
      assert (T2 : rsum n (fun k => L3 i (m + k)%nat * U3 (m + k)%nat j) = if (i <? m)%nat then 0 else if (j <? m)%nat then 0 else delta i j).
      { destruct (Nat.ltb_spec i m) as [Hi1|Hi1].
        - apply rsum_0. intros k Hk. unfold L3. rewrite (proj2 (Nat.ltb_lt i m)), (proj2 (Nat.ltb_ge (m + k) m)) by lia. ring.
        - rewrite (rsum_ext n _ (fun k => delta (i - m) k * (if (j <? m)%nat then 0 else delta (m + k) j))).
          2:{ intros k Hk. unfold L3, U3. rewrite (proj2 (Nat.ltb_ge i m)), (proj2 (Nat.ltb_ge (m + k) m)) by lia. f_equal.
              unfold delta. destruct (Nat.eqb_spec i (m + k)), (Nat.eqb_spec (i - m) k); auto; lia. }
          rewrite delta_sum by lia. now replace (m + (i - m))%nat with i by lia. }
      rewrite T1, T2. destruct (Nat.ltb_spec i m), (Nat.ltb_spec j m); ring. }
  assert (P1 : prod_diag (m + n) L1 = (/ sqrt s) ^ n * prod_diag n LH).
  { rewrite Pd_split. rewrite (Pd_ext m L1 (fun _ _ => 1)).
    - rewrite (Pd_ext n _ (fun i j => / sqrt s * LH i j)).
      + rewrite Pd_scal. replace (prod_diag m (fun _ _ => 1)) with 1; [ring|]. clear. induction m; cbn; [reflexivity|]. rewrite <- IHn. ring.
      + intros i Hi'. unfold L1. rewrite (proj2 (Nat.ltb_ge (m + i) m)) by lia. now replace (m + i - m)%nat with i by lia.
    - intros i Hi'. unfold L1. rewrite (proj2 (Nat.ltb_lt i m)) by lia. unfold delta. now rewrite Nat.eqb_refl. }
  assert (P2 : prod_diag (m + n) U1 = s ^ m * ((/ sqrt s) ^ n * prod_diag n LH)).
  { rewrite Pd_split. rewrite (Pd_ext m U1 (fun _ _ => s)).
    - rewrite (Pd_ext n _ (fun i j => / sqrt s * LH i j)).
      + rewrite Pd_scal, Pc. reflexivity.
      + intros i Hi'. unfold U1. rewrite (proj2 (Nat.ltb_ge (m + i) m)) by lia. now replace (m + i - m)%nat with i by lia.
    - intros i Hi'. unfold U1. rewrite (proj2 (Nat.ltb_lt i m)) by lia. unfold delta. rewrite Nat.eqb_refl. ring. }
  assert (One : forall q A, (forall i, (i < q)%nat -> A i i = 1) -> prod_diag q A = 1).
  { induction q as [|q IH]; intros A H; cbn; [reflexivity|]. rewrite IH, H by (auto; lia). ring. }
  assert (P3 : prod_diag (m + n) U2 = 1).
  { apply One. intros i Hi'. unfold U2. destruct (Nat.ltb_spec i m); unfold delta; now rewrite Nat.eqb_refl. }
  assert (P4 : prod_diag (m + n) L3 = prod_diag m LM).
  { rewrite Pd_split. rewrite (One n).
    - rewrite Rmult_1_r. apply Pd_ext. intros i Hi'. unfold L3. rewrite (proj2 (Nat.ltb_lt i m)) by lia. reflexivity.
    - intros i Hi'. unfold L3. rewrite (proj2 (Nat.ltb_ge (m + i) m)) by lia. unfold delta. now rewrite Nat.eqb_refl. }
  assert (P5 : prod_diag (m + n) U3 = prod_diag m LM).
  { rewrite Pd_split. rewrite (One n).
    - rewrite Rmult_1_r. apply Pd_ext. intros i Hi'. unfold U3. rewrite (proj2 (Nat.ltb_lt i m)) by lia. reflexivity.
    - intros i Hi'. unfold U3. rewrite (proj2 (Nat.ltb_ge (m + i) m)) by lia. unfold delta. now rewrite Nat.eqb_refl. }
  rewrite (det_chol m LM MM) by (split; [split|]; auto). rewrite (det_chol n LH HH) by (split; [split|]; auto).
  rewrite P1, P2 in E1. rewrite E3, P3, P4, P5 in E2. rewrite E1 in E2. rewrite Rmult_1_l in E2. rewrite <- E2.
  assert (Hn : s ^ n * ((/ sqrt s) ^ n * (/ sqrt s) ^ n) = 1).
  { rewrite <- Rpow_mult_distr, <- Rpow_mult_distr. replace (s * (/ sqrt s * / sqrt s)) with 1; [apply pow1|]. rewrite <- Hss at 1. field. lra. }
  transitivity (s ^ n * ((/ sqrt s) ^ n * (/ sqrt s) ^ n) * (s ^ m * (prod_diag n LH * prod_diag n LH))); [ring|]. rewrite Hn. ring.
Qed.
End Push.

(** [x^T A^-1 y] is the scalar product of the solutions of [L z = x] and [L z = y] *)
Lemma bilin_chol n L A B x y : is_chol n L A -> is_inv n A B ->
  rsum n (fun a => rsum n (fun b => x a * B a b * y b)) = rsum n (fun i => fwd n L x i * fwd n L y i).
Proof.
  intros HL HB. set (z := fwd n L y). set (u := bwd n L z).
  assert (Ex : veq n u (mvec n B y)) by (eapply inv_solves; [exact HB|]; now apply solve_both).
  transitivity (rsum n (fun a => x a * u a)).
  - apply rsum_ext. intros a Ha. rewrite Ex by auto. unfold mvec. rewrite <- rsum_scal_l. apply rsum_ext. intros b _. lra.
  - transitivity (rsum n (fun a => rsum n (fun m => L a m * fwd n L x m * u a))).
    + apply rsum_ext. intros a Ha. rewrite rsum_scal_r. f_equal. symmetry. apply (fwd_solves n L x); [apply HL|auto].
    + rewrite rsum_swap. apply rsum_ext. intros m Hm.
      transitivity (fwd n L x m * rsum n (fun a => L a m * u a)).
      * rewrite <- rsum_scal_l. apply rsum_ext. intros a _. lra.
      * f_equal. apply (bwd_solves n L z); [apply HL|auto].
Qed.
(** the variance left by the pseudo-observations is not negative: [G] a covariance of [m] points and one more *)
Lemma schur_nonneg m G del B : psd (Datatypes.S m) G -> symm (Datatypes.S m) G -> 0 <= del -> is_inv m (fun i j => G i j + del * delta i j) B -> symm m B ->
  rsum m (fun a => rsum m (fun b => G a m * B a b * G b m)) <= G m m.
Proof.
  intros HG SG Hd HB SB. set (k := fun a => G a m). set (u := mvec m B k).
  assert (Eu : forall a, (a < m)%nat -> mvec m (fun i j => G i j + del * delta i j) u a = k a).
  { intros a Ha. unfold u. rewrite <- mvec_mmul. unfold mvec. rewrite (rsum_ext m _ (fun j => delta a j * k j)); [now apply delta_sum|].
    intros j Hj. now rewrite (proj1 HB). }
  specialize (HG (fun i => if (i <? m)%nat then - u i else 1)).
  rewrite quad_mvec in HG. cbn [rsum] in HG. unfold mvec in HG. cbn [rsum] in HG. rewrite Nat.ltb_irrefl in HG.
  rewrite (rsum_ext m _ (fun i => - u i * (k i - rsum m (fun j => G i j * u j)))) in HG.
  2:{ intros i Hi. rewrite (proj2 (Nat.ltb_lt i m) Hi). f_equal. unfold k. rewrite Rmult_1_r.
      rewrite (rsum_ext m _ (fun j => - (G i j * u j))); [rewrite rsum_opp; ring|]. intros j Hj. rewrite (proj2 (Nat.ltb_lt j m) Hj). ring. }
  rewrite (rsum_ext m (fun k0 => G m k0 * (if (k0 <? m)%nat then - u k0 else 1)) (fun j => - (k j * u j))) in HG.
  2:{ intros j Hj. rewrite (proj2 (Nat.ltb_lt j m) Hj). unfold k. rewrite (SG m j) by lia. ring. }
  rewrite rsum_opp in HG.
  assert (T : rsum m (fun i => - u i * (k i - rsum m (fun j => G i j * u j))) <= 0).
  { rewrite (rsum_ext m _ (fun i => - (del * (u i * u i)))).
    - rewrite rsum_opp, rsum_scal_l. assert (0 <= rsum m (fun i => u i * u i)) by (apply rsum_nonneg; intros; apply Rle_0_sqr). nra.
    - intros i Hi. rewrite <- (Eu i Hi). unfold mvec. rewrite (rsum_ext m (fun j => (G i j + del * delta i j) * u j) (fun j => G i j * u j + del * (delta i j * u j))) by (intros; ring).
      rewrite rsum_plus, rsum_scal_l, delta_sum by auto. ring. }
  assert (F : rsum m (fun a => rsum m (fun b => G a m * B a b * G b m)) = rsum m (fun j => k j * u j)).
  { apply rsum_ext. intros a Ha. unfold u, mvec. rewrite <- rsum_scal_l. apply rsum_ext. intros b Hb. unfold k. ring. }
  rewrite F. lra.
Qed.

(** * The covariance and posterior in terms of the quantities that the program computes *)
Section Core.
Variables (m n : nat) (Q L K0 : nat -> nat -> R) (c s : R) (B : nat -> nat -> R).
Hypothesis HL : is_chol m L Q.
Hypothesis HB : is_inv m Q B.
Hypothesis Hs : 0 < s.
Definition q_ (x y : nat -> R) : R := rsum m (fun a => rsum m (fun b => x a * B a b * y b)).
Definition V0 (i j : nat) : R := fwd m L (fun a => K0 a j) i.
Definition ep (j : nat) : R := 1 + (c - rsum m (fun i => V0 i j * V0 i j)) / s.
Definition V (i j : nat) : R := V0 i j / sqrt (ep j).
Definition A_ (i j : nat) : R := q_ (fun a => K0 a i) (fun a => K0 a j) + delta i j * (c - q_ (fun a => K0 a i) (fun a => K0 a i) + s).
Hypothesis Hep : forall j, (j < n)%nat -> 0 < ep j.
Lemma q_V0 i j : q_ (fun a => K0 a i) (fun a => K0 a j) = rsum m (fun k => V0 k i * V0 k j).
Proof. unfold q_. now rewrite (bilin_chol m L Q B _ _ HL HB). Qed.
Lemma ep_sqrt j : (j < n)%nat -> 0 < sqrt (ep j) /\ sqrt (ep j) * sqrt (ep j) = ep j.
Proof. intro Hj. split; [now apply sqrt_lt_R0, Hep|]. apply sqrt_sqrt. apply Rlt_le. now apply Hep. Qed.
Lemma A_H i j : (i < n)%nat -> (j < n)%nat -> A_ i j = sqrt (ep i) * HH m s V i j * sqrt (ep j).
Proof.
  intros Hi Hj. unfold A_, HH. rewrite !q_V0. destruct (ep_sqrt i Hi) as [Pi Si], (ep_sqrt j Hj) as [Pj Sj].
  rewrite (rsum_ext m (fun a => V a i * V a j) (fun a => / (sqrt (ep i) * sqrt (ep j)) * (V0 a i * V0 a j))).
  2:{ intros a _. unfold V. field. lra. }
  rewrite rsum_scal_l. unfold delta. destruct (Nat.eqb_spec i j) as [<-|].
  - replace (sqrt (ep i) * (s * 1 + / (sqrt (ep i) * sqrt (ep i)) * rsum m (fun k => V0 k i * V0 k i)) * sqrt (ep i))
      with (s * (sqrt (ep i) * sqrt (ep i)) + rsum m (fun k => V0 k i * V0 k i)) by (field; lra).
    rewrite Si. unfold ep. field. lra.
  - field. lra.
Qed.
Lemma A_symm : symm n A_.
Proof. intros i j Hi Hj. rewrite !A_H by auto. rewrite (HH_symm m n s V j i) by auto. ring. Qed.
Lemma A_pd : pd n A_.
Proof.
  apply (pd_ext n (fun i j => sqrt (ep i) * HH m s V i j * sqrt (ep j))); [intros i j Hi Hj; symmetry; now apply A_H|].
  intros x (i & Hi & Hx). pose proof (HH_pd m n s V Hs (fun j => x j * sqrt (ep j))) as P.
  unfold quad in *. rewrite (rsum_ext n _ (fun i => rsum n (fun j => x i * sqrt (ep i) * (x j * sqrt (ep j)) * HH m s V i j))) by (intros; apply rsum_ext; intros; ring).
  apply P. exists i. split; auto. destruct (ep_sqrt i Hi). intro Z. apply Rmult_integral in Z. destruct Z; lra.
Qed.
Lemma A_inv_ex : exists Ai, is_inv n A_ Ai /\ symm n Ai.
Proof.
  destruct (chol_succeeds n A_ A_symm A_pd) as [LA HA]. apply (chol_is_chol n _ _ A_symm) in HA. exists (inv_of n LA). now apply inv_of_is_inv.
Qed.
Variable Ai : nat -> nat -> R.
Hypothesis HAi : is_inv n A_ Ai.
Definition Hi_ (i j : nat) : R := sqrt (ep i) * Ai i j * sqrt (ep j).
Lemma Hi_inv : is_inv n (HH m s V) Hi_.
Proof.
  split; intros i j Hi Hj; destruct (ep_sqrt i Hi) as [Pi Si], (ep_sqrt j Hj) as [Pj Sj].
  - apply (Rmult_eq_reg_l (sqrt (ep i))); [|lra]. transitivity (rsum n (fun k => A_ i k * Ai k j) * sqrt (ep j)).
    + unfold mmul. rewrite <- rsum_scal_l, <- rsum_scal_r. apply rsum_ext. intros k Hk. rewrite A_H by auto. unfold Hi_. ring.
    + pose proof (proj1 HAi i j Hi Hj) as Z. unfold mmul in Z. rewrite Z. unfold delta. destruct (Nat.eqb_spec i j) as [->|]; ring.
  - apply (Rmult_eq_reg_r (sqrt (ep j))); [|lra]. transitivity (sqrt (ep i) * rsum n (fun k => Ai i k * A_ k j)).
    + unfold mmul. rewrite <- rsum_scal_l, <- rsum_scal_r. apply rsum_ext. intros k Hk. rewrite A_H by auto. unfold Hi_. ring.
    + pose proof (proj2 HAi i j Hi Hj) as Z. unfold mmul in Z. rewrite Z. unfold delta. destruct (Nat.eqb_spec i j) as [->|]; ring.
Qed.
Variable Lm : nat -> nat -> R.
Hypothesis HLm : is_chol m Lm (MM n s V).
Variable r : nat -> R.
Definition y_ (j : nat) : R := r j / sqrt (ep j).
Definition Mi : nat -> nat -> R := inv_of m Lm.
Lemma Mi_inv : is_inv m (MM n s V) Mi. Proof. now apply inv_of_is_inv. Qed.
(** the prediction: [k] is the vector of covariances between the pseudo-inputs and the point *)
Variable k : nat -> R.
Definition lst (i : nat) : R := fwd m L k i.
Lemma q_k j : q_ k (fun a => K0 a j) = rsum m (fun i => lst i * V0 i j).
Proof. unfold q_. now rewrite (bilin_chol m L Q B _ _ HL HB). Qed.
(** [lst^T V H^-1 z = lst^T M^-1 V z] *)
Lemma push_apply z : rsum n (fun i => rsum n (fun j => rsum m (fun a => lst a * V a i) * Hi_ i j * z j)) =
  rsum m (fun a => rsum m (fun b => lst a * Mi a b * rsum n (fun j => V b j * z j))).
Proof.
  transitivity (rsum m (fun a => rsum n (fun j => lst a * mmul n V Hi_ a j * z j))).
  - transitivity (rsum n (fun j => rsum m (fun a => lst a * mmul n V Hi_ a j * z j))); [|apply rsum_swap].
    rewrite rsum_swap. apply rsum_ext. intros j Hj.
    transitivity (rsum n (fun i => rsum m (fun a => lst a * V a i * Hi_ i j * z j))).
    + apply rsum_ext. intros i Hi. rewrite <- !rsum_scal_r. reflexivity.
    + rewrite rsum_swap. apply rsum_ext. intros a Ha. unfold mmul. rewrite <- rsum_scal_l, <- rsum_scal_r. apply rsum_ext. intros; ring.
  - apply rsum_ext. intros a Ha. transitivity (rsum n (fun j => rsum m (fun b => lst a * Mi a b * (V b j * z j)))).
    + apply rsum_ext. intros j Hj. rewrite <- (push m n s V Mi Hi_ Mi_inv Hi_inv a j Ha Hj). unfold mmul. rewrite <- rsum_scal_l, <- rsum_scal_r.
      apply rsum_ext. intros; ring.
    + rewrite rsum_swap. apply rsum_ext. intros b Hb. now rewrite rsum_scal_l.
Qed.
Lemma mean_core : rsum n (fun i => rsum n (fun j => q_ k (fun a => K0 a i) * Ai i j * r j)) =
  rsum m (fun i => fwd m Lm (fun a => rsum n (fun j => V a j * y_ j)) i * fwd m Lm lst i).
Proof.
  transitivity (rsum n (fun i => rsum n (fun j => rsum m (fun a => lst a * V a i) * Hi_ i j * y_ j))).
  - apply rsum_ext. intros i Hi. apply rsum_ext. intros j Hj. rewrite q_k. destruct (ep_sqrt i Hi) as [Pi _], (ep_sqrt j Hj) as [Pj _].
    rewrite (rsum_ext m (fun a => lst a * V a i) (fun a => lst a * V0 a i * / sqrt (ep i))) by (intros; unfold V; field; lra).
    rewrite rsum_scal_r. unfold Hi_, y_. field. lra.
  - rewrite push_apply. rewrite (bilin_chol m Lm (MM n s V) Mi lst (fun b => rsum n (fun j => V b j * y_ j)) HLm Mi_inv). apply rsum_ext. intros; ring.
Qed.
Lemma var_core : rsum n (fun i => rsum n (fun j => q_ k (fun a => K0 a i) * Ai i j * q_ k (fun a => K0 a j))) =
  rsum m (fun i => lst i * lst i) - s * rsum m (fun i => fwd m Lm lst i * fwd m Lm lst i).
Proof.
  transitivity (rsum n (fun i => rsum n (fun j => rsum m (fun a => lst a * V a i) * Hi_ i j * rsum m (fun a => lst a * V a j)))).
  - apply rsum_ext. intros i Hi. apply rsum_ext. intros j Hj. rewrite !q_k. destruct (ep_sqrt i Hi) as [Pi _], (ep_sqrt j Hj) as [Pj _].
    rewrite (rsum_ext m (fun a => lst a * V a i) (fun a => lst a * V0 a i * / sqrt (ep i))) by (intros; unfold V; field; lra).
    rewrite (rsum_ext m (fun a => lst a * V a j) (fun a => lst a * V0 a j * / sqrt (ep j))) by (intros; unfold V; field; lra).
    rewrite !rsum_scal_r. unfold Hi_. field. lra.
  - rewrite push_apply.
    assert (Z : forall b, (b < m)%nat -> rsum n (fun j => V b j * rsum m (fun a => lst a * V a j)) = mvec m (MM n s V) lst b - s * lst b).
    { intros b Hb. unfold mvec, MM. rewrite (rsum_ext m _ (fun k0 => s * (delta b k0 * lst k0) + rsum n (fun j => V b j * (lst k0 * V k0 j)))).
      - rewrite rsum_plus, rsum_scal_l, delta_sum by auto. rewrite rsum_swap.
        rewrite (rsum_ext n (fun j => V b j * rsum m (fun a => lst a * V a j)) (fun j => rsum m (fun i => V b j * (lst i * V i j)))) by (intros; symmetry; apply rsum_scal_l). ring.
      - intros a _. rewrite Rmult_plus_distr_r, <- rsum_scal_r. f_equal; [ring|]. apply rsum_ext. intros; ring. }
    transitivity (rsum m (fun a => lst a * mvec m Mi (fun b => mvec m (MM n s V) lst b) a) - s * rsum m (fun a => rsum m (fun b => lst a * Mi a b * lst b))).
    + rewrite <- rsum_scal_l, <- rsum_minus. apply rsum_ext. intros a Ha. unfold mvec at 1. rewrite <- !rsum_scal_l, <- rsum_minus. apply rsum_ext. intros b Hb.
      rewrite Z by auto. ring.
    + rewrite (bilin_chol m Lm (MM n s V) Mi lst lst HLm Mi_inv). f_equal. apply rsum_ext. intros a Ha. f_equal. rewrite <- mvec_mmul.
      transitivity (mvec m delta lst a); [|unfold mvec; now apply delta_sum]. unfold mvec. apply rsum_ext. intros b Hb. now rewrite (proj2 Mi_inv).
Qed.
End Core.
