(** The determinant, by expansion along the first column, and its value for a Cholesky-factored matrix. *)
From Coq Require Import Reals List Bool Lia Lra.
From Verif Require Import LinAlgModel LinAlg.
Open Scope R_scope.

(** the [a]-th index different from [i] *)
Definition skip (i a : nat) : nat := if (a <? i)%nat then a else S a.
Fixpoint det (n : nat) (A : nat -> nat -> R) : R :=
  match n with
  | O => 1
  | S k => rsum (S k) (fun i => (-1) ^ i * A i O * det k (fun a b => A (skip i a) (S b)))
  end.

Lemma det_ext n : forall A B, meq n n A B -> det n A = det n B.
Proof.
  induction n as [|n IH]; intros A B H; [reflexivity|]. cbn [det]. apply rsum_ext. intros i Hi. rewrite (H i O) by lia. f_equal.
  apply IH. intros a b Ha Hb. apply H; [unfold skip; destruct (a <? i)%nat; lia|lia].
Qed.

(** index of [r] once [i] is removed *)
Lemma skip_inv i r n : (i < S n)%nat -> (r < S n)%nat -> i <> r -> exists r', (r' < n)%nat /\ skip i r' = r /\ forall a, (a < n)%nat -> a <> r' -> skip i a <> r.
Proof.
  intros Hi Hr H. unfold skip. destruct (Nat.lt_ge_cases r i).
  - exists r. split; [lia|]. destruct (Nat.ltb_spec r i); [|lia]. split; auto. intros a Ha Hn. destruct (Nat.ltb_spec a i); lia.
  - exists (r - 1)%nat. split; [lia|]. destruct (Nat.ltb_spec (r - 1) i); [lia|]. split; [lia|]. intros a Ha Hn. destruct (Nat.ltb_spec a i); lia.
Qed.
Lemma skip_other i a n : (i < S n)%nat -> (a < n)%nat -> skip i a <> i /\ (skip i a < S n)%nat.
Proof. intros. unfold skip. destruct (Nat.ltb_spec a i); lia. Qed.

(** linearity in row [r] *)
Lemma det_linear n : forall r A U V c d, (r < n)%nat ->
  (forall j, (j < n)%nat -> A r j = c * U r j + d * V r j) ->
  (forall i j, (i < n)%nat -> (j < n)%nat -> i <> r -> A i j = U i j /\ A i j = V i j) ->
  det n A = c * det n U + d * det n V.
Proof.
  induction n as [|n IH]; intros r A U V c d Hr Hrow Hoth; [lia|]. cbn [det]. rewrite <- !rsum_scal_l, <- rsum_plus.
  apply rsum_ext. intros i Hi. destruct (Nat.eq_dec i r) as [->|Hir].
  - rewrite Hrow by lia.
    rewrite (det_ext n (fun a b => A (skip r a) (S b)) (fun a b => U (skip r a) (S b))).
    2:{ intros a b Ha Hb. destruct (skip_other r a n Hr Ha). apply Hoth; auto; lia. }
    rewrite (det_ext n (fun a b => V (skip r a) (S b)) (fun a b => U (skip r a) (S b))).
    2:{ intros a b Ha Hb. destruct (skip_other r a n Hr Ha). destruct (Hoth (skip r a) (S b)) as [<- ->]; auto; lia. }
    ring.
  - destruct (Hoth i O Hi ltac:(lia) Hir) as [E1 E2].
    destruct (skip_inv i r n Hi Hr Hir) as (r' & Hr' & Er & Hn).
    rewrite (IH r' (fun a b => A (skip i a) (S b)) (fun a b => U (skip i a) (S b)) (fun a b => V (skip i a) (S b)) c d); auto.
    + rewrite E2 at 1. replace (V i O) with (A i O) by auto. replace (U i O) with (A i O) by auto. ring.
    + intros j Hj. rewrite Er. apply Hrow. lia.
    + intros a b Ha Hb Hab. destruct (skip_other i a n Hi Ha). apply Hoth; auto; lia.
Qed.

Lemma det_adjacent n : forall r A, (S r < n)%nat -> (forall j, (j < n)%nat -> A r j = A (S r) j) -> det n A = 0.
Proof.
  induction n as [|n IH]; intros r A Hr H; [lia|]. cbn [det].
  rewrite (rsum_ext _ _ (fun i => (if (i =? r)%nat then (-1) ^ i * A i O * det n (fun a b => A (skip i a) (S b)) else 0) +
                               (if (i =? S r)%nat then (-1) ^ i * A i O * det n (fun a b => A (skip i a) (S b)) else 0))).
  - rewrite rsum_plus. rewrite (rsum_delta (S n) r (fun i => (-1) ^ i * A i O * det n (fun a b => A (skip i a) (S b)))) by lia.
    rewrite (rsum_delta (S n) (S r) (fun i => (-1) ^ i * A i O * det n (fun a b => A (skip i a) (S b)))) by lia.
    rewrite (det_ext n (fun a b => A (skip (S r) a) (S b)) (fun a b => A (skip r a) (S b))).
    + rewrite <- (H O) by lia. cbn [pow]. ring.
    + intros a b Ha Hb. unfold skip. destruct (Nat.ltb_spec a (S r)), (Nat.ltb_spec a r); try lia; auto.
      replace a with r by lia. apply H. lia.
  - intros i Hi. destruct (Nat.eqb_spec i r) as [->|]; [destruct (Nat.eqb_spec r (S r)); [lia|ring]|].
    destruct (Nat.eqb_spec i (S r)) as [->|]; [ring|].
    rewrite (IH (if (r <? i)%nat then r else (r - 1)%nat)); [ring|destruct (Nat.ltb_spec r i); lia|].
    intros j Hj. unfold skip. destruct (Nat.ltb_spec r i).
    + destruct (Nat.ltb_spec r i); [|lia]. destruct (Nat.ltb_spec (S r) i); [|lia]. apply H. lia.
    + destruct (Nat.ltb_spec (r - 1) i); [lia|]. destruct (Nat.ltb_spec (S (r - 1)) i); [lia|].
      replace (S (r - 1)) with r by lia. apply H. lia.
Qed.

Definition setrow (A : nat -> nat -> R) (r : nat) (v : nat -> R) : nat -> nat -> R := fun i j => if (i =? r)%nat then v j else A i j.
Lemma det_setrow n A r u v c d : (r < n)%nat ->
  det n (setrow A r (fun j => c * u j + d * v j)) = c * det n (setrow A r u) + d * det n (setrow A r v).
Proof.
  intro H. apply (det_linear n r); auto.
  - intros j _. unfold setrow. now rewrite Nat.eqb_refl.
  - intros i j _ _ Hi. unfold setrow. destruct (Nat.eqb_spec i r); [lia|auto].
Qed.
(** exchanging two adjacent rows *)
Lemma det_swap n A r : (S r < n)%nat ->
  det n (setrow (setrow A r (A (S r))) (S r) (A r)) = - det n A.
Proof.
  intro H. set (f := fun u v => setrow (setrow A r u) (S r) v).
  assert (Z : forall u, det n (f u u) = 0).
  { intro u. apply (det_adjacent n r); auto. intros j _. unfold f, setrow. rewrite Nat.eqb_refl.
    destruct (Nat.eqb_spec r (S r)); [lia|]. now rewrite Nat.eqb_refl. }
  assert (E2 : forall u v w c d, det n (f u (fun j => c * v j + d * w j)) = c * det n (f u v) + d * det n (f u w)).
  { intros. unfold f. now rewrite det_setrow. }
  assert (C : forall u v, meq n n (f u v) (setrow (setrow A (S r) v) r u)).
  { intros u v i j _ _. unfold f, setrow. destruct (Nat.eqb_spec i (S r)), (Nat.eqb_spec i r); try lia; auto. }
  assert (E1 : forall u v w c d, det n (f (fun j => c * u j + d * v j) w) = c * det n (f u w) + d * det n (f v w)).
  { intros. rewrite (det_ext n _ _ (C _ _)), (det_ext n _ _ (C u w)), (det_ext n _ _ (C v w)). apply det_setrow. lia. }
  pose proof (Z (fun j => 1 * A r j + 1 * A (S r) j)) as Q. rewrite E1, !E2, !Z in Q.
  assert (F : det n (f (A r) (A (S r))) = det n A).
  { apply det_ext. intros i j _ _. unfold f, setrow. destruct (Nat.eqb_spec i (S r)) as [->|]; auto. destruct (Nat.eqb_spec i r) as [->|]; auto. }
  rewrite F in Q. fold (f (A (S r)) (A r)). lra.
Qed.
Lemma det_equal_rows n d : forall r A, (r + S d < n)%nat -> (forall j, (j < n)%nat -> A r j = A (r + S d)%nat j) -> det n A = 0.
Proof.
  induction d as [|d IH]; intros r A Hr H.
  - apply (det_adjacent n r); [lia|]. intros j Hj. rewrite H by auto. f_equal. lia.
  - pose proof (det_swap n A r ltac:(lia)) as E. rewrite (IH (S r)) in E; [lra|lia|].
    intros j Hj. unfold setrow. rewrite Nat.eqb_refl. destruct (Nat.eqb_spec (S r + S d) (S r)); [lia|].
    destruct (Nat.eqb_spec (S r + S d) r); [lia|]. rewrite H by auto. f_equal. lia.
Qed.
Lemma det_two_rows n A r s : (r < n)%nat -> (s < n)%nat -> r <> s -> (forall j, (j < n)%nat -> A r j = A s j) -> det n A = 0.
Proof.
  intros Hr Hs Hn H. destruct (Nat.lt_ge_cases r s).
  - apply (det_equal_rows n (s - r - 1) r); [lia|]. intros j Hj. rewrite H by auto. f_equal. lia.
  - apply (det_equal_rows n (r - s - 1) s); [lia|]. intros j Hj. rewrite <- H by auto. f_equal. lia.
Qed.
Lemma det_setrow_sum n A r m (u : nat -> nat -> R) (c : nat -> R) : (r < n)%nat ->
  det n (setrow A r (fun j => rsum m (fun k => c k * u k j))) = rsum m (fun k => c k * det n (setrow A r (u k))).
Proof.
  intro H. induction m as [|m IH]; cbn [rsum].
  - rewrite <- (Rmult_0_l (det n A)). transitivity (0 * det n A + 0 * det n A); [|ring]. apply (det_linear n r); auto.
    + intros j _. unfold setrow. rewrite Nat.eqb_refl. ring.
    + intros i j _ _ Hi. unfold setrow. destruct (Nat.eqb_spec i r); [lia|auto].
  - rewrite <- IH. rewrite (det_ext n _ (setrow A r (fun j => 1 * rsum m (fun k => c k * u k j) + c m * u m j))).
    + rewrite det_setrow by auto. ring.
    + intros i j _ _. unfold setrow. destruct (i =? r)%nat; auto. ring.
Qed.

Fixpoint prod_diag (n : nat) (L : nat -> nat -> R) : R := match n with O => 1 | S k => prod_diag k L * L k k end.
(** [det (L A) = (prod L_ii) det A] for a lower triangular [L] *)
Lemma det_lower_mul n L A : (forall i j, (i < n)%nat -> (j < n)%nat -> (i < j)%nat -> L i j = 0) ->
  det n (mmul n L A) = prod_diag n L * det n A.
Proof.
  intro HL. set (P := fun j i b => if (i <? j)%nat then A i b else mmul n L A i b).
  assert (X : forall j, (j <= n)%nat -> det n (P O) = prod_diag j L * det n (P j)).
  { induction j as [|j IH]; intro Hj; cbn [prod_diag]; [ring|]. rewrite IH by lia. rewrite Rmult_assoc. f_equal.
    rewrite (det_ext n (P j) (setrow (P (S j)) j (fun b => rsum n (fun k => L j k * A k b)))).
    - rewrite det_setrow_sum by lia. rewrite (rsum_ext n _ (fun k => if (k =? j)%nat then L j k * det n (P (S j)) else 0)).
      + rewrite (rsum_delta n j (fun k => L j k * det n (P (S j)))) by lia. reflexivity.
      + intros k Hk. destruct (Nat.eqb_spec k j) as [->|Hkj].
        * f_equal. apply det_ext. intros i b _ _. unfold setrow, P. destruct (Nat.eqb_spec i j) as [->|]; auto.
          destruct (Nat.ltb_spec j (S j)); [auto|lia].
        * destruct (Nat.lt_ge_cases k j).
          -- rewrite (det_two_rows n _ k j); auto; [ring|]. intros b _. unfold setrow, P. rewrite Nat.eqb_refl.
             destruct (Nat.eqb_spec k j); [lia|]. destruct (Nat.ltb_spec k (S j)); [auto|lia].
          -- rewrite HL by lia. ring.
    - intros i b Hi Hb. unfold setrow, P. destruct (Nat.eqb_spec i j) as [->|].
      + rewrite Nat.ltb_irrefl. reflexivity.
      + destruct (Nat.ltb_spec i j), (Nat.ltb_spec i (S j)); try lia; auto. }
  rewrite <- (det_ext n (P n) A).
  - rewrite <- X by lia. apply det_ext. intros i b _ _. reflexivity.
  - intros i b Hi _. unfold P. destruct (Nat.ltb_spec i n); [auto|lia].
Qed.
Lemma prod_diag_first n L : prod_diag (S n) L = L O O * prod_diag n (fun i j => L (S i) (S j)).
Proof. induction n as [|n IH]; cbn [prod_diag] in *; [ring|]. rewrite IH. ring. Qed.
Lemma det_upper n : forall U, (forall i j, (i < n)%nat -> (j < n)%nat -> (j < i)%nat -> U i j = 0) -> det n U = prod_diag n U.
Proof.
  induction n as [|n IH]; intros U HU; [reflexivity|]. rewrite prod_diag_first. cbn [det]. rewrite rsum_S_first. rewrite rsum_0.
  - cbn [pow]. rewrite (IH (fun a b => U (skip 0 a) (S b))).
    + unfold skip. cbn [Nat.ltb Nat.leb]. ring.
    + intros i j Hi Hj Hij. unfold skip. cbn [Nat.ltb Nat.leb]. apply HU; lia.
  - intros i Hi. rewrite HU by lia. ring.
Qed.
Lemma det_chol n L K : is_chol n L K -> det n K = prod_diag n L * prod_diag n L.
Proof.
  intros [[Hu Hd] Hf]. rewrite <- (det_ext n (mmul n L (fun i j => L j i)) K).
  - rewrite det_lower_mul by auto. f_equal. rewrite det_upper by (intros; apply Hu; lia).
    clear. induction n; cbn [prod_diag]; auto. now rewrite IHn.
  - intros i j Hi Hj. rewrite <- Hf by auto. reflexivity.
Qed.
Lemma prod_diag_pos n L : (forall i, (i < n)%nat -> 0 < L i i) -> 0 < prod_diag n L /\ ln (prod_diag n L) = rsum n (fun i => ln (L i i)).
Proof.
  intro H. induction n as [|n IH]; cbn [prod_diag rsum]; [split; [lra|apply ln_1]|].
  destruct IH as [P E]; [intros; apply H; lia|]. specialize (H n ltac:(lia)). split; [now apply Rmult_lt_0_compat|].
  rewrite ln_mult by auto. now rewrite E.
Qed.
(** the logarithm of the determinant *)
Lemma logdet_chol n L K : is_chol n L K -> 0 < det n K /\ ln (det n K) = 2 * rsum n (fun i => ln (L i i)).
Proof.
  intro H. rewrite (det_chol n L K H). destruct (prod_diag_pos n L (proj2 (proj1 H))) as [P E]. split; [nra|].
  rewrite ln_mult by auto. rewrite E. ring.
Qed.
