(** Facts about the linear algebra of LinAlgModel. *)
From Coq Require Import Reals List Bool Lia Lra Permutation FinFun.
From Verif Require Import LinAlgModel.
Import ListNotations.
Open Scope R_scope.

(** * Sums *)
Lemma rsum_ext n f g : (forall i, (i < n)%nat -> f i = g i) -> rsum n f = rsum n g.
Proof. induction n; intro H; simpl; auto. rewrite IHn, H; auto. Qed.
Lemma rsum_0 n f : (forall i, (i < n)%nat -> f i = 0) -> rsum n f = 0.
Proof. induction n; intro H; simpl; auto. rewrite IHn, H; auto. lra. Qed.
Lemma rsum_plus n f g : rsum n (fun i => f i + g i) = rsum n f + rsum n g.
Proof. induction n; simpl; [lra|]. rewrite IHn. lra. Qed.
Lemma rsum_minus n f g : rsum n (fun i => f i - g i) = rsum n f - rsum n g.
Proof. induction n; simpl; [lra|]. rewrite IHn. lra. Qed.
Lemma rsum_opp n f : rsum n (fun i => - f i) = - rsum n f.
Proof. induction n; simpl; [lra|]. rewrite IHn. lra. Qed.
Lemma rsum_scal_l n c f : rsum n (fun i => c * f i) = c * rsum n f.
Proof. induction n; simpl; [lra|]. rewrite IHn. lra. Qed.
Lemma rsum_scal_r n c f : rsum n (fun i => f i * c) = rsum n f * c.
Proof. induction n; simpl; [lra|]. rewrite IHn. lra. Qed.
Lemma rsum_const n c : rsum n (fun _ => c) = INR n * c.
Proof. induction n; [simpl; lra|]. rewrite S_INR. simpl. rewrite IHn. lra. Qed.
Lemma rsum_le n f g : (forall i, (i < n)%nat -> f i <= g i) -> rsum n f <= rsum n g.
Proof. induction n; intro H; simpl; [lra|]. apply Rplus_le_compat; auto. Qed.
Lemma rsum_nonneg n f : (forall i, (i < n)%nat -> 0 <= f i) -> 0 <= rsum n f.
Proof. induction n; intro H; simpl; [lra|]. apply Rplus_le_le_0_compat; auto. Qed.
Lemma rsum_swap n m f : rsum n (fun i => rsum m (fun j => f i j)) = rsum m (fun j => rsum n (fun i => f i j)).
Proof.
  induction n; simpl.
  - symmetry. now apply rsum_0.
  - rewrite IHn, <- rsum_plus. reflexivity.
Qed.
Lemma rsum_split n m f : rsum (n + m) f = rsum n f + rsum m (fun i => f (n + i)%nat).
Proof. induction m; simpl; [rewrite Nat.add_0_r; lra|]. rewrite Nat.add_succ_r. simpl. rewrite IHm. lra. Qed.
Lemma rsum_S_first n f : rsum (S n) f = f O + rsum n (fun i => f (S i)).
Proof. change (S n) with (1 + n)%nat. rewrite (rsum_split 1 n f). simpl. lra. Qed.
(** terms after [m] vanish *)
Lemma rsum_trunc n m f : (m <= n)%nat -> (forall i, (m <= i < n)%nat -> f i = 0) -> rsum n f = rsum m f.
Proof.
  intros Hm H. replace n with (m + (n - m))%nat by lia. rewrite rsum_split.
  rewrite (rsum_0 (n - m)); [lra|]. intros; apply H; lia.
Qed.
Lemma rsum_delta n k f : (k < n)%nat -> rsum n (fun i => if (i =? k)%nat then f i else 0) = f k.
Proof.
  induction n; intro H; [lia|]. simpl. destruct (Nat.eqb_spec n k) as [->|Hne].
  - rewrite rsum_0; [lra|]. intros i Hi. destruct (Nat.eqb_spec i k); auto; lia.
  - rewrite IHn by lia. lra.
Qed.
Lemma rsum_delta' n k f : (k < n)%nat -> rsum n (fun i => if (k =? i)%nat then f i else 0) = f k.
Proof.
  intro H. rewrite <- (rsum_delta n k f H). apply rsum_ext. intros i _. now rewrite Nat.eqb_sym.
Qed.
Lemma rsum_sq_0 n f : rsum n (fun i => f i * f i) = 0 -> forall i, (i < n)%nat -> f i = 0.
Proof.
  induction n; intros H i Hi; [lia|]. simpl in H.
  assert (0 <= rsum n (fun i => f i * f i)) by (apply rsum_nonneg; intros; nra).
  assert (0 <= f n * f n) by nra.
  destruct (Nat.eq_dec i n) as [->|]; [nra|]. apply IHn; [lra|lia].
Qed.
Lemma rsum_list n f : rsum n f = fold_right Rplus 0 (map f (seq 0 n)).
Proof.
  induction n; auto. rewrite seq_S, map_app, fold_right_app. simpl. rewrite IHn.
  generalize (map f (seq 0 n)). clear. induction l; simpl; lra.
Qed.
Lemma fold_right_Rplus_perm l l' : Permutation l l' -> fold_right Rplus 0 l = fold_right Rplus 0 l'.
Proof. induction 1; simpl; lra. Qed.
(** sums do not depend on the order *)
Lemma rsum_reindex n s f :
  (forall i, (i < n)%nat -> (s i < n)%nat) ->
  (forall i j, (i < n)%nat -> (j < n)%nat -> s i = s j -> i = j) ->
  rsum n (fun i => f (s i)) = rsum n f.
Proof.
  intros Hb Hi. rewrite !rsum_list. rewrite <- (map_map s f). apply fold_right_Rplus_perm, Permutation_map.
  apply NoDup_Permutation_bis.
  - apply NoDup_nth with (d := O). rewrite map_length, seq_length. intros i j H1 H2 E.
    rewrite !(nth_indep _ O (s O)) in E by (rewrite map_length, seq_length; auto).
    rewrite !map_nth, !seq_nth in E by auto. now apply Hi.
  - rewrite map_length. auto.
  - intros x Hx. apply in_map_iff in Hx. destruct Hx as (y & <- & Hy). apply in_seq in Hy. apply in_seq. 
    specialize (Hb y). lia.
Qed.

(** * Matrices *)
Definition delta (i j : nat) : R := if (i =? j)%nat then 1 else 0.
Definition mmul (n : nat) (A B : nat -> nat -> R) : nat -> nat -> R := fun i j => rsum n (fun k => A i k * B k j).
Definition mvec (n : nat) (A : nat -> nat -> R) (x : nat -> R) : nat -> R := fun i => rsum n (fun k => A i k * x k).
Definition meq (n m : nat) (A B : nat -> nat -> R) : Prop := forall i j, (i < n)%nat -> (j < m)%nat -> A i j = B i j.
Definition veq (n : nat) (x y : nat -> R) : Prop := forall i, (i < n)%nat -> x i = y i.
Definition symm (n : nat) (A : nat -> nat -> R) : Prop := forall i j, (i < n)%nat -> (j < n)%nat -> A i j = A j i.
Definition quad (n : nat) (A : nat -> nat -> R) (c : nat -> R) : R :=
  rsum n (fun i => rsum n (fun j => c i * c j * A i j)).
Definition psd (n : nat) (A : nat -> nat -> R) : Prop := forall c, 0 <= quad n A c.
Definition pd (n : nat) (A : nat -> nat -> R) : Prop :=
  forall c, (exists i, (i < n)%nat /\ c i <> 0) -> 0 < quad n A c.
(** lower triangular with a positive diagonal *)
Definition lower (n : nat) (L : nat -> nat -> R) : Prop :=
  (forall i j, (i < n)%nat -> (j < n)%nat -> (i < j)%nat -> L i j = 0) /\ (forall i, (i < n)%nat -> 0 < L i i).
(** [L L^T = K] *)
Definition factors (n : nat) (L K : nat -> nat -> R) : Prop :=
  forall i j, (i < n)%nat -> (j < n)%nat -> rsum n (fun k => L i k * L j k) = K i j.
Definition is_chol (n : nat) (L K : nat -> nat -> R) : Prop := lower n L /\ factors n L K.
Definition is_inv (n : nat) (A B : nat -> nat -> R) : Prop :=
  meq n n (mmul n A B) delta /\ meq n n (mmul n B A) delta.

Lemma delta_sum n i f : (i < n)%nat -> rsum n (fun k => delta i k * f k) = f i.
Proof.
  intro H. rewrite <- (rsum_delta' n i f H). apply rsum_ext. intros k _. unfold delta.
  destruct (i =? k)%nat; lra.
Qed.
Lemma delta_sum' n i f : (i < n)%nat -> rsum n (fun k => f k * delta k i) = f i.
Proof.
  intro H. rewrite <- (rsum_delta n i f H). apply rsum_ext. intros k _. unfold delta.
  destruct (k =? i)%nat; lra.
Qed.
Lemma delta_sym i j : delta i j = delta j i.
Proof. unfold delta. now rewrite Nat.eqb_sym. Qed.

Lemma mmul_assoc n A B C i j : mmul n (mmul n A B) C i j = mmul n A (mmul n B C) i j.
Proof.
  unfold mmul. transitivity (rsum n (fun k => rsum n (fun m => A i m * B m k * C k j))).
  - apply rsum_ext. intros k _. now rewrite <- rsum_scal_r.
  - rewrite rsum_swap. apply rsum_ext. intros m _. rewrite <- rsum_scal_l. apply rsum_ext. intros k _. lra.
Qed.
Lemma mvec_mmul n A B x i : mvec n (mmul n A B) x i = mvec n A (mvec n B x) i.
Proof.
  unfold mvec, mmul. transitivity (rsum n (fun k => rsum n (fun m => A i m * B m k * x k))).
  - apply rsum_ext. intros k _. now rewrite <- rsum_scal_r.
  - rewrite rsum_swap. apply rsum_ext. intros m _. rewrite <- rsum_scal_l. apply rsum_ext. intros k _. lra.
Qed.

Lemma quad_mvec n A c : quad n A c = rsum n (fun i => c i * mvec n A c i).
Proof.
  unfold quad, mvec. apply rsum_ext. intros i _. rewrite <- rsum_scal_l. apply rsum_ext. intros j _. lra.
Qed.
Lemma quad_ext n A B c d : meq n n A B -> veq n c d -> quad n A c = quad n B d.
Proof.
  intros H Hc. apply rsum_ext. intros i Hi. apply rsum_ext. intros j Hj. rewrite H, !Hc; auto.
Qed.
Lemma psd_ext n A B : meq n n A B -> psd n A -> psd n B.
Proof. intros H P c. rewrite <- (quad_ext n A B c c H); [apply P|now intros ? ?]. Qed.
Lemma pd_ext n A B : meq n n A B -> pd n A -> pd n B.
Proof. intros H P c Hc. rewrite <- (quad_ext n A B c c H); [now apply P|now intros ? ?]. Qed.

Lemma psd_plus n A B : psd n A -> psd n B -> psd n (fun i j => A i j + B i j).
Proof.
  intros HA HB c. replace (quad n (fun i j => A i j + B i j) c) with (quad n A c + quad n B c).
  - specialize (HA c); specialize (HB c); lra.
  - unfold quad. rewrite <- rsum_plus. apply rsum_ext. intros i _. rewrite <- rsum_plus.
    apply rsum_ext. intros j _. lra.
Qed.
Lemma psd_scal n a A : 0 <= a -> psd n A -> psd n (fun i j => a * A i j).
Proof.
  intros Ha HA c. replace (quad n (fun i j => a * A i j) c) with (a * quad n A c).
  - apply Rmult_le_pos; auto.
  - unfold quad. rewrite <- rsum_scal_l. apply rsum_ext. intros i _. rewrite <- rsum_scal_l.
    apply rsum_ext. intros j _. lra.
Qed.
(** adding a positive multiple of the identity *)
Lemma psd_noise_pd n a A : 0 < a -> psd n A -> pd n (fun i j => A i j + (if (i =? j)%nat then a else 0)).
Proof.
  intros Ha HA c (i & Hi & Hc).
  replace (quad n _ c) with (quad n A c + a * rsum n (fun i => c i * c i)).
  - specialize (HA c).
    assert (0 <= rsum n (fun i => c i * c i)) by (apply rsum_nonneg; intros; nra).
    assert (rsum n (fun i => c i * c i) <> 0) by (intro E; apply Hc; eapply rsum_sq_0; eauto).
    nra.
  - unfold quad. rewrite <- rsum_scal_l, <- rsum_plus. apply rsum_ext. intros k Hk.
    rewrite (rsum_ext n (fun j => c k * c j * (A k j + (if (k =? j)%nat then a else 0)))
                        (fun j => c k * c j * A k j + (if (k =? j)%nat then c k * c j * a else 0))).
    + rewrite rsum_plus, rsum_delta' by auto. lra.
    + intros j _. destruct (k =? j)%nat; lra.
Qed.
Lemma pd_minor n m A : (m <= n)%nat -> pd n A -> pd m A.
Proof.
  intros Hm H c (i & Hi & Hc).
  set (d := fun j => if (j <? m)%nat then c j else 0).
  assert (E : quad n A d = quad m A c).
  { unfold quad, d. rewrite (rsum_trunc n m); auto.
    - apply rsum_ext. intros k Hk. rewrite (rsum_trunc n m); auto.
      + apply rsum_ext. intros j Hj. apply Nat.ltb_lt in Hk, Hj. now rewrite Hk, Hj.
      + intros j Hj. replace (j <? m)%nat with false; [lra|]. symmetry. apply Nat.ltb_ge. lia.
    - intros k Hk. apply rsum_0. intros j Hj. replace (k <? m)%nat with false; [lra|]. symmetry. apply Nat.ltb_ge. lia. }
  rewrite <- E. apply H. exists i. split; [lia|]. unfold d. apply Nat.ltb_lt in Hi. now rewrite Hi.
Qed.
Lemma pd_diag n A i : (i < n)%nat -> pd n A -> 0 < A i i.
Proof.
  intros Hi H. assert (E : quad n A (delta i) = A i i).
  { rewrite quad_mvec. rewrite (delta_sum n i) by auto.
    unfold mvec. rewrite (rsum_ext n _ (fun k => A i k * delta k i)).
    - now apply delta_sum'.
    - intros; now rewrite (delta_sym i). }
  rewrite <- E. apply H. exists i. split; auto. unfold delta. rewrite Nat.eqb_refl. lra.
Qed.
Lemma pd_injective n A x : pd n A -> veq n (mvec n A x) (fun _ => 0) -> veq n x (fun _ => 0).
Proof.
  intros H E i Hi. destruct (Req_dec (x i) 0) as [|Hx]; auto. exfalso.
  assert (Q : 0 < quad n A x) by (apply H; eauto).
  rewrite quad_mvec, rsum_0 in Q; [lra|]. intros j Hj. rewrite (E j Hj). lra.
Qed.
(** a system with a positive definite matrix has at most one solution *)
Lemma pd_unique n A x y : pd n A -> veq n (mvec n A x) (mvec n A y) -> veq n x y.
Proof.
  intros H E i Hi. assert (x i - y i = 0); [|lra].
  apply (pd_injective n A (fun k => x k - y k) H); auto.
  intros j Hj. unfold mvec. transitivity (mvec n A x j - mvec n A y j); [|rewrite (E j Hj); lra].
  unfold mvec. rewrite <- rsum_minus. apply rsum_ext. intros; lra.
Qed.

(** * Triangular solves *)
Lemma upd_same x i v : upd x i v i = v. Proof. unfold upd. now rewrite Nat.eqb_refl. Qed.
Lemma upd_other x i v j : j <> i -> upd x i v j = x j.
Proof. intro H. unfold upd. destruct (Nat.eqb_spec j i); auto; contradiction. Qed.

Lemma diag_ok_spec n L : diag_ok n L = true <-> forall i, (i < n)%nat -> L i i <> 0.
Proof.
  induction n; simpl; [split; [intros _ i Hi; lia|auto]|].
  rewrite andb_true_iff, IHn. destruct (Req_EM_T (L n n) 0) as [E|E]; split; intro H.
  - destruct H; discriminate.
  - exfalso. apply (H n); auto.
  - intros i Hi. destruct (Nat.eq_dec i n) as [->|]; auto. apply H. lia.
  - split; auto.
Qed.
Lemma lower_diag_ok n L : lower n L -> diag_ok n L = true.
Proof. intros [_ H]. apply diag_ok_spec. intros i Hi. specialize (H i Hi). lra. Qed.

Lemma fwd_stable n m L b i : (i < n)%nat -> (n <= m)%nat -> fwd m L b i = fwd n L b i.
Proof.
  intros Hi. induction m; intro H; [lia|]. destruct (Nat.eq_dec n (S m)) as [->|]; auto.
  simpl. rewrite upd_other by lia. apply IHm. lia.
Qed.
Lemma fwd_eq n L b i : (i < n)%nat -> fwd n L b i = (b i - rsum i (fun j => L i j * fwd n L b j)) / L i i.
Proof.
  intros Hi. rewrite (fwd_stable (S i) n) by lia. cbn [fwd]. rewrite upd_same. f_equal. f_equal.
  apply rsum_ext. intros j Hj. rewrite (fwd_stable i n) by lia. reflexivity.
Qed.
Lemma fwd_solves n L b : lower n L -> veq n (mvec n L (fwd n L b)) b.
Proof.
  intros [Hu Hd] i Hi. unfold mvec. rewrite (rsum_trunc n (S i)) by (try lia; intros k Hk; rewrite Hu by lia; lra).
  simpl. rewrite (fwd_eq n L b i Hi) at 1. specialize (Hd i Hi).
  replace (rsum i (fun k => L i k * fwd n L b k) + L i i * ((b i - rsum i (fun j => L i j * fwd n L b j)) / L i i))
    with (b i); auto. field. lra.
Qed.
Lemma fwd_ext n L M b c : (forall i j, (i < n)%nat -> (j <= i)%nat -> L i j = M i j) -> veq n b c ->
  veq n (fwd n L b) (fwd n M c).
Proof.
  intros HL Hb. assert (G : forall m, (m <= n)%nat -> forall i, (i < m)%nat -> fwd m L b i = fwd m M c i).
  { induction m; intros Hm i Hi; [lia|]. simpl. unfold upd. destruct (Nat.eqb_spec i m) as [->|].
    - rewrite (HL m m) by lia. rewrite Hb by lia. f_equal. f_equal. apply rsum_ext. intros j Hj.
      rewrite HL by lia. rewrite IHm by lia. reflexivity.
    - apply IHm; lia. }
  intros i Hi. now apply G.
Qed.

Lemma bwd_from_stable n k m L b i : (n - 1 - k < i)%nat -> (i < n)%nat -> (k < n)%nat -> (k <= m)%nat -> (m <= n)%nat ->
  bwd_from n m L b i = bwd_from n k L b i.
Proof.
  intros Hi Hin Hk. induction m; intros H Hm; [replace k with O by lia; auto|].
  destruct (Nat.eq_dec k (S m)) as [->|]; auto.
  cbn [bwd_from]. rewrite upd_other by lia. apply IHm; lia.
Qed.
Lemma bwd_eq n L b i : (i < n)%nat ->
  bwd n L b i = (b i - rsum n (fun j => if (i <? j)%nat then L j i * bwd n L b j else 0)) / L i i.
Proof.
  intros Hi. unfold bwd.
  assert (E : bwd_from n n L b i = bwd_from n (n - i) L b i).
  { destruct (Nat.eq_dec i 0) as [->|]; [now rewrite Nat.sub_0_r|]. apply bwd_from_stable; lia. }
  rewrite E. replace (n - i)%nat with (S (n - 1 - i)) by lia. cbn [bwd_from].
  replace (n - 1 - (n - 1 - i))%nat with i by lia. rewrite upd_same. f_equal. f_equal.
  apply rsum_ext. intros j Hj. destruct (Nat.ltb_spec i j); auto. f_equal.
  symmetry. apply bwd_from_stable; lia.
Qed.
Lemma bwd_solves n L b : lower n L -> veq n (fun i => rsum n (fun k => L k i * bwd n L b k)) b.
Proof.
  intros [Hu Hd] i Hi. specialize (Hd i Hi).
  rewrite (rsum_ext n _ (fun k => (if (k =? i)%nat then L k i * bwd n L b k else 0) + (if (i <? k)%nat then L k i * bwd n L b k else 0))).
  - rewrite rsum_plus. rewrite (rsum_delta n i (fun k => L k i * bwd n L b k)) by auto.
    rewrite (bwd_eq n L b i Hi) at 1. field. lra.
  - intros k Hk. destruct (Nat.eqb_spec k i) as [->|].
    + rewrite Nat.ltb_irrefl. lra.
    + destruct (Nat.ltb_spec i k); [lra|]. rewrite Hu by lia. lra.
Qed.
Lemma bwd_ext n L M b c : (forall i j, (i < n)%nat -> (j <= i)%nat -> L i j = M i j) -> veq n b c ->
  veq n (bwd n L b) (bwd n M c).
Proof.
  intros HL Hb. assert (G : forall k, (k <= n)%nat -> forall i, (i < n)%nat -> bwd_from n k L b i = bwd_from n k M c i).
  { induction k; intros Hk i Hi; auto. cbn [bwd_from]. unfold upd.
    destruct (Nat.eqb_spec i (n - 1 - k)) as [->|].
    - rewrite HL by lia. rewrite Hb by lia. f_equal. f_equal. apply rsum_ext. intros j Hj.
      destruct (Nat.ltb_spec (n - 1 - k) j); auto. rewrite HL by lia. rewrite IHk by lia. reflexivity.
    - apply IHk; lia. }
  intros i Hi. apply G; auto.
Qed.

(** solving with both factors solves the system *)
Lemma solve_both n L K b : is_chol n L K -> veq n (mvec n K (bwd n L (fwd n L b))) b.
Proof.
  intros [Hl Hf] i Hi. set (x := bwd n L (fwd n L b)).
  transitivity (mvec n L (fwd n L b) i); [|now apply fwd_solves].
  unfold mvec. transitivity (rsum n (fun k => rsum n (fun m => L i m * L k m * x k))).
  - apply rsum_ext. intros k Hk. rewrite <- (Hf i k Hi Hk). now rewrite <- rsum_scal_r.
  - rewrite rsum_swap. apply rsum_ext. intros m Hm. rewrite <- (bwd_solves n L (fwd n L b) Hl m Hm).
    fold x. rewrite <- rsum_scal_l. apply rsum_ext. intros; lra.
Qed.

(** * Cholesky *)
Lemma is_chol_eqs n L K : is_chol n L K ->
  forall i j, (i < n)%nat -> (j < i)%nat -> L j j * L j j = K j j - rsum j (fun m => L j m * L j m) /\
    L i j * L j j = K i j - rsum j (fun m => L i m * L j m).
Proof.
  intros [[Hu Hd] Hf] i j Hi Hj.
  assert (G : forall a, (a < n)%nat -> (j <= a)%nat -> L a j * L j j = K a j - rsum j (fun m => L a m * L j m)).
  { intros a Ha Hja. rewrite <- (Hf a j) by lia. rewrite (rsum_trunc n (S j)); [simpl; lra|lia|].
    intros k Hk. rewrite (Hu j k) by lia. lra. }
  split; apply G; lia.
Qed.
Lemma is_chol_diag n L K : is_chol n L K ->
  forall j, (j < n)%nat -> L j j * L j j = K j j - rsum j (fun m => L j m * L j m).
Proof.
  intros [[Hu Hd] Hf] j Hj. rewrite <- (Hf j j) by lia. rewrite (rsum_trunc n (S j)); [simpl; lra|lia|].
  intros k Hk. rewrite (Hu j k) by lia. lra.
Qed.

(** there is at most one Cholesky factor *)
Lemma chol_unique n L M K : is_chol n L K -> is_chol n M K -> meq n n L M.
Proof.
  intros HL HM. pose proof HL as [[Lu Ld] _]. pose proof HM as [[Mu Md] _].
  assert (G : forall j i, (j < n)%nat -> (i < n)%nat -> L i j = M i j).
  { induction j as [j IH] using (well_founded_induction lt_wf). intros i Hj Hi.
    assert (D : L j j = M j j).
    { pose proof (is_chol_diag n L K HL j Hj) as E1. pose proof (is_chol_diag n M K HM j Hj) as E2.
      rewrite (rsum_ext j _ (fun m => M j m * M j m)) in E1 by (intros m Hm; rewrite !IH by lia; reflexivity).
      assert (L j j * L j j = M j j * M j j) by lra.
      specialize (Ld j Hj); specialize (Md j Hj). nra. }
    destruct (lt_eq_lt_dec i j) as [[Hlt| ->]|Hgt]; auto.
    - rewrite Lu, Mu; auto.
    - destruct (is_chol_eqs n L K HL i j Hi Hgt) as [_ E1]. destruct (is_chol_eqs n M K HM i j Hi Hgt) as [_ E2].
      rewrite (rsum_ext j _ (fun m => M i m * M j m)) in E1 by (intros m Hm; rewrite !IH by lia; reflexivity).
      rewrite <- E2, D in E1. specialize (Md j Hj). apply Rmult_eq_reg_r with (M j j); lra. }
  intros i j Hi Hj. now apply G.
Qed.

(** what [chol] computes, for rows of any index [i] *)
Lemma chol_inv k K L : chol k K = Some L ->
  (forall i j, (k <= j)%nat -> L i j = 0) /\
  (forall i j, (j < k)%nat -> (i < j)%nat -> L i j = 0) /\
  (forall j, (j < k)%nat -> 0 < L j j) /\
  (forall i j, (j < k)%nat -> (j <= i)%nat -> rsum j (fun m => L i m * L j m) + L i j * L j j = K i j).
Proof.
  revert L. induction k as [|c IH]; intros L E.
  - inversion E; subst. repeat split; auto; intros; lia.
  - cbn [chol] in E. destruct (chol c K) as [L0|] eqn:E0; [|discriminate].
    destruct (IH L0 eq_refl) as (H1 & H2 & H3 & H4). clear IH.
    set (x := K c c - rsum c (fun m => L0 c m * L0 c m)) in *.
    destruct (Rle_dec x 0) as [|Hx]; [discriminate|]. apply Rnot_le_lt in Hx.
    injection E as EL.
    assert (Hs : 0 < sqrt x) by now apply sqrt_lt_R0.
    assert (Old : forall i j, j <> c -> L i j = L0 i j).
    { intros i j Hj. rewrite <- EL. destruct (Nat.eqb_spec j c); auto; contradiction. }
    assert (Dc : L c c = sqrt x) by (rewrite <- EL, !Nat.eqb_refl; reflexivity).
    assert (Lc : forall i, (c < i)%nat -> L i c = (K i c - rsum c (fun m => L0 i m * L0 c m)) / sqrt x).
    { intros i Hi. rewrite <- EL, Nat.eqb_refl. destruct (Nat.eqb_spec i c); [lia|].
      apply Nat.ltb_lt in Hi. now rewrite Hi. }
    repeat split.
    + intros i j Hj. rewrite Old by lia. apply H1. lia.
    + intros i j Hj Hij. destruct (Nat.eq_dec j c) as [->|].
      * rewrite <- EL, Nat.eqb_refl. destruct (Nat.eqb_spec i c); [lia|]. destruct (Nat.ltb_spec c i); auto; lia.
      * rewrite Old by auto. apply H2; lia.
    + intros j Hj. destruct (Nat.eq_dec j c) as [->|]; [lra|]. rewrite Old by auto. apply H3. lia.
    + intros i j Hj Hij. rewrite (rsum_ext j _ (fun m => L0 i m * L0 j m)) by (intros m Hm; rewrite !Old by lia; reflexivity).
      destruct (Nat.eq_dec j c) as [->|].
      * rewrite Dc. destruct (Nat.eq_dec i c) as [->|].
        -- rewrite Dc, sqrt_sqrt by lra. unfold x. lra.
        -- rewrite Lc by lia. field. lra.
      * rewrite !Old by auto. apply H4; lia.
Qed.

Lemma chol_is_chol n K L : symm n K -> chol n K = Some L -> is_chol n L K.
Proof.
  intros Hs E. destruct (chol_inv n K L E) as (H1 & H2 & H3 & H4).
  split; [split; auto|].
  assert (G : forall i j, (i < n)%nat -> (j <= i)%nat -> rsum n (fun k => L i k * L j k) = K i j).
  { intros i j Hi Hj. rewrite (rsum_trunc n (S j)).
    - simpl. apply H4; lia.
    - lia.
    - intros k Hk. rewrite (H2 j k) by lia. lra. }
  intros i j Hi Hj. destruct (le_lt_dec j i); [now apply G|].
  rewrite Hs, <- G by (auto; lia). apply rsum_ext. intros; lra.
Qed.

(** positive definite matrices never make a pivot test fail *)
Lemma chol_succeeds n K : symm n K -> pd n K -> exists L, chol n K = Some L.
Proof.
  intros Hs Hp. assert (G : forall k, (k <= n)%nat -> exists L, chol k K = Some L).
  { induction k as [|c IH]; intro Hk; [simpl; eauto|]. destruct IH as (L & E); [lia|].
    cbn [chol]. rewrite E. set (x := K c c - rsum c (fun m => L c m * L c m)).
    assert (Hx : 0 < x); [|destruct (Rle_dec x 0); [lra|eauto]].
    assert (Sc : symm c K) by (intros i j Hi Hj; apply Hs; lia).
    destruct (chol_is_chol c K L Sc E) as [Hl Hf].
    destruct (chol_inv c K L E) as (H1 & _ & _ & H4).
    (* row c of the factor *)
    assert (Hrow : forall j, (j < c)%nat -> rsum c (fun m => L c m * L j m) = K c j).
    { intros j Hj. rewrite (rsum_trunc c (S j)); [simpl; apply H4; lia|lia|].
      intros k Hk'. destruct Hl as [Hu _]. rewrite (Hu j k) by lia. lra. }
    set (d := bwd c L (fun m => - L c m)).
    pose proof (bwd_solves c L (fun m => - L c m) Hl) as Hd. fold d in Hd.
    set (v := upd d c 1).
    assert (Hv : v c = 1) by (unfold v; now rewrite upd_same).
    assert (Hq : quad (S c) K v = x).
    { rewrite quad_mvec. cbn [rsum]. rewrite Hv.
      assert (Hin : forall i, (i < c)%nat -> mvec (S c) K v i = 0).
      { intros i Hi. unfold mvec. cbn [rsum]. rewrite Hv.
        rewrite (Hs i c), <- Hrow by lia.
        rewrite (rsum_ext c _ (fun k => rsum c (fun m => L i m * L k m * d k))).
        2:{ intros k Hk'. unfold v. rewrite upd_other by lia. rewrite <- (Hf i k) by lia. now rewrite <- rsum_scal_r. }
        rewrite rsum_swap. rewrite (rsum_ext c _ (fun m => L i m * (- L c m))).
        2:{ intros m Hm. rewrite <- (Hd m Hm). rewrite <- rsum_scal_l. apply rsum_ext. intros; lra. }
        rewrite Rmult_1_r, <- rsum_plus. apply rsum_0. intros; lra. }
      rewrite (rsum_0 c) by (intros i Hi; rewrite Hin by auto; lra).
      unfold mvec. cbn [rsum]. rewrite Hv.
      rewrite (rsum_ext c _ (fun k => rsum c (fun m => L c m * L k m * d k))).
      2:{ intros k Hk'. unfold v. rewrite upd_other by lia. rewrite <- (Hrow k) by lia. now rewrite <- rsum_scal_r. }
      rewrite rsum_swap. rewrite (rsum_ext c _ (fun m => - (L c m * L c m))).
      2:{ intros m Hm. transitivity (L c m * (- L c m)); [|lra]. rewrite <- (Hd m Hm).
          rewrite <- rsum_scal_l. apply rsum_ext. intros; lra. }
      rewrite rsum_opp. unfold x. lra. }
    rewrite <- Hq. apply (pd_minor n (S c) K Hk Hp). exists c. split; [lia|].
    unfold v. rewrite upd_same. lra. }
  apply G. lia.
Qed.

(** * Inverse from the factor *)
Lemma chol_pd n L K : is_chol n L K -> pd n K.
Proof.
  intros [Hl Hf] c (i & Hi & Hc).
  assert (E : quad n K c = rsum n (fun m => rsum n (fun k => L k m * c k) * rsum n (fun k => L k m * c k))).
  { unfold quad. transitivity (rsum n (fun i => rsum n (fun j => rsum n (fun m => (L i m * c i) * (L j m * c j))))).
    - apply rsum_ext. intros a Ha. apply rsum_ext. intros b Hb. rewrite <- (Hf a b Ha Hb).
      rewrite <- rsum_scal_l. apply rsum_ext. intros; lra.
    - rewrite (rsum_ext n _ (fun i => rsum n (fun m => (L i m * c i) * rsum n (fun j => L j m * c j)))).
      + rewrite rsum_swap. apply rsum_ext. intros m _. now rewrite <- rsum_scal_r.
      + intros a _. rewrite rsum_swap. apply rsum_ext. intros m _. now rewrite <- rsum_scal_l. }
  rewrite E. set (z := fun m => rsum n (fun k => L k m * c k)). change (0 < rsum n (fun m => z m * z m)).
  assert (0 <= rsum n (fun m => z m * z m)) by (apply rsum_nonneg; intros; nra).
  destruct (Req_dec (rsum n (fun m => z m * z m)) 0) as [E0|]; [|lra]. exfalso. apply Hc.
  pose proof (rsum_sq_0 n z E0) as Hz.
  (* upper triangular system L^T c = 0 has only the zero solution *)
  destruct Hl as [Hu Hd].
  assert (Z : forall k a, (a < n)%nat -> (n - 1 - a < k)%nat -> c a = 0).
  { induction k; intros a Ha Hk; [lia|].
    specialize (Hz a Ha). unfold z in Hz.
    rewrite (rsum_ext n _ (fun k => if (k =? a)%nat then L k a * c k else 0)) in Hz.
    - rewrite (rsum_delta n a (fun k => L k a * c k)) in Hz by auto. specialize (Hd a Ha). nra.
    - intros b Hb. destruct (Nat.eqb_spec b a); auto. destruct (le_lt_dec a b).
      + rewrite (IHk b) by lia. lra.
      + rewrite Hu by lia. lra. }
  apply (Z n i); lia.
Qed.

(** column [j] of the inverse computed by two solves of the identity *)
Definition inv_of (n : nat) (L : nat -> nat -> R) : nat -> nat -> R :=
  fun i j => bwd n L (fwd n L (fun k => delta k j)) i.
Lemma inv_right n L K : is_chol n L K -> meq n n (mmul n K (inv_of n L)) delta.
Proof. intros H i j Hi Hj. apply (solve_both n L K (fun k => delta k j) H i Hi). Qed.
Lemma factors_symm n L K : factors n L K -> symm n K.
Proof. intros Hf i j Hi Hj. rewrite <- !Hf by auto. apply rsum_ext. intros; lra. Qed.
(** a right inverse of a symmetric matrix is symmetric and a left inverse *)
Lemma right_inv_symm n K B : symm n K -> meq n n (mmul n K B) delta -> symm n B /\ is_inv n K B.
Proof.
  intros Hs H.
  (* B^T K = 1, so B^T = B^T K B = B *)
  assert (HT : meq n n (mmul n (fun i j => B j i) K) delta).
  { intros i j Hi Hj. rewrite delta_sym, <- (H j i Hj Hi). apply rsum_ext. intros k Hk. rewrite (Hs k j) by auto. lra. }
  assert (S1 : symm n B).
  { intros i j Hi Hj.
    transitivity (mmul n (mmul n (fun i j => B j i) K) B i j).
    - unfold mmul at 1. rewrite (rsum_ext n _ (fun k => delta i k * B k j)).
      + now rewrite delta_sum.
      + intros k Hk. now rewrite HT.
    - rewrite mmul_assoc. unfold mmul at 1. rewrite (rsum_ext n _ (fun k => B k i * delta k j)).
      + now rewrite (delta_sum' n j (fun k => B k i)).
      + intros k Hk. now rewrite H. }
  split; auto. split; auto.
  intros i j Hi Hj. rewrite <- (HT i j Hi Hj). apply rsum_ext. intros k Hk. now rewrite (S1 i k).
Qed.
Lemma inv_of_is_inv n L K : is_chol n L K -> is_inv n K (inv_of n L) /\ symm n (inv_of n L).
Proof.
  intros H. destruct (right_inv_symm n K (inv_of n L)) as [H1 H2]; auto.
  - destruct H as [_ Hf]. eapply factors_symm; eauto.
  - now apply inv_right.
Qed.
Lemma inv_unique n A B C : is_inv n A B -> is_inv n A C -> meq n n B C.
Proof.
  intros [_ HB] [HC _] i j Hi Hj.
  transitivity (mmul n (mmul n B A) C i j).
  - rewrite mmul_assoc. unfold mmul at 1. rewrite (rsum_ext n _ (fun k => B i k * delta k j)).
    + now rewrite (delta_sum' n j (fun k => B i k)).
    + intros k Hk. now rewrite HC.
  - unfold mmul at 1. rewrite (rsum_ext n _ (fun k => delta i k * C k j)).
    + now rewrite delta_sum.
    + intros k Hk. now rewrite HB.
Qed.
Lemma inv_solves n A B b x : is_inv n A B -> veq n (mvec n A x) b -> veq n x (mvec n B b).
Proof.
  intros [_ HB] H i Hi. transitivity (mvec n (mmul n B A) x i).
  - unfold mvec. rewrite (rsum_ext n _ (fun k => delta i k * x k)).
    + now rewrite delta_sum.
    + intros k Hk. now rewrite HB.
  - rewrite mvec_mmul. apply rsum_ext. intros k Hk. now rewrite H.
Qed.

(** [k^T A^-1 k] is the squared norm of the solution of [L z = k] *)
Lemma quad_chol n L A B k : is_chol n L A -> is_inv n A B ->
  rsum n (fun a => rsum n (fun b => k a * B a b * k b)) = rsum n (fun i => fwd n L k i * fwd n L k i).
Proof.
  intros HL HB. set (z := fwd n L k). set (x := bwd n L z).
  assert (Ex : veq n x (mvec n B k)) by (eapply inv_solves; [exact HB|]; now apply solve_both).
  transitivity (rsum n (fun a => k a * x a)).
  - apply rsum_ext. intros a Ha. rewrite Ex by auto. unfold mvec. rewrite <- rsum_scal_l. apply rsum_ext. intros b _. lra.
  - transitivity (rsum n (fun a => rsum n (fun m => L a m * z m * x a))).
    + apply rsum_ext. intros a Ha. rewrite rsum_scal_r. f_equal. symmetry. apply (fwd_solves n L k); [apply HL|auto].
    + rewrite rsum_swap. apply rsum_ext. intros m Hm.
      transitivity (z m * rsum n (fun a => L a m * x a)).
      * rewrite <- rsum_scal_l. apply rsum_ext. intros a _. lra.
      * f_equal. apply (bwd_solves n L z); [apply HL|auto].
Qed.
