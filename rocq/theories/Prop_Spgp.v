(** C63: the sparse Gaussian process with pseudo-inputs predicts the posterior of its prior. *)
From Coq Require Import Reals List Bool Lia Lra ZArith.
From Verif Require Import LinAlgModel LinAlg KernelModel Psd GPModel GPSpec GPFacts SpgpModel SpgpSpec SpgpAlg.
Import ListNotations.
Open Scope R_scope.

(** * Kernel *)
Lemma kernel_entry_se d b c p q : (forall k, (k < d)%nat -> 0 <= b k) -> kernel_entry d b c p q = se d b c p q.
Proof.
  intro Hb. unfold kernel_entry, se. do 2 f_equal.
  transitivity (rsum d (fun k => -2 * (p k * sqrt (b k) * (q k * sqrt (b k))) + q k * sqrt (b k) * (q k * sqrt (b k)) + p k * sqrt (b k) * (p k * sqrt (b k))) * - (1 / 2)).
  - now rewrite !rsum_plus, rsum_scal_l.
  - rewrite Rmult_comm. f_equal. apply rsum_ext. intros k Hk. rewrite <- (sqrt_sqrt (b k)) at 7 by auto. ring.
Qed.
Lemma se_sym d b c p q : se d b c p q = se d b c q p.
Proof. unfold se. do 3 f_equal. apply rsum_ext. intros; ring. Qed.
Lemma se_self d b c p : se d b c p p = c.
Proof. unfold se. rewrite rsum_0 by (intros; ring). rewrite Rmult_0_r, exp_0. ring. Qed.
Lemma se_psd d b c n pts : 0 <= c -> (forall k, (k < d)%nat -> 0 <= b k) -> psd n (fun i j => se d b c (pts i) (pts j)).
Proof.
  intros Hc Hb. eapply psd_ext; [|exact (psd_scal n c _ Hc (psd_gauss n d (1 / 2) (fun i k => sqrt (b k) * pts i k) ltac:(lra)))].
  intros i j _ _. unfold se. do 3 f_equal. apply rsum_ext. intros k Hk. rewrite <- (sqrt_sqrt (b k)) at 5 by auto. ring.
Qed.
Lemma all_pos_true n f : (forall i, (i < n)%nat -> 0 < f i) -> all_pos n f = true.
Proof.
  induction n as [|n IH]; intro H; cbn [all_pos]; [reflexivity|]. rewrite IH by (intros; apply H; lia).
  destruct (Rlt_dec 0 (f n)) as [|N]; [reflexivity|]. exfalso. apply N, H. lia.
Qed.

Lemma match_cons {T A} (l : list A) (a b : T) : l <> [] -> match l with [] => a | _ :: _ => b end = b.
Proof. now destruct l. Qed.

Lemma row_row_of v : row (row_of v) 0 = v.
Proof.
  unfold row, row_of. cbn [cols at_]. unfold vec_of. apply nth_ext with (d := 0) (d' := 0); [now rewrite map_length, seq_length|].
  intros i Hi. rewrite map_length, seq_length in Hi. rewrite (nth_indep _ _ (vget v O)) by (now rewrite map_length, seq_length).
  rewrite map_nth, seq_nth by auto. reflexivity.
Qed.

(** * Facts about the pseudo-inputs *)
Section Pseudo.
Variables (d : nat) (b : nat -> R) (c s del : R) (m : nat) (xb : nat -> nat -> R).
Hypothesis Hc : 0 < c.
Hypothesis Hs : 0 < s.
Hypothesis Hd : 0 < del.
Hypothesis Hb : forall k, (k < d)%nat -> 0 < b k.
Lemma Hb' : forall k, (k < d)%nat -> 0 <= b k. Proof. intros k Hk. apply Rlt_le; auto. Qed.
Lemma pseudo_symm : symm m (pseudo_cov d b c del xb).
Proof. intros i j _ _. unfold pseudo_cov. now rewrite se_sym, delta_sym. Qed.
Lemma pseudo_pd : pd m (pseudo_cov d b c del xb).
Proof.
  apply (pd_ext m (fun i j => se d b c (xb i) (xb j) + (if (i =? j)%nat then del else 0))).
  - intros i j _ _. unfold pseudo_cov, delta. destruct (i =? j)%nat; ring.
  - apply psd_noise_pd; auto. apply se_psd; [lra|apply Hb'].
Qed.
Lemma through_q B x y : through d b c m xb B x y = q_ m B (fun a => se d b c (xb a) x) (fun a => se d b c (xb a) y).
Proof. unfold through, q_. apply rsum_ext. intros p _. apply rsum_ext. intros q _. now rewrite (se_sym d b c x). Qed.
(** a variance explained by the pseudo-inputs is at most [c] *)
Lemma through_le B v : is_inv m (pseudo_cov d b c del xb) B -> symm m B -> through d b c m xb B v v <= c.
Proof.
  intros HB SB. set (pts := fun i => if (i <? m)%nat then xb i else v).
  pose proof (schur_nonneg m (fun i j => se d b c (pts i) (pts j)) del B) as Z.
  assert (Pm : pts m = v) by (unfold pts; now rewrite Nat.ltb_irrefl).
  assert (Pi : forall i, (i < m)%nat -> pts i = xb i) by (intros i Hi; unfold pts; now rewrite (proj2 (Nat.ltb_lt i m) Hi)).
  cbv beta in Z. rewrite Pm, se_self in Z. rewrite through_q. unfold q_.
  rewrite (rsum_ext m _ (fun a => rsum m (fun b0 => se d b c (pts a) v * B a b0 * se d b c (pts b0) v))).
  - apply Z; auto.
    + apply se_psd; [lra|apply Hb'].
    + intros i j _ _. apply se_sym.
    + lra.
    + destruct HB as [H1 H2]. split; intros i j Hi Hj; [rewrite <- (H1 i j Hi Hj)|rewrite <- (H2 i j Hi Hj)]; unfold mmul, pseudo_cov; apply rsum_ext; intros k Hk; now rewrite !Pi by auto.
  - intros a Ha. apply rsum_ext. intros a' Ha'. now rewrite !Pi by auto.
Qed.
End Pseudo.

(** * Histories *)
Section C63.
Variables (K : Kern) (M : Mean) (MO : MeanOK M).
Variables (jit pct : R) (min_m : nat) (sig0 c0 l0 : R).
Hypothesis Hjit : 0 < jit.

Inductive sop :=
| SCompute (pos : list nat) (opt : vec -> vec) (X Y : list vec)
| SAdd (pos : list nat) (opt : vec -> vec) (x y : vec)
| SRecompute (pos : list nat) (opt : vec -> vec).
Definition s_exec (s : spgp K M) (o : sop) : outcome (spgp K M) :=
  match o with
  | SCompute pos opt X Y => p_compute K M jit pct min_m pos opt s X Y
  | SAdd pos opt x y => p_add K M jit pct min_m sig0 c0 l0 pos opt s x y
  | SRecompute pos opt => p_recompute K M jit pct min_m pos opt s
  end.
Fixpoint s_run (s : spgp K M) (os : list sop) : outcome (spgp K M) :=
  match os with [] => Done s | o :: r => bind (s_exec s o) (fun s' => s_run s' r) end.
(** the data that a history leaves *)
Definition data_step (D : list vec * list vec) (o : sop) : list vec * list vec :=
  match o with
  | SCompute _ _ X Y => (X, Y)
  | SAdd _ _ x y => (fst D ++ [x], snd D ++ [y])
  | SRecompute _ _ => D
  end.
Definition data (os : list sop) : list vec * list vec := fold_left data_step os ([], []).
Definition optimizer (o : sop) : vec -> vec := match o with SCompute _ opt _ _ => opt | SAdd _ opt _ _ => opt | SRecompute _ opt => opt end.
Definition positions (o : sop) : list nat := match o with SCompute p _ _ _ => p | SAdd p _ _ _ => p | SRecompute p _ => p end.
(** residual of an observation with respect to the mean function *)
Definition res (D : list vec * list vec) (i : nat) : R := resid M (m_new M 1) (fst D) (snd D) 1 i 0.
(** data on which the start of the optimisation is defined: one output, at least as many samples as pseudo-inputs,
    no constant coordinate, not all observations equal to the mean function *)
Definition usable (d : nat) (D : list vec * list vec) : Prop :=
  let n := length (fst D) in
  (0 < d)%nat /\ (0 < n)%nat /\ length (snd D) = n /\ List.Forall (fun x => length x = d) (fst D) /\ List.Forall (fun y => length y = 1%nat) (snd D) /\
  (m_of pct min_m n <= n)%nat /\
  (forall k, (k < d)%nat -> exists x x', In x (fst D) /\ In x' (fst D) /\ vget x k <> vget x' k) /\
  (exists i, (i < n)%nat /\ res D i <> 0).
Fixpoint valid_from (d : nat) (D : list vec * list vec) (os : list sop) : Prop :=
  match os with
  | [] => True
  | o :: r => usable d (data_step D o) /\ (forall w, length (optimizer o w) = length w) /\ valid_from d (data_step D o) r
  end.
Definition valid (d : nat) (os : list sop) : Prop :=
  (exists pos opt X Y r, os = SCompute pos opt X Y :: r) /\ valid_from d ([], []) os.

(** what holds after a call *)
Section Ready.
Variables (d : nat) (D : list vec * list vec) (xb : nat -> nat -> R) (b : nat -> R) (c sg : R).
Let X := fst D.
Let n := length X.
Let m := m_of pct min_m n.
Let Xf := fun i k => vget (nth i X []) k.
Let K0 := fun a j => se d b c (xb a) (Xf j).
Record ready (s : spgp K M) : Prop := {
  r_X : p_X K M s = X; r_Y : p_Y K M s = snd D; r_din : p_din K M s = Some d; r_dout : p_dout K M s = Some 1%nat; r_del : p_del K M s = Some jit;
  r_mean : p_mean K M s = m_new M 1; r_om : p_om K M s = data_mean (snd D) 1;
  r_zr : rows (p_zm K M s) = n; r_zc : cols (p_zm K M s) = 1%nat; r_z : forall i, (i < n)%nat -> at_ (p_zm K M s) i 0 = res D i
}.
Record hyp_ready (s : spgp K M) : Prop := {
  h_m : p_m K M s = Some m; h_xb : p_xb K M s = Mat m d xb; h_b : p_b K M s = vec_of d b; h_c : p_c K M s = Some c; h_sg : p_sig K M s = Some sg;
  h_opt : p_opt K M s = true
}.
Record factored (s : spgp K M) : Prop := {
  f_L : exists L Lm bet, p_L K M s = Mat m m L /\ p_Lm K M s = Mat m m Lm /\ p_bet K M s = Mat m 1 (fun i _ => bet i) /\
     is_chol m L (pseudo_cov d b c jit xb) /\ (forall j, (j < n)%nat -> 0 < ep m L K0 c sg j) /\
     is_chol m Lm (MM n sg (V m L K0 c sg)) /\
     veq m bet (fwd m Lm (fun i => rsum n (fun j => V m L K0 c sg i j * y_ m L K0 c sg (res D) j)))
}.
Hypothesis Hc : 0 < c.
Hypothesis Hs : 0 < sg.
Hypothesis Hb : forall k, (k < d)%nat -> 0 < b k.
Lemma ep_pos L : is_chol m L (pseudo_cov d b c jit xb) -> forall j, 0 < ep m L K0 c sg j.
Proof.
  intros HL j. destruct (inv_of_is_inv m L _ HL) as [HB SB]. pose proof (through_le d b c jit m xb Hc Hjit Hb _ (Xf j) HB SB) as T.
  rewrite through_q in T. change (q_ m (inv_of m L) (fun a => K0 a j) (fun a => K0 a j) <= c) in T. rewrite (q_V0 m _ L K0 _ HL HB) in T.
  unfold ep. assert (0 <= (c - rsum m (fun i => V0 m L K0 i j * V0 m L K0 i j)) / sg); [|lra]. apply Rmult_le_pos; [lra|]. apply Rlt_le, Rinv_0_lt_compat, Hs.
Qed.
Lemma factorize_ok s : ready s -> hyp_ready s -> exists s', factorize K M jit s = Done s' /\ ready s' /\ hyp_ready s' /\ factored s'.
Proof.
  intros R Hh. unfold factorize. rewrite (h_m s Hh), (r_din s R), (h_c s Hh), (h_sg s Hh), (h_xb s Hh), (h_b s Hh), (r_X s R), (r_zr s R), (r_zc s R).
  cbn [cols rows at_]. rewrite vec_of_length, !Nat.eqb_refl. cbn [andb check]. fold n.
  assert (Vb : forall k, (k < d)%nat -> vget (vec_of d b) k = b k) by (intros; now apply vget_vec_of).
  assert (KE : forall p q, kernel_entry d (vget (vec_of d b)) c p q = se d b c p q).
  { intros p q. rewrite kernel_entry_se; [|intros k Hk; rewrite Vb by auto; now apply Rlt_le, Hb]. unfold se. do 3 f_equal. apply rsum_ext. intros k Hk. now rewrite Vb. }
  set (Q := fun i j : nat => kernel_entry d (vget (vec_of d b)) c (xb i) (xb j) + (if (i =? j)%nat then 1 else 0) * jit).
  assert (EQ : forall i j, Q i j = pseudo_cov d b c jit xb i j).
  { intros i j. unfold Q, pseudo_cov, delta. rewrite KE. destruct (i =? j)%nat; ring. }
  assert (SQ : symm m Q) by (intros i j Hi Hj; rewrite !EQ; now apply (pseudo_symm d b c jit m xb)).
  assert (PQ : pd m Q) by (apply (pd_ext m (pseudo_cov d b c jit xb)); [intros i j _ _; symmetry; apply EQ|now apply pseudo_pd]).
  destruct (chol_succeeds m Q SQ PQ) as [L EL]. cbv zeta. fold Q. rewrite EL. pose proof (chol_is_chol m Q L SQ EL) as CL.
  assert (CL' : is_chol m L (pseudo_cov d b c jit xb)) by (apply (is_chol_ext m L Q); [intros i j _ _; apply EQ|auto]).
  assert (FV : forall i j, (i < m)%nat -> (j < n)%nat -> fwd m L (fun a => kernel_entry d (vget (vec_of d b)) c (xb a) (fun j0 => vget (nth j X []) j0)) i = V0 m L K0 i j).
  { intros i j Hi Hj. unfold V0. apply fwd_ext; auto. intros a Ha. apply KE. }
  set (V0' := fun i j : nat => fwd m L (fun a => kernel_entry d (vget (vec_of d b)) c (xb a) (fun j0 => vget (nth j X []) j0)) i).
  assert (FE : forall j, (j < n)%nat -> 1 + (c - rsum m (fun i => V0' i j * V0' i j)) / sg = ep m L K0 c sg j).
  { intros j Hj. unfold ep. do 3 f_equal. apply rsum_ext. intros i Hi. unfold V0'. now rewrite FV. }
  match goal with |- context [all_pos n ?f] => replace (all_pos n f) with true by (symmetry; apply all_pos_true; intros j Hj;
    change (0 < 1 + (c - rsum m (fun i => V0' i j * V0' i j)) / sg); rewrite FE by auto; now apply ep_pos) end.
  match goal with |- context [chol m ?f] => set (M' := f) end.
  assert (EM : meq m m M' (MM n sg (V m L K0 c sg))).
  { intros i j Hi Hj. change (M' i j) with (sg * (if (i =? j)%nat then 1 else 0) + rsum n (fun k => V0' i k / sqrt (1 + (c - rsum m (fun i0 => V0' i0 k * V0' i0 k)) / sg) * (V0' j k / sqrt (1 + (c - rsum m (fun i0 => V0' i0 k * V0' i0 k)) / sg)))).
    unfold MM, delta. f_equal. apply rsum_ext. intros k Hk. rewrite FE by auto. unfold V, V0'. now rewrite !FV by auto. }
  assert (SM : symm m M') by (intros i j Hi Hj; rewrite !EM by auto; now apply (MM_symm m n sg (V m L K0 c sg) i j)).
  assert (PM : pd m M').
  { apply (pd_ext m (MM n sg (V m L K0 c sg))); [intros i j Hi Hj; symmetry; now apply EM|]. now apply MM_pd. }
  destruct (chol_succeeds m M' SM PM) as [Lm ELm]. rewrite ELm. pose proof (chol_is_chol m M' Lm SM ELm) as CM.
  eexists. split; [reflexivity|]. split; [|split].
  - destruct R. constructor; cbn; auto.
  - destruct Hh. constructor; cbn; auto.
  - constructor. cbn. do 3 eexists. split; [reflexivity|]. split; [reflexivity|]. split; [reflexivity|]. split; [exact CL'|].
    split; [intros j Hj; now apply ep_pos|]. split; [now apply (is_chol_ext m Lm M')|].
    intros i Hi. apply fwd_ext; auto. intros a Ha. apply rsum_ext. intros j Hj.
    change (V0' a j / sqrt (1 + (c - rsum m (fun i => V0' i j * V0' i j)) / sg) * (at_ (p_zm K M s) j 0 / sqrt (1 + (c - rsum m (fun i => V0' i j * V0' i j)) / sg)) = V m L K0 c sg a j * y_ m L K0 c sg (res D) j).
    rewrite FE by auto. unfold V, y_, V0'. rewrite FV by auto. now rewrite (r_z s R).
Qed.

(** the prediction *)
Definition mean_of (v : vec) : R := prior_mean M (m_new M 1) (snd D) 1 v 0.
Lemma mean_len v : length (m_val M (m_new M 1) v (data_mean (snd D) 1)) = 1%nat.
Proof. apply (mok_len MO 1); [apply mok_new|apply vec_of_length]. Qed.
(** every row of a matrix of points *)
Lemma predict_ok s : X <> [] -> ready s -> hyp_ready s -> factored s ->
  forall B A, is_inv m (pseudo_cov d b c jit xb) B -> is_inv n (obs_cov d b c sg m xb Xf B) A ->
  forall xt, cols xt = d -> exists P var, predict K M s xt = Done (P, var) /\ rows P = rows xt /\ cols P = 1%nat /\
  forall i, (i < rows xt)%nat ->
    at_ P i 0 = mean_of (row xt i) + fitc_mean d b c m xb n Xf (res D) B A (at_ xt i) /\
    var i = fitc_var d b c sg m xb n Xf B A (at_ xt i) /\ sg <= var i <= c + sg.
Proof.
  intros NX R Hh [(L & Lm & bet & EL & ELm & Eb & CL & PE & CM & FB)] B A HB HA xt Hx.
  pose proof (ep_pos L CL) as PE'.
  assert (SB : symm m B).
  { destruct (inv_of_is_inv m L _ CL) as [H1 H2]. intros i j Hi Hj. rewrite (inv_unique m _ _ _ HB H1 i j), (inv_unique m _ _ _ HB H1 j i) by auto. now apply H2. }
  assert (HA' : is_inv n (A_ m K0 c sg B) A).
  { destruct HA as [H1 H2]. split; intros i j Hi Hj; [rewrite <- (H1 i j Hi Hj)|rewrite <- (H2 i j Hi Hj)]; unfold mmul, obs_cov, A_; apply rsum_ext; intros k Hk; now rewrite !through_q. }
  assert (PM' : forall v, p_mean_at K M s v = m_val M (m_new M 1) v (data_mean (snd D) 1)).
  { intro v. unfold p_mean_at, p_mean_observation. now rewrite (r_X s R), (match_cons X _ _ NX), (r_mean s R), (r_om s R). }
  unfold predict. rewrite (r_X s R), (match_cons X _ _ NX).
  rewrite (h_c s Hh), (h_sg s Hh), (h_xb s Hh), (h_b s Hh), EL, ELm, Eb, (r_dout s R), (h_opt s Hh). cbn [rows cols at_ oget].
  rewrite vec_of_length, Hx, !Nat.eqb_refl. cbn [andb].
  match goal with |- context [forallb ?f ?l] => replace (forallb f l) with true by (symmetry; apply forallb_forall; intros i _; rewrite PM', mean_len; reflexivity) end.
  cbn [check]. rewrite !lower_diag_ok by (apply CL || apply CM). cbn [andb].
  eexists. eexists. split; [reflexivity|]. split; [reflexivity|]. split; [reflexivity|]. intros i0 Hi0.
  set (v := at_ xt i0). set (k := fun a => se d b c (xb a) v).
  assert (TQ : forall j, through d b c m xb B v (Xf j) = q_ m B k (fun a => K0 a j)) by (intro j; apply through_q).
  pose proof (mean_core m n _ L K0 c sg B CL HB Hs (fun j _ => PE' j) A HA' Lm CM (res D) k) as MC.
  pose proof (var_core m n _ L K0 c sg B CL HB Hs (fun j _ => PE' j) A HA' Lm CM k) as VC.
  assert (Emu : fitc_mean d b c m xb n Xf (res D) B A v = rsum m (fun i => fwd m Lm (fun a => rsum n (fun j => V m L K0 c sg a j * y_ m L K0 c sg (res D) j)) i * fwd m Lm (lst m L k) i)).
  { unfold fitc_mean. rewrite <- MC. apply rsum_ext. intros i _. apply rsum_ext. intros j _. now rewrite TQ. }
  assert (Evar : fitc_var d b c sg m xb n Xf B A v = c - rsum m (fun i => lst m L k i * lst m L k i) + sg * rsum m (fun i => fwd m Lm (lst m L k) i * fwd m Lm (lst m L k) i) + sg).
  { unfold fitc_var. rewrite (rsum_ext n _ (fun i => rsum n (fun j => q_ m B k (fun a => K0 a i) * A i j * q_ m B k (fun a => K0 a j)))).
    - rewrite VC. ring.
    - intros i _. apply rsum_ext. intros j _. now rewrite !TQ. }
  assert (LS : forall i, (i < m)%nat -> fwd m L (fun a => kernel_entry d (vget (vec_of d b)) c (xb a) v) i = lst m L k i).
  { intros i Hi. unfold lst. apply fwd_ext; auto. intros a Ha. rewrite kernel_entry_se.
    - unfold k, se. do 3 f_equal. apply rsum_ext. intros q Hq. now rewrite vget_vec_of.
    - intros q Hq. rewrite vget_vec_of by auto. now apply Rlt_le, Hb. }
  cbn [at_]. split; [|split; [|split]].
  - rewrite PM', Emu. f_equal. apply rsum_ext. intros i Hi. rewrite FB by auto. f_equal. apply fwd_ext; auto.
  - rewrite Evar. f_equal. f_equal; [f_equal|f_equal].
    + apply rsum_ext. intros i Hi. now rewrite !LS.
    + apply rsum_ext. intros i Hi. rewrite (fwd_ext m Lm Lm _ (lst m L k)); auto.
  - match goal with |- _ <= ?z => replace z with (fitc_var d b c sg m xb n Xf B A v) end.
    + rewrite Evar. pose proof (through_le d b c jit m xb Hc Hjit Hb B v HB SB) as T. rewrite through_q in T. fold k in T. unfold q_ in T.
      rewrite (bilin_chol m L _ B k k CL HB) in T. change (fwd m L k) with (lst m L k) in T.
      assert (0 <= rsum m (fun i => fwd m Lm (lst m L k) i * fwd m Lm (lst m L k) i)) by (apply rsum_nonneg; intros; apply Rle_0_sqr). nra.
    + rewrite Evar. f_equal. f_equal; [f_equal|f_equal].
      * apply rsum_ext. intros i Hi. now rewrite !LS.
      * apply rsum_ext. intros i Hi. rewrite (fwd_ext m Lm Lm (lst m L k) (fun a => fwd m L (fun a0 => kernel_entry d (vget (vec_of d b)) c (xb a0) v) a)); auto. intros a Ha. symmetry. now apply LS.
  - match goal with |- ?z <= _ => replace z with (fitc_var d b c sg m xb n Xf B A v) end.
    + unfold fitc_var.
      assert (SA : symm n (A_ m K0 c sg B)) by exact (A_symm m n _ L K0 c sg B CL HB Hs (fun j _ => PE' j)).
      assert (PA : pd n (A_ m K0 c sg B)) by exact (A_pd m n _ L K0 c sg B CL HB Hs (fun j _ => PE' j)).
      destruct (chol_succeeds n _ SA PA) as [LA EA]. pose proof (chol_is_chol n _ LA SA EA) as CA.
      rewrite (bilin_chol n LA _ A (fun i => through d b c m xb B v (Xf i)) (fun i => through d b c m xb B v (Xf i)) CA HA').
      assert (0 <= rsum n (fun i => fwd n LA (fun i0 => through d b c m xb B v (Xf i0)) i * fwd n LA (fun i0 => through d b c m xb B v (Xf i0)) i)) by (apply rsum_nonneg; intros; apply Rle_0_sqr). lra.
    + rewrite Evar. f_equal. f_equal; [f_equal|f_equal].
      * apply rsum_ext. intros i Hi. now rewrite !LS.
      * apply rsum_ext. intros i Hi. rewrite (fwd_ext m Lm Lm (lst m L k) (fun a => fwd m L (fun a0 => kernel_entry d (vget (vec_of d b)) c (xb a0) v) a)); auto. intros a Ha. symmetry. now apply LS.
Qed.
Lemma inverses_exist : exists B A, is_inv m (pseudo_cov d b c jit xb) B /\ is_inv n (obs_cov d b c sg m xb Xf B) A.
Proof.
  destruct (chol_succeeds m _ (pseudo_symm d b c jit m xb) (pseudo_pd d b c jit m xb Hc Hjit Hb)) as [L EL].
  pose proof (chol_is_chol m _ L (pseudo_symm d b c jit m xb) EL) as CL. destruct (inv_of_is_inv m L _ CL) as [HB SB].
  destruct (A_inv_ex m n _ L K0 c sg _ CL HB Hs (fun j _ => ep_pos L CL j)) as (A & HA & _).
  exists (inv_of m L), A. split; auto.
  destruct HA as [H1 H2]. split; intros i j Hi Hj; [rewrite <- (H1 i j Hi Hj)|rewrite <- (H2 i j Hi Hj)]; unfold mmul, obs_cov, A_; apply rsum_ext; intros k Hk; now rewrite !through_q.
Qed.
End Ready.

(** ** The start of the optimisation *)
(** [w] is the start: a random choice of samples, length scales of half the range of the data, the mean square of the
    residuals, and a quarter of it *)
Definition start (d : nat) (D : list vec * list vec) (pos : list nat) (w : vec) : Prop :=
  let X := fst D in
  let n := length X in
  let m := m_of pct min_m n in
  let ms := rsum n (fun i => res D i * res D i) / INR n in
  length w = ((m + 1) * d + 2)%nat /\
  (forall i k, (i < m)%nat -> (k < d)%nat -> vget w (i * d + k) = vget (nth (nth i pos O) X []) k) /\
  (forall k, (k < d)%nat -> exists hi lo, In hi X /\ In lo X /\ (forall x, In x X -> vget lo k <= vget x k <= vget hi k) /\
     exp (vget w (m * d + k)) = / (((vget hi k - vget lo k) / 2) * ((vget hi k - vget lo k) / 2))) /\
  exp (vget w ((m + 1) * d)) = ms /\ exp (vget w ((m + 1) * d + 1)) = ms / 4.
(** the parameters that a vector stands for *)
Definition u_xb (m : nat) (u : vec) (i k : nat) : R := vget u (i + k * m).
Definition u_b (m d : nat) (u : vec) (k : nat) : R := exp (vget u (m * d + k)).
Definition u_c (m d : nat) (u : vec) : R := exp (vget u ((m + 1) * d)).
Definition u_sig (m d : nat) (u : vec) : R := exp (vget u ((m + 1) * d + 1)).

Lemma col_max_spec n f : (0 < n)%nat -> (exists i, (i < n)%nat /\ col_max n f = f i) /\ forall i, (i < n)%nat -> f i <= col_max n f.
Proof.
  induction n as [|n IH]; intro Hn; [lia|]. destruct n as [|n].
  - cbn. split; [exists O; auto|]. intros i Hi. replace i with O by lia. lra.
  - destruct (IH ltac:(lia)) as [(a & Ha & Ea) U]. change (col_max (S (S n)) f) with (Rmax (col_max (S n) f) (f (S n))). split.
    + destruct (Rmax_case_strong (col_max (S n) f) (f (S n)) (fun z => exists i, (i < S (S n))%nat /\ z = f i)) as (i & Hi & E).
      * intros _. exists a. split; [lia|auto].
      * intros _. exists (S n). split; [lia|auto].
      * exists i. auto.
    + intros i Hi. destruct (Nat.eq_dec i (S n)) as [->|].
      * apply Rmax_r.
      * eapply Rle_trans; [apply U; lia|apply Rmax_l].
Qed.
Lemma col_min_spec n f : (0 < n)%nat -> (exists i, (i < n)%nat /\ col_min n f = f i) /\ forall i, (i < n)%nat -> col_min n f <= f i.
Proof.
  induction n as [|n IH]; intro Hn; [lia|]. destruct n as [|n].
  - cbn. split; [exists O; auto|]. intros i Hi. replace i with O by lia. lra.
  - destruct (IH ltac:(lia)) as [(a & Ha & Ea) U]. change (col_min (S (S n)) f) with (Rmin (col_min (S n) f) (f (S n))). split.
    + destruct (Rmin_case_strong (col_min (S n) f) (f (S n)) (fun z => exists i, (i < S (S n))%nat /\ z = f i)) as (i & Hi & E).
      * intros _. exists a. split; [lia|auto].
      * intros _. exists (S n). split; [lia|auto].
      * exists i. auto.
    + intros i Hi. destruct (Nat.eq_dec i (S n)) as [->|].
      * apply Rmin_r.
      * eapply Rle_trans; [apply Rmin_l|apply U; lia].
Qed.
Lemma vget_app_l (a b : vec) i : (i < length a)%nat -> vget (a ++ b) i = vget a i.
Proof. intro H. unfold vget. now apply app_nth1. Qed.
Lemma vget_app_r (a b : vec) i k : (i = length a + k)%nat -> vget (a ++ b) i = vget b k.
Proof. intros ->. unfold vget. rewrite app_nth2 by lia. f_equal. lia. Qed.

Lemma init_ok d D pos zm : usable d D -> rows zm = length (fst D) -> (forall i, (i < length (fst D))%nat -> at_ zm i 0 = res D i) ->
  exists w, w_init pos (m_of pct min_m (length (fst D))) d 1 (fst D) zm = Done w /\ start d D pos w.
Proof.
  intros (Hd & Hn & HY & HX & _ & Hm & Hr & (i0 & Hi0 & Ri0)) Hzr Hz. set (X := fst D) in *. set (n := length X) in *. set (m := m_of pct min_m n) in *.
  unfold w_init. fold n. rewrite Nat.mul_1_r. rewrite (proj2 (Nat.leb_le m n) Hm), (proj2 (Nat.ltb_lt 0 n) Hn). cbn [andb check].
  assert (Ex : forall i, (i < n)%nat -> In (nth i X []) X) by (intros; now apply nth_In).
  assert (Rg : forall k, (k < d)%nat -> exists hi lo, In hi X /\ In lo X /\ (forall x, In x X -> vget lo k <= vget x k <= vget hi k) /\
    col_max n (fun i => vget (nth i X []) k) = vget hi k /\ col_min n (fun i => vget (nth i X []) k) = vget lo k /\ vget lo k < vget hi k).
  { intros k Hk. destruct (col_max_spec n (fun i => vget (nth i X []) k) Hn) as [(a & Ha & Ea) Ua], (col_min_spec n (fun i => vget (nth i X []) k) Hn) as [(a' & Ha' & Ea') Ua'].
    exists (nth a X []), (nth a' X []). rewrite Ea in Ua. rewrite Ea' in Ua'.
    assert (U : forall x, In x X -> vget (nth a' X []) k <= vget x k <= vget (nth a X []) k).
    { intros x Hx. destruct (In_nth X x [] Hx) as (i & Hi & <-). split; [now apply Ua'|now apply Ua]. }
    split; [auto|]. split; [auto|]. split; [exact U|]. split; [exact Ea|]. split; [exact Ea'|].
    destruct (Hr k Hk) as (x & x' & I1 & I2 & N). pose proof (U x I1). pose proof (U x' I2). destruct (Rtotal_order (vget x k) (vget x' k)) as [|[|]]; lra. }
  rewrite all_pos_true.
  2:{ intros k Hk. destruct (Rg k Hk) as (hi & lo & _ & _ & _ & -> & -> & Hlt). lra. }
  assert (Sq : rsum n (fun i => rsum 1 (fun j => at_ zm i j * at_ zm i j)) = rsum n (fun i => res D i * res D i)).
  { apply rsum_ext. intros i Hi. cbn [rsum]. rewrite Hz by auto. ring. }
  assert (Sq4 : rsum n (fun i => rsum 1 (fun j => at_ zm i j * at_ zm i j / 4)) = rsum n (fun i => res D i * res D i) / 4).
  { unfold Rdiv. rewrite <- rsum_scal_r. apply rsum_ext. intros i Hi. cbn [rsum]. rewrite Hz by auto. unfold Rdiv. ring. }
  rewrite Sq, Sq4.
  assert (Pn : 0 < INR n) by (apply lt_0_INR; lia).
  assert (Pms : 0 < rsum n (fun i => res D i * res D i) / INR n).
  { apply Rmult_lt_0_compat; [|now apply Rinv_0_lt_compat].
    assert (Z : 0 <= rsum n (fun i => res D i * res D i)) by (apply rsum_nonneg; intros; apply Rle_0_sqr).
    destruct Z as [|Z]; auto. exfalso. apply Ri0. now apply (rsum_sq_0 n (res D)). }
  destruct (Rlt_dec 0 (rsum n (fun i => res D i * res D i) / INR n)) as [_|N]; [|contradiction]. cbn [andb].
  eexists. split; [reflexivity|]. unfold start. cbv zeta. fold X n m.
  set (w1 := vec_of (m * d) _). set (w2 := vec_of d _). assert (L1 : length w1 = (m * d)%nat) by apply vec_of_length. assert (L2 : length w2 = d) by apply vec_of_length.
  split; [rewrite !app_length, L1, L2; cbn; lia|]. split; [|split; [|split]].
  - intros i k Hi Hk. assert (Hik : (i * d + k < m * d)%nat) by nia. rewrite vget_app_l by lia. unfold w1. rewrite vget_vec_of by auto.
    rewrite Nat.div_add_l, (Nat.div_small k d), Nat.add_0_r by lia. rewrite Nat.add_comm, Nat.mod_add, Nat.mod_small by lia. reflexivity.
  - intros k Hk. destruct (Rg k Hk) as (hi & lo & I1 & I2 & U & E1 & E2 & Hlt). exists hi, lo. do 3 (split; [auto|]).
    rewrite (vget_app_r w1 _ _ k) by lia. rewrite vget_app_l by lia. unfold w2. rewrite vget_vec_of by auto. rewrite E1, E2.
    replace (-2 * ln ((vget hi k - vget lo k) / 2)) with (- ln ((vget hi k - vget lo k) / 2) + - ln ((vget hi k - vget lo k) / 2)) by ring.
    rewrite exp_plus, exp_Ropp, exp_ln by lra. field. lra.
  - rewrite (vget_app_r w1 _ _ d) by lia. rewrite (vget_app_r w2 _ _ O) by lia. change (vget [ln (rsum n (fun i => res D i * res D i) / INR n); ln (rsum n (fun i => res D i * res D i) / 4 / INR n)] 0) with (ln (rsum n (fun i => res D i * res D i) / INR n)). now apply exp_ln.
  - rewrite (vget_app_r w1 _ _ (d + 1)) by lia. rewrite (vget_app_r w2 _ _ 1) by lia. change (vget [ln (rsum n (fun i => res D i * res D i) / INR n); ln (rsum n (fun i => res D i * res D i) / 4 / INR n)] 1) with (ln (rsum n (fun i => res D i * res D i) / 4 / INR n)).
    replace (rsum n (fun i => res D i * res D i) / 4 / INR n) with (rsum n (fun i => res D i * res D i) / INR n / 4) by (field; lra). apply exp_ln. lra.
Qed.

Lemma optimize_ok d D pos opt s : usable d D -> (forall w, length (opt w) = length w) -> ready d D s -> p_init K M s = true ->
  exists s' w, optimize_hp K M pct min_m pos opt s = Done s' /\ start d D pos w /\ ready d D s' /\
    let m := m_of pct min_m (length (fst D)) in
    hyp_ready d D (u_xb m (opt w)) (u_b m d (opt w)) (u_c m d (opt w)) (u_sig m d (opt w)) s'.
Proof.
  intros U Ho R Hi. unfold optimize_hp. rewrite (r_din _ _ _ R), (r_dout _ _ _ R), (r_del _ _ _ R), Hi, (r_X _ _ _ R).
  destruct (init_ok d D pos (p_zm K M s) U (r_zr _ _ _ R) (r_z _ _ _ R)) as (w & E & St). rewrite E. cbn [bind].
  set (m := m_of pct min_m (length (fst D))) in *. unfold hyper_params.
  rewrite (proj2 (Nat.leb_le _ _)) by (rewrite Ho, (proj1 St); fold m; lia).
  eexists. exists w. split; [reflexivity|]. split; [exact St|]. split.
  - destruct R. constructor; cbn; auto.
  - constructor; cbn; auto.
Qed.

(** what holds after a call [o] that leaves the data [D] *)
Definition post (d : nat) (D : list vec * list vec) (o : sop) (s : spgp K M) : Prop :=
  exists w, start d D (positions o) w /\ ready d D s /\
    let m := m_of pct min_m (length (fst D)) in
    let u := optimizer o w in
    hyp_ready d D (u_xb m u) (u_b m d u) (u_c m d u) (u_sig m d u) s /\ factored d D (u_xb m u) (u_b m d u) (u_c m d u) (u_sig m d u) s.
Lemma compute_ok d D pos opt s o : usable d D -> (forall w, length (opt w) = length w) -> ready d D s -> p_init K M s = true ->
  optimizer o = opt -> positions o = pos -> exists s', compute_ K M jit pct min_m pos opt s = Done s' /\ post d D o s'.
Proof.
  intros U Ho R Hi Eo Ep. destruct (optimize_ok d D pos opt s U Ho R Hi) as (s1 & w & E1 & St & R1 & H1). unfold compute_. rewrite E1. cbn [bind].
  set (m := m_of pct min_m (length (fst D))) in *. cbv zeta in H1.
  destruct (factorize_ok d D (u_xb m (opt w)) (u_b m d (opt w)) (u_c m d (opt w)) (u_sig m d (opt w))) with (s := s1) as (s2 & E2 & R2 & H2 & F2); auto; try (intros; apply exp_pos).
  exists s2. split; [exact E2|]. exists w. rewrite Ep, Eo. split; [exact St|]. split; [exact R2|]. split; [exact H2|exact F2].
Qed.
Lemma data_ok d D s kern b c sg : usable d D ->
  exists s', with_data_zm K M pct min_m s (fst D) (snd D) d 1 (m_new M 1) kern b c sg (Some jit) = Done s' /\ ready d D s' /\ p_init K M s' = true.
Proof.
  intros (Hd & Hn & HY & HX & H1 & _). unfold with_data_zm. rewrite HY, Nat.eqb_refl, andb_true_r.
  assert (NX : fst D <> []) by (intro Z; rewrite Z in Hn; cbn in Hn; lia).
  match goal with |- context [forallb ?f (fst D)] => replace (forallb f (fst D)) with true end.
  - cbn [check]. eexists. split; [reflexivity|]. split; [|reflexivity]. constructor; cbn; auto.
    intros i Hi. unfold p_mean_at, p_mean_observation. cbn [p_X p_om p_mean]. rewrite (match_cons (fst D) _ _ NX). reflexivity.
  - symmetry. apply forallb_forall. intros x Hx. apply Nat.eqb_eq. unfold p_mean_at, p_mean_observation. cbn [p_X p_om p_mean]. rewrite (match_cons (fst D) _ _ NX).
    apply (mok_len MO 1); [apply mok_new|]. unfold col_means. rewrite vec_of_length. reflexivity.
Qed.
Lemma init_true_ready d D s : ready d D s -> ready d D (init_true K M s).
Proof. intros []. constructor; cbn; auto. Qed.
Definition is_compute (o : sop) : Prop := match o with SCompute _ _ _ _ => True | _ => False end.
Lemma same_length_true d X : List.Forall (fun x : vec => length x = d) X -> same_length d X = true.
Proof. intro H. apply forallb_forall. intros x Hx. apply Nat.eqb_eq. revert x Hx. now apply Forall_forall. Qed.
Lemma step_ok d D o s : (is_compute o \/ (usable d D /\ ready d D s)) -> usable d (data_step D o) -> (forall w, length (optimizer o w) = length w) ->
  exists s', s_exec s o = Done s' /\ post d (data_step D o) o s'.
Proof.
  intros Hs U Ho. destruct o as [pos opt X Y|pos opt x y|pos opt]; cbn [s_exec data_step optimizer] in *.
  - destruct (data_ok d (X, Y) s (k_new K d) (p_b K M s) (p_c K M s) (p_sig K M s) U) as (s1 & E1 & R1 & I1). cbn [fst snd] in E1.
    destruct (compute_ok d (X, Y) pos opt s1 (SCompute pos opt X Y) U Ho R1 I1 eq_refl eq_refl) as (s2 & E2 & P2).
    destruct U as (Hd & Hn & HY & HX & H1 & _). cbn [fst snd] in *.
    exists s2. split; [|exact P2]. unfold p_compute. destruct X as [|x0 X']; [cbn in Hn; lia|]. destruct Y as [|y0 Y']; [cbn in HY; lia|].
    assert (Lx : length x0 = d) by now inversion HX. assert (Ly : length y0 = 1%nat) by now inversion H1. rewrite Lx, Ly, HY, Nat.eqb_refl.
    rewrite (same_length_true d _ HX), (same_length_true 1 _ H1). cbn [andb check]. rewrite E1. exact E2.
  - destruct Hs as [[]|[UD R]]. destruct UD as (_ & Hn & _). assert (NX : fst D <> []) by (intro Z; rewrite Z in Hn; cbn in Hn; lia).
    pose proof U as (Hd & _ & _ & HX & H1 & _). cbn [fst snd] in HX, H1. apply Forall_app in HX. destruct HX as [_ HX]. apply Forall_app in H1. destruct H1 as [_ H1].
    assert (Lx : length x = d) by now inversion HX. assert (Ly : length y = 1%nat) by now inversion H1.
    destruct (data_ok d (fst D ++ [x], snd D ++ [y]) s (p_kern K M s) (p_b K M s) (p_c K M s) (p_sig K M s) U) as (s1 & E1 & R1 & I1). cbn [fst snd] in E1.
    destruct (compute_ok d _ pos opt s1 (SAdd pos opt x y) U Ho R1 I1 eq_refl eq_refl) as (s2 & E2 & P2).
    exists s2. split; [|exact P2]. unfold p_add. rewrite (r_X _ _ _ R), (match_cons (fst D) _ _ NX), (r_din _ _ _ R), (r_dout _ _ _ R), Lx, Ly, (r_mean _ _ _ R), (r_del _ _ _ R), (r_Y _ _ _ R). unfold onat_eqb.
    rewrite !Nat.eqb_refl. cbn [andb check]. rewrite E1. exact E2.
  - destruct Hs as [[]|[UD R]]. destruct (compute_ok d D pos opt (init_true K M s) (SRecompute pos opt) U Ho (init_true_ready d D s R) eq_refl eq_refl eq_refl) as (s2 & E2 & P2).
    exists s2. split; [exact E2|exact P2].
Qed.
Lemma run_ok d os : forall D s, usable d D -> ready d D s -> valid_from d D os ->
  exists s', s_run s os = Done s' /\ usable d (fold_left data_step os D) /\ ready d (fold_left data_step os D) s'.
Proof.
  induction os as [|o os IH]; intros D s U R Hv.
  - exists s. auto.
  - destruct Hv as (U1 & Ho & Hv). destruct (step_ok d D o s (or_intror (conj U R)) U1 Ho) as (s1 & E1 & (w & _ & R1 & _)).
    cbn [s_run]. rewrite E1. cbn [bind fold_left]. now apply IH.
Qed.
Lemma valid_app d os o : forall D, valid_from d D (os ++ [o]) -> valid_from d D os /\ usable d (data_step (fold_left data_step os D) o) /\ (forall w, length (optimizer o w) = length w).
Proof.
  induction os as [|o' os IH]; intros D H; cbn in *.
  - intuition.
  - destruct H as (H1 & H2 & H3). apply IH in H3. intuition.
Qed.
Lemma run_app os o : forall s, s_run s (os ++ [o]) = bind (s_run s os) (fun s' => s_exec s' o).
Proof.
  induction os as [|o' os IH]; intro s; cbn.
  - destruct (s_exec s o); reflexivity.
  - destruct (s_exec s o'); cbn; auto.
Qed.
Lemma history_ok d os o s0 : valid d (os ++ [o]) -> exists s, s_run s0 (os ++ [o]) = Done s /\ usable d (data (os ++ [o])) /\ post d (data (os ++ [o])) o s.
Proof.
  intros [(pos & opt & X & Y & r & E) Hv]. pose proof (valid_app d os o _ Hv) as (V1 & U & Ho). unfold data. rewrite fold_left_app, run_app. cbn [fold_left].
  destruct os as [|o1 os].
  - cbn in E. injection E as -> _. cbn [s_run bind]. destruct (step_ok d ([], []) (SCompute pos opt X Y) s0 (or_introl Logic.I) U Ho) as (s1 & E1 & P1). eauto.
  - cbn in E. injection E as -> _. destruct V1 as (U1 & Ho1 & V1). destruct (step_ok d ([], []) (SCompute pos opt X Y) s0 (or_introl Logic.I) U1 Ho1) as (s1 & E1 & (w & _ & R1 & _)).
    destruct (run_ok d os _ s1 U1 R1 V1) as (s2 & E2 & U2 & R2). cbn [s_run]. rewrite E1. cbn [bind]. rewrite E2. cbn [bind fold_left] in *.
    destruct (step_ok d _ o s2 (or_intror (conj U2 R2)) U Ho) as (s3 & E3 & P3). eauto.
Qed.

(** C63: after any history of [compute], [add_sample] and [recompute] the predictions are the posterior, for the data so far and the
    parameters that the optimizer returned last *)
Theorem C63_posterior d os o s0 : valid d (os ++ [o]) ->
  let D := data (os ++ [o]) in
  let n := length (fst D) in
  let m := m_of pct min_m n in
  let X := fun i k => vget (nth i (fst D) []) k in
  exists s w, s_run s0 (os ++ [o]) = Done s /\ start d D (positions o) w /\ p_X K M s = fst D /\
    let u := optimizer o w in
    let xb := u_xb m u in let b := u_b m d u in let c := u_c m d u in let sg := u_sig m d u in
    p_xb K M s = Mat m d xb /\
    (exists B A, is_inv m (pseudo_cov d b c jit xb) B /\ is_inv n (obs_cov d b c sg m xb X B) A) /\
    forall B A, is_inv m (pseudo_cov d b c jit xb) B -> is_inv n (obs_cov d b c sg m xb X B) A ->
    (forall v, length v = d ->
       let mu := prior_mean M (m_new M 1) (snd D) 1 v 0 + fitc_mean d b c m xb n X (res D) B A (vget v) in
       let var := fitc_var d b c sg m xb n X B A (vget v) in
       p_query K M s v = Done ([mu], var) /\ sg <= var <= c + sg) /\
    (forall xt, cols xt = d -> exists P var, predict K M s xt = Done (P, var) /\ rows P = rows xt /\ cols P = 1%nat /\
       forall i, (i < rows xt)%nat ->
         at_ P i 0 = prior_mean M (m_new M 1) (snd D) 1 (row xt i) 0 + fitc_mean d b c m xb n X (res D) B A (at_ xt i) /\
         var i = fitc_var d b c sg m xb n X B A (at_ xt i)).
Proof.
  intros Hv D n m X. destruct (history_ok d os o s0 Hv) as (s & E & U & (w & St & R & H & F)).
  exists s, w. split; [exact E|]. split; [exact St|]. split; [apply (r_X _ _ _ R)|]. intros u xb b c sg. split; [apply (h_xb _ _ _ _ _ _ _ H)|].
  assert (Pc : 0 < c) by apply exp_pos. assert (Ps : 0 < sg) by apply exp_pos. assert (Pb : forall k, (k < d)%nat -> 0 < b k) by (intros; apply exp_pos).
  split; [now apply inverses_exist|].
  intros B A HB HA. assert (NX : fst D <> []).
  { destruct U as (_ & Hn & _). intro Z. change (0 < length (fst D))%nat in Hn. rewrite Z in Hn. cbn in Hn. lia. }
  pose proof (predict_ok d D xb b c sg Pc Ps Pb s NX R H F B A HB HA) as PO. split.
  - intros v Hl mu var. destruct (PO (row_of v) Hl) as (P & vr & EP & RP & CP & Z). destruct (Z O ltac:(cbn; lia)) as (Z1 & Z2 & Z3).
    unfold p_query. rewrite EP. cbn [bind fst snd]. rewrite Z2 in Z3. split; [|exact Z3]. unfold row at 1. rewrite CP. cbn [vec_of seq map]. rewrite Z1, Z2, row_row_of. reflexivity.
  - intros xt Hx. destruct (PO xt Hx) as (P & vr & EP & RP & CP & Z). exists P, vr. do 3 (split; [auto|]). intros i Hi. destruct (Z i Hi) as (Z1 & Z2 & _). auto.
Qed.
End C63.
