(** Invariant of the GP and proofs that every operation keeps it. *)
From Coq Require Import Reals List Bool ZArith Lia Lra.
From Verif Require Import LinAlgModel LinAlg KernelModel GPModel GPSpec.
Import ListNotations.
Open Scope R_scope.

Lemma bind_done {A B} (o : outcome A) (f : A -> outcome B) b : bind o f = Done b -> exists a, o = Done a /\ f a = Done b.
Proof. destruct o; simpl; intro H; try discriminate. eauto. Qed.
Lemma check_done {A} c (o : outcome A) a : check c o = Done a -> c = true /\ o = Done a.
Proof. destruct c; simpl; intro H; [auto|discriminate]. Qed.
Lemma vget_vec_of n f i : (i < n)%nat -> vget (vec_of n f) i = f i.
Proof.
  intro H. unfold vget, vec_of. rewrite nth_indep with (d' := f O) by (rewrite map_length, seq_length; auto).
  rewrite map_nth, seq_nth by auto. reflexivity.
Qed.
Lemma vec_of_length n f : length (vec_of n f) = n.
Proof. unfold vec_of. now rewrite map_length, seq_length. Qed.
Lemma vec_of_ext n f g : (forall i, (i < n)%nat -> f i = g i) -> vec_of n f = vec_of n g.
Proof. intro H. apply map_ext_in. intros i Hi. apply in_seq in Hi. apply H. lia. Qed.
Lemma onat_eqb_spec o n : onat_eqb o n = true <-> o = Some n.
Proof.
  destruct o; simpl; split; intro H; try discriminate; [apply Nat.eqb_eq in H; congruence|].
  inversion H. apply Nat.eqb_refl.
Qed.
Ltac split_checks :=
  repeat match goal with H : (_ && _)%bool = true |- _ => apply andb_prop in H; destruct H end;
  repeat match goal with
  | H : (_ =? _)%nat = true |- _ => apply Nat.eqb_eq in H
  | H : (_ <? _)%nat = true |- _ => apply Nat.ltb_lt in H
  | H : (_ <=? _)%nat = true |- _ => apply Nat.leb_le in H
  | H : onat_eqb _ _ = true |- _ => apply onat_eqb_spec in H
  end.

Section Facts.
Variables (K : Kern) (M : Mean).
Variable KO : KernOK K.
Variable MO : MeanOK M.
Notation gp := (gp K M). Notation sp := (sp K M).

Definition G (s : sp) := gram K (s_k K M s) (s_xs K M s).
Definition Rs (s : sp) := resid M (s_m K M s) (s_xs K M s) (s_ys K M s) (oget (s_dout K M s)).
Definition N (s : sp) := length (s_xs K M s).
Definition P (s : sp) := oget (s_dout K M s).

(** what [add_sample] needs of the state *)
Record linv (g : gp) (s : sp) : Prop := {
  w_din : g_din K M g = s_din K M s;
  w_dout : g_dout K M g = s_dout K M s;
  w_k : g_k K M g = s_k K M s;
  w_m : g_m K M g = s_m K M s;
  w_samples : g_samples K M g = s_xs K M s;
  w_kok : forall d, s_din K M s = Some d -> kok KO d (s_k K M s);
  w_mok : forall p, s_dout K M s = Some p -> mok MO p (s_m K M s);
  w_len : length (s_ys K M s) = length (s_xs K M s);
  w_orows : rows (g_obs K M g) = N s;
  w_nonempty : s_xs K M s <> [] ->
    (exists d, s_din K M s = Some d /\ (0 < d)%nat /\ Forall (fun x => length x = d) (s_xs K M s)) /\
    (exists p, s_dout K M s = Some p /\ (0 < p)%nat) /\ Forall (fun y => length y = P s) (s_ys K M s) /\
    cols (g_obs K M g) = P s /\
    (forall i j, (i < N s)%nat -> (j < P s)%nat -> at_ (g_obs K M g) i j = y_ (s_ys K M s) i j) /\
    g_mean_obs K M g = data_mean (s_ys K M s) (P s) /\
    (s_dk K M s = false -> rows (g_L K M g) = N s /\ cols (g_L K M g) = N s /\ is_chol (N s) (at_ (g_L K M g)) (G s))
}.
(** what predictions need besides *)
Definition alpha_ok (g : gp) (s : sp) : Prop := s_dk K M s = false -> s_dm K M s = false -> s_xs K M s <> [] ->
  rows (g_alpha K M g) = N s /\ cols (g_alpha K M g) = P s /\
  forall o, (o < P s)%nat -> veq (N s) (mvec (N s) (G s) (col (g_alpha K M g) o)) (fun i => Rs s i o).

Record inv (g : gp) (s : sp) : Prop := {
  v_din : g_din K M g = s_din K M s;
  v_dout : g_dout K M g = s_dout K M s;
  v_k : g_k K M g = s_k K M s;
  v_m : g_m K M g = s_m K M s;
  v_samples : g_samples K M g = s_xs K M s;
  v_kok : forall d, s_din K M s = Some d -> kok KO d (s_k K M s);
  v_mok : forall p, s_dout K M s = Some p -> mok MO p (s_m K M s);
  v_len : length (s_ys K M s) = length (s_xs K M s);
  v_orows : rows (g_obs K M g) = N s;
  v_nonempty : s_xs K M s <> [] ->
    (exists d, s_din K M s = Some d /\ (0 < d)%nat /\ Forall (fun x => length x = d) (s_xs K M s)) /\
    (exists p, s_dout K M s = Some p /\ (0 < p)%nat) /\ Forall (fun y => length y = P s) (s_ys K M s) /\
    cols (g_obs K M g) = P s /\
    (forall i j, (i < N s)%nat -> (j < P s)%nat -> at_ (g_obs K M g) i j = y_ (s_ys K M s) i j) /\
    g_mean_obs K M g = data_mean (s_ys K M s) (P s) /\
    rows (g_obs_mean K M g) = N s /\ cols (g_obs_mean K M g) = P s /\
    (s_dm K M s = false -> meq (N s) (P s) (at_ (g_obs_mean K M g)) (Rs s)) /\
    (s_dk K M s = false ->
       rows (g_L K M g) = N s /\ cols (g_L K M g) = N s /\ is_chol (N s) (at_ (g_L K M g)) (G s) /\
       (g_inv_updated K M g = true -> rows (g_inv K M g) = N s /\ cols (g_inv K M g) = N s /\ is_inv (N s) (G s) (at_ (g_inv K M g))) /\
       (s_dm K M s = false -> rows (g_alpha K M g) = N s /\ cols (g_alpha K M g) = P s /\
          forall o, (o < P s)%nat -> veq (N s) (mvec (N s) (G s) (col (g_alpha K M g) o)) (fun i => Rs s i o)))
}.

Lemma inv_linv g s : inv g s -> linv g s.
Proof.
  destruct 1. constructor; auto. intro H. destruct (v_nonempty0 H) as (A1 & A2 & A3 & A4 & A5 & A6 & A7 & A8 & A9 & A10).
  repeat (split; [assumption|]). intro Hk. destruct (A10 Hk) as (B1 & B2 & B3 & _). auto.
Qed.
Lemma inv_alpha g s : inv g s -> alpha_ok g s.
Proof.
  intros I Hk Hm Hx. destruct (v_nonempty _ _ I Hx) as (_ & _ & _ & _ & _ & _ & _ & _ & _ & A10).
  destruct (A10 Hk) as (_ & _ & _ & _ & B). auto.
Qed.

(** ** The kernel matrix *)
Lemma gram_symm d k xs : kok KO d k -> Forall (fun x => length x = d) xs -> symm (length xs) (gram K k xs).
Proof.
  intros Hk Hx i j Hi Hj. unfold gram. rewrite Nat.eqb_sym. f_equal.
  rewrite Forall_forall in Hx. apply (kok_sym KO d); auto; apply Hx, nth_In; auto.
Qed.
Lemma gram_pd d k xs : kok KO d k -> Forall (fun x => length x = d) xs -> pd (length xs) (gram K k xs).
Proof.
  intros Hk Hx. unfold gram. apply psd_noise_pd with (A := fun i j => k_ker K k (x_ xs i) (x_ xs j)).
  - pose proof (kok_noise KO d k Hk). lra.
  - apply (kok_psd KO d); auto. intros i Hi. rewrite Forall_forall in Hx. apply Hx, nth_In; auto.
Qed.

(** ** Frame lemmas *)
Lemma compute_alpha_spec g g' : compute_alpha K M g = Done g' ->
  cols (g_L K M g) = rows (g_L K M g) /\ rows (g_obs_mean K M g) = rows (g_L K M g) /\
  diag_ok (rows (g_L K M g)) (at_ (g_L K M g)) = true /\
  g' = {| g_din := g_din K M g; g_dout := g_dout K M g; g_k := g_k K M g; g_m := g_m K M g; g_samples := g_samples K M g; g_obs := g_obs K M g;
     g_mean_vector := g_mean_vector K M g; g_obs_mean := g_obs_mean K M g;
     g_alpha := Mat (rows (g_L K M g)) (cols (g_obs_mean K M g))
        (fun i j => bwd (rows (g_L K M g)) (at_ (g_L K M g)) (fwd (rows (g_L K M g)) (at_ (g_L K M g)) (col (g_obs_mean K M g) j)) i);
     g_mean_obs := g_mean_obs K M g; g_kernel := g_kernel K M g; g_inv := g_inv K M g; g_L := g_L K M g;
     g_inv_updated := g_inv_updated K M g |}.
Proof.
  unfold compute_alpha. intro H. apply check_done in H. destruct H as [H1 H2]. split_checks.
  destruct (diag_ok _ _) eqn:E; [|discriminate]. inversion H2. auto.
Qed.

(** ** What the columns of alpha solve *)
Lemma alpha_solves n L A b : is_chol n L A -> veq n (mvec n A (fun i => bwd n L (fwd n L b) i)) b.
Proof. apply solve_both. Qed.

Lemma mvec_ext n A B x y : meq n n A B -> veq n x y -> veq n (mvec n A x) (mvec n B y).
Proof. intros HA Hx i Hi. apply rsum_ext. intros j Hj. now rewrite HA, Hx. Qed.
Lemma is_chol_ext n L A B : meq n n A B -> is_chol n L A -> is_chol n L B.
Proof. intros H [Hl Hf]. split; auto. intros i j Hi Hj. now rewrite Hf, H. Qed.
Lemma is_chol_ext_l n L L' A : meq n n L L' -> is_chol n L A -> is_chol n L' A.
Proof.
  intros H [[Hu Hd] Hf]. split; [split|].
  - intros i j Hi Hj Hij. rewrite <- H; auto.
  - intros i Hi. rewrite <- H; auto.
  - intros i j Hi Hj. rewrite <- (Hf i j Hi Hj). apply rsum_ext. intros k Hk. now rewrite !H.
Qed.

(** ** _compute_full_kernel *)
Lemma kop_gram k xs i j : (j <= i)%nat ->
  kop K k (nth i xs []) (nth j xs []) (Z.of_nat i) (Z.of_nat j) = gram K k xs i j.
Proof.
  intro H. unfold kop, gram, x_, jitter. f_equal.
  destruct (Nat.eqb_spec i j) as [->|Hne]; [now rewrite Z.eqb_refl|].
  destruct (Z.eqb_spec (Z.of_nat i) (Z.of_nat j)); auto. lia.
Qed.

Lemma full_kernel_spec g d :
  kok KO d (g_k K M g) -> Forall (fun x => length x = d) (g_samples K M g) ->
  rows (g_obs_mean K M g) = nb_samples K M g ->
  let n := nb_samples K M g in
  exists L Km al, is_chol n L (gram K (g_k K M g) (g_samples K M g)) /\
    (forall o, veq n (mvec n (gram K (g_k K M g) (g_samples K M g)) (fun i => al i o)) (col (g_obs_mean K M g) o)) /\
    compute_full_kernel K M g = Done
      {| g_din := g_din K M g; g_dout := g_dout K M g; g_k := g_k K M g; g_m := g_m K M g; g_samples := g_samples K M g; g_obs := g_obs K M g;
         g_mean_vector := g_mean_vector K M g; g_obs_mean := g_obs_mean K M g;
         g_alpha := Mat n (cols (g_obs_mean K M g)) al;
         g_mean_obs := g_mean_obs K M g; g_kernel := Km; g_inv := g_inv K M g; g_L := Mat n n L;
         g_inv_updated := false |}.
Proof.
  intros Hk Hx Hr. cbn zeta. set (n := nb_samples K M g).
  set (A := gram K (g_k K M g) (g_samples K M g)).
  unfold compute_full_kernel. fold n.
  match goal with |- context [chol n ?f] => set (Kf := f) end.
  assert (EK : meq n n A Kf).
  { intros i j Hi Hj. unfold Kf, A, sample. destruct (Nat.leb_spec j i).
    - now rewrite kop_gram.
    - rewrite (gram_symm d) by auto. rewrite kop_gram by lia. reflexivity. }
  assert (SA : symm n A) by (apply (gram_symm d); auto).
  assert (PA : pd n A) by (apply (gram_pd d); auto).
  assert (SK : symm n Kf) by (intros i j Hi Hj; rewrite <- !EK by auto; auto).
  destruct (chol_succeeds n Kf SK (pd_ext n A Kf EK PA)) as (L & EL). rewrite EL.
  assert (CL : is_chol n L A).
  { apply is_chol_ext with Kf; [intros i j Hi Hj; symmetry; auto|]. now apply chol_is_chol. }
  unfold compute_alpha. cbn [g_L with_kernel rows cols at_ g_obs_mean].
  rewrite Hr. fold n. rewrite !Nat.eqb_refl. cbn [andb check].
  rewrite lower_diag_ok by apply CL. cbn [bind kernel_changed].
  exists L, (Mat n n Kf). eexists. split; [exact CL|]. split; [|reflexivity].
  intro o. apply alpha_solves. exact CL.
Qed.

(** ** _compute_obs_mean *)
Lemma obs_mean_spec g g' : compute_obs_mean K M g = Done g' ->
  (0 < nb_samples K M g)%nat /\ (0 < oget (g_dout K M g))%nat /\
  Forall (fun x => g_din K M g = Some (length x) /\ (0 < length x)%nat) (g_samples K M g) /\
  rows (g_obs K M g) = nb_samples K M g /\ cols (g_obs K M g) = oget (g_dout K M g) /\
  exists mv, g' =
    {| g_din := g_din K M g; g_dout := g_dout K M g; g_k := g_k K M g; g_m := g_m K M g; g_samples := g_samples K M g; g_obs := g_obs K M g;
       g_mean_vector := mv;
       g_obs_mean := Mat (nb_samples K M g) (oget (g_dout K M g)) (fun i j => at_ (g_obs K M g) i j - vget (mean_at K M g (sample K M g i)) j);
       g_alpha := g_alpha K M g; g_mean_obs := g_mean_obs K M g; g_kernel := g_kernel K M g; g_inv := g_inv K M g; g_L := g_L K M g;
       g_inv_updated := g_inv_updated K M g |}.
Proof.
  unfold compute_obs_mean. intro H. apply check_done in H. destruct H as [H1 H2].
  unfold dout_pos in H1. split_checks. inversion H2.
  repeat split; auto.
  - match goal with H : forallb _ _ = true |- _ => rewrite forallb_forall in H; rename H into HF end.
    apply Forall_forall. intros x Hx. specialize (HF x Hx). split_checks. auto.
  - eexists. reflexivity.
Qed.

Lemma obs_mean_ok g p : g_dout K M g = Some p -> (0 < p)%nat -> g_samples K M g <> [] ->
  (forall x, In x (g_samples K M g) -> g_din K M g = Some (length x) /\ (0 < length x)%nat) ->
  mok MO p (g_m K M g) -> length (g_mean_obs K M g) = p ->
  rows (g_obs K M g) = nb_samples K M g -> cols (g_obs K M g) = p ->
  exists g', compute_obs_mean K M g = Done g'.
Proof.
  intros Hp Hp0 Hne Hx Hm Hl Hr Hc. unfold compute_obs_mean, dout_pos. rewrite Hp. cbn [oget].
  rewrite Hr, Hc, !Nat.eqb_refl.
  assert (E0 : (0 <? nb_samples K M g)%nat = true).
  { apply Nat.ltb_lt. unfold nb_samples. destruct (g_samples K M g); simpl; [congruence|lia]. }
  assert (E1 : (0 <? p)%nat = true) by now apply Nat.ltb_lt.
  rewrite E0, E1. rewrite (proj2 (forallb_forall _ (g_samples K M g))); [simpl; eauto|].
  intros x Hin. destruct (Hx x Hin) as [Hd H0]. apply Nat.ltb_lt in H0. rewrite H0.
  rewrite (proj2 (onat_eqb_spec _ _) Hd). cbn [andb].
  unfold mean_at. rewrite (mok_len MO p); [now rewrite Nat.eqb_refl|auto|].
  unfold mean_observation. destruct (g_samples K M g) eqn:E; [congruence|auto].
Qed.

(** ** _compute_incremental_kernel *)
Lemma chol_row_spec n A L : (1 <= n)%nat ->
  rows (chol_row n A L) = rows L /\ cols (chol_row n A L) = cols L /\
  (forall i j, (i <> n - 1 \/ n - 1 <= j)%nat -> at_ (chol_row n A L) i j = at_ L i j) /\
  (forall j, (j < n - 1)%nat -> at_ (chol_row n A L) (n - 1) j
     = (at_ A (n - 1) j - rsum j (fun m => at_ L j m * at_ (chol_row n A L) (n - 1) m)) / at_ L j j).
Proof.
  intro Hn. unfold chol_row.
  set (step := fun (L : mat) (j : nat) => _).
  assert (Gk : forall k, (k <= n - 1)%nat ->
    let R := fold_left step (seq 0 k) L in
    rows R = rows L /\ cols R = cols L /\
    (forall i j, (i <> n - 1 \/ k <= j)%nat -> at_ R i j = at_ L i j) /\
    (forall j, (j < k)%nat -> at_ R (n - 1) j
       = (at_ A (n - 1) j - rsum j (fun m => at_ L j m * at_ R (n - 1) m)) / at_ L j j)).
  { induction k as [|k IH]; intro Hk; cbn zeta.
    - cbn [seq fold_left]. repeat split; auto. intros j Hj. lia.
    - rewrite seq_S, fold_left_app. cbn [fold_left Nat.add]. specialize (IH ltac:(lia)). cbn zeta in IH.
      set (R := fold_left step (seq 0 k) L) in *. destruct IH as (H1 & H2 & H3 & H4).
      unfold step. cbn [put rows cols at_].
      assert (Hnew : forall m, (m < k)%nat -> (n - 1 =? n - 1)%nat && (m =? k)%nat = false).
      { intros m Hm. rewrite Nat.eqb_refl. simpl. apply Nat.eqb_neq. lia. }
      repeat split; auto.
      + intros i j Hij. destruct (Nat.eqb_spec i (n - 1)); destruct (Nat.eqb_spec j k); cbn [andb]; try (apply H3; lia). lia.
      + intros j Hj. rewrite Nat.eqb_refl. cbn [andb].
        assert (Er : forall q, (q <= k)%nat ->
          rsum q (fun m => at_ L j m * (if (m =? k)%nat then (at_ A (n - 1) k - rsum k (fun m0 => at_ R k m0 * at_ R (n - 1) m0)) / at_ R k k else at_ R (n - 1) m))
          = rsum q (fun m => at_ L j m * at_ R (n - 1) m)).
        { intros q Hq. apply rsum_ext. intros m Hm. destruct (Nat.eqb_spec m k); [lia|reflexivity]. }
        rewrite Er by lia.
        destruct (Nat.eqb_spec j k) as [->|].
        * rewrite (H3 k k) by lia. f_equal. f_equal. apply rsum_ext. intros m Hm. rewrite (H3 k m) by lia. reflexivity.
        * apply H4. lia. }
  apply (Gk (n - 1)%nat). lia.
Qed.

Lemma kernel_row_spec g n A : rows A = n -> cols A = n -> (1 <= n)%nat ->
  rows (kernel_row K M g n A) = n /\ cols (kernel_row K M g n A) = n /\
  forall j, (j < n)%nat -> at_ (kernel_row K M g n A) (n - 1) j
    = kop K (g_k K M g) (sample K M g j) (sample K M g (n - 1)) (Z.of_nat j) (Z.of_nat (n - 1)).
Proof.
  intros Hr Hc Hn. unfold kernel_row. set (step := fun (A : mat) (i : nat) => _).
  set (val := fun j => kop K (g_k K M g) (sample K M g j) (sample K M g (n - 1)) (Z.of_nat j) (Z.of_nat (n - 1))).
  assert (Gk : forall k, (k <= n)%nat ->
    let R := fold_left step (seq 0 k) A in
    rows R = n /\ cols R = n /\ forall j, (j < k)%nat -> at_ R (n - 1) j = val j).
  { induction k as [|k IH]; intro Hk; cbn zeta.
    - cbn [seq fold_left]. repeat split; auto. intros j Hj; lia.
    - rewrite seq_S, fold_left_app. cbn [fold_left Nat.add]. specialize (IH ltac:(lia)). cbn zeta in IH.
      set (R := fold_left step (seq 0 k) A) in *. destruct IH as (H1 & H2 & H3).
      unfold step. fold (val k). cbn [put rows cols at_]. repeat split; auto.
      intros j Hj. rewrite Nat.eqb_refl. cbn [andb].
      destruct (Nat.eqb_spec j k) as [->|]; auto.
      destruct (Nat.eqb_spec (n - 1) k); destruct (Nat.eqb_spec j (n - 1)); cbn [andb]; try lia; apply H3; lia. }
  apply (Gk n). lia.
Qed.

Lemma is_chol_minor m L A : is_chol (S m) L A -> is_chol m L A.
Proof.
  intros [[Hu Hd] Hf]. split; [split|].
  - intros i j Hi Hj Hij. apply Hu; lia.
  - intros i Hi. apply Hd. lia.
  - intros i j Hi Hj. rewrite <- (Hf i j) by lia. simpl. rewrite (Hu i m) by lia. lra.
Qed.

Lemma incremental_spec junk g d :
  kok KO d (g_k K M g) -> Forall (fun x => length x = d) (g_samples K M g) ->
  let n := nb_samples K M g in
  let A := gram K (g_k K M g) (g_samples K M g) in
  (1 <= n)%nat -> rows (g_obs_mean K M g) = n ->
  ((1 < n)%nat -> rows (g_L K M g) = (n - 1)%nat /\ cols (g_L K M g) = (n - 1)%nat /\ is_chol (n - 1) (at_ (g_L K M g)) A) ->
  exists L Km al, is_chol n L A /\
    (forall o, veq n (mvec n A (fun i => al i o)) (col (g_obs_mean K M g) o)) /\
    compute_incremental_kernel K M junk g = Done
      {| g_din := g_din K M g; g_dout := g_dout K M g; g_k := g_k K M g; g_m := g_m K M g; g_samples := g_samples K M g; g_obs := g_obs K M g;
         g_mean_vector := g_mean_vector K M g; g_obs_mean := g_obs_mean K M g;
         g_alpha := Mat n (cols (g_obs_mean K M g)) al;
         g_mean_obs := g_mean_obs K M g; g_kernel := Km; g_inv := g_inv K M g; g_L := Mat n n L;
         g_inv_updated := false |}.
Proof.
  intros Hk Hx n A Hn Hr HL.
  assert (SA : symm n A) by (apply (gram_symm d); auto).
  assert (PA : pd n A) by (apply (gram_pd d); auto).
  destruct (chol_succeeds n A SA PA) as (Q & EQ). apply chol_is_chol in EQ; auto.
  unfold compute_incremental_kernel. fold n.
  set (Km := kernel_row K M g n (cresize (g_kernel K M g) n n junk)).
  destruct (kernel_row_spec g n (cresize (g_kernel K M g) n n junk) eq_refl eq_refl Hn) as (K1 & K2 & K3).
  fold Km in K1, K2, K3.
  assert (K4 : forall j, (j < n)%nat -> at_ Km (n - 1) j = A (n - 1)%nat j).
  { intros j Hj. rewrite K3 by auto. rewrite (SA (n - 1)%nat j) by lia. unfold sample, A.
    unfold kop, gram, x_, jitter. f_equal. destruct (Nat.eqb_spec j (n - 1)) as [->|Hne]; [now rewrite Z.eqb_refl|].
    destruct (Z.eqb_spec (Z.of_nat j) (Z.of_nat (n - 1))); auto. lia. }
  set (L0 := cresize (g_L K M g) n n (fun _ _ => 0)).
  assert (E0 : forall i j, (i < n - 1)%nat -> (j < n - 1)%nat -> at_ L0 i j = Q i j).
  { intros i j Hi Hj. destruct HL as (R1 & R2 & R3); [lia|].
    unfold L0, cresize. cbn [at_]. rewrite R1, R2.
    rewrite (proj2 (Nat.ltb_lt i (n - 1)) Hi), (proj2 (Nat.ltb_lt j (n - 1)) Hj). cbn [andb].
    apply (chol_unique (n - 1) _ _ A R3); auto. apply is_chol_minor. replace (S (n - 1)) with n by lia. exact EQ. }
  assert (E0z : forall i j, (i < n - 1)%nat -> (n - 1 <= j)%nat -> at_ L0 i j = 0).
  { intros i j Hi Hj. destruct HL as (R1 & R2 & R3); [lia|]. unfold L0, cresize. cbn [at_]. rewrite R1, R2.
    rewrite (proj2 (Nat.ltb_ge j (n - 1)) Hj). now rewrite andb_false_r. }
  destruct EQ as [[Qu Qd] Qf].
  assert (EQ : is_chol n Q A) by (split; [split|]; auto).
  assert (D0 : diag_ok (n - 1) (at_ L0) = true).
  { apply diag_ok_spec. intros i Hi. rewrite E0 by auto. assert (0 < Q i i) by (apply Qd; lia). lra. }
  rewrite D0.
  destruct (chol_row_spec n Km L0 Hn) as (C1 & C2 & C3 & C4).
  set (L1 := chol_row n Km L0) in *.
  assert (Erow : forall j, (j < n - 1)%nat -> at_ L1 (n - 1) j = Q (n - 1)%nat j).
  { induction j as [j IH] using (well_founded_induction lt_wf). intro Hj.
    rewrite C4 by auto. rewrite K4 by lia. rewrite (E0 j j) by auto.
    destruct (is_chol_eqs n Q A EQ (n - 1) j) as [_ Eq]; [lia|lia|].
    rewrite (rsum_ext j _ (fun m => Q (n - 1)%nat m * Q j m)).
    - rewrite <- Eq. field. assert (0 < Q j j) by (apply Qd; lia). lra.
    - intros m Hm. rewrite E0 by lia. rewrite IH by lia. lra. }
  set (x := at_ Km (n - 1) (n - 1) - rsum (n - 1) (fun m => at_ L1 (n - 1) m * at_ L1 (n - 1) m)).
  assert (Ex : x = Q (n - 1)%nat (n - 1)%nat * Q (n - 1)%nat (n - 1)%nat).
  { rewrite (is_chol_diag n Q A EQ (n - 1)) by lia. unfold x. rewrite K4 by lia. f_equal.
    apply rsum_ext. intros m Hm. now rewrite Erow. }
  assert (Qp : 0 < Q (n - 1)%nat (n - 1)%nat) by (apply Qd; lia).
  assert (Es : sqrt x = Q (n - 1)%nat (n - 1)%nat) by (rewrite Ex; apply sqrt_square; lra).
  fold x. destruct (Rlt_dec x 0) as [Hlt|_]; [nra|].
  set (L2 := put L1 (n - 1) (n - 1) (sqrt x)).
  assert (EL2 : meq n n (at_ L2) Q).
  { intros i j Hi Hj. unfold L2. cbn [put at_].
    destruct (Nat.eqb_spec i (n - 1)) as [->|Hi1]; destruct (Nat.eqb_spec j (n - 1)) as [->|Hj1]; cbn [andb]; auto.
    - apply Erow. lia.
    - rewrite C3 by lia. rewrite E0z by lia. symmetry. apply Qu; lia.
    - rewrite C3 by lia. apply E0; lia. }
  assert (CL : is_chol n (at_ L2) A) by (apply is_chol_ext_l with Q; auto; intros i j Hi Hj; symmetry; auto).
  assert (Rw : rows L2 = n) by (unfold L2; cbn [put rows]; now rewrite C1).
  assert (Rc : cols L2 = n) by (unfold L2; cbn [put cols]; now rewrite C2).
  unfold compute_alpha. cbn [g_L with_kernel g_obs_mean]. rewrite Rw, Rc, Hr, !Nat.eqb_refl. cbn [andb check].
  rewrite lower_diag_ok by apply CL. cbn [bind kernel_changed].
  assert (Eta : Mat n n (at_ L2) = L2) by (rewrite <- Rw at 1; rewrite <- Rc; now destruct L2).
  exists (at_ L2), Km, (fun i j => bwd n (at_ L2) (fwd n (at_ L2) (col (g_obs_mean K M g) j)) i).
  split; [exact CL|]. split; [intro o; apply alpha_solves; exact CL|].
  rewrite Eta. reflexivity.
Qed.

(** ** What the kernel routines leave alone *)
Record frame (g g' : gp) : Prop := {
  f_din : g_din K M g' = g_din K M g; f_dout : g_dout K M g' = g_dout K M g;
  f_k : g_k K M g' = g_k K M g; f_m : g_m K M g' = g_m K M g;
  f_samples : g_samples K M g' = g_samples K M g; f_obs : g_obs K M g' = g_obs K M g;
  f_obs_mean : g_obs_mean K M g' = g_obs_mean K M g; f_mean_obs : g_mean_obs K M g' = g_mean_obs K M g }.
Lemma alpha_frame g g' : compute_alpha K M g = Done g' -> frame g g' /\ g_L K M g' = g_L K M g /\
  g_inv K M g' = g_inv K M g /\ g_inv_updated K M g' = g_inv_updated K M g.
Proof. intro H. apply compute_alpha_spec in H. destruct H as (_ & _ & _ & ->). split; [split|]; auto. Qed.
Lemma full_frame g g' : compute_full_kernel K M g = Done g' -> frame g g'.
Proof.
  unfold compute_full_kernel. destruct (chol _ _) as [L|]; [|discriminate]. intro H.
  apply bind_done in H. destruct H as (g1 & H1 & H2). apply alpha_frame in H1. destruct H1 as [[] _].
  inversion H2. split; simpl in *; auto.
Qed.
Lemma incr_frame junk g g' : compute_incremental_kernel K M junk g = Done g' -> frame g g'.
Proof.
  unfold compute_incremental_kernel. destruct (diag_ok _ _); [|discriminate].
  destruct (Rlt_dec _ _); [discriminate|]. intro H.
  apply bind_done in H. destruct H as (g1 & H1 & H2). apply alpha_frame in H1. destruct H1 as [[] _].
  inversion H2. split; simpl in *; auto.
Qed.

Lemma fresh_inv g s : fresh K M g s -> inv g s.
Proof.
  destruct 1; constructor; simpl; auto; try congruence.
  - intros d H. inversion H. apply kok_new.
  - intros p H. inversion H. apply mok_new.
Qed.

Lemma data_mean_length ys p : length (data_mean ys p) = p.
Proof. apply vec_of_length. Qed.

(** the state after the data has been set and the residuals recomputed *)
Lemma after_obs_mean g g' xs ys p k m :
  g_samples K M g = xs -> xs <> [] -> length ys = length xs -> g_dout K M g = Some p -> g_k K M g = k -> g_m K M g = m ->
  rows (g_obs K M g) = length xs -> cols (g_obs K M g) = p ->
  (forall i j, (i < length xs)%nat -> (j < p)%nat -> at_ (g_obs K M g) i j = y_ ys i j) ->
  g_mean_obs K M g = data_mean ys p ->
  compute_obs_mean K M g = Done g' ->
  (0 < p)%nat /\ (exists d, g_din K M g = Some d /\ (0 < d)%nat /\ Forall (fun x => length x = d) xs) /\
  g_din K M g' = g_din K M g /\ g_dout K M g' = Some p /\ g_k K M g' = k /\ g_m K M g' = m /\ g_samples K M g' = xs /\
  g_obs K M g' = g_obs K M g /\ g_mean_obs K M g' = data_mean ys p /\
  rows (g_obs_mean K M g') = length xs /\ cols (g_obs_mean K M g') = p /\
  meq (length xs) p (at_ (g_obs_mean K M g')) (resid M m xs ys p) /\
  g_L K M g' = g_L K M g /\ g_inv K M g' = g_inv K M g /\ g_inv_updated K M g' = g_inv_updated K M g.
Proof.
  intros Hs Hne Hl Hp Hk Hm Hr Hc Hy Hmo H. apply obs_mean_spec in H.
  destruct H as (H1 & H2 & H3 & H4 & H5 & mv & ->). rewrite Hp in *. cbn [oget] in *.
  unfold nb_samples in *. rewrite Hs in *. simpl.
  split; auto. split.
  { destruct xs as [|x xs]; [congruence|]. exists (length x).
    pose proof (Forall_inv H3) as [E L0]. repeat split; auto.
    eapply Forall_impl; [|exact H3]. intros a [Ea _]. rewrite E in Ea. congruence. }
  repeat split; auto.
  intros i j Hi Hj. cbn [at_]. rewrite Hy by auto. unfold resid, prior_mean. f_equal.
  unfold mean_at, sample, mean_observation. rewrite Hs, Hm, Hmo.
  destruct xs; [congruence|reflexivity].
Qed.

Lemma add_inv j1 j2 g s x y g' : linv g s -> add_sample K M j1 j2 g x y = Done g' -> inv g' (s_step K M s (Add j1 j2 x y)).
Proof.
  intros I E.
    unfold add_sample in E. set (g1 := match g_samples K M g with [] => _ | _ => g end) in E.
    apply check_done in E. destruct E as [E1 E]. apply bind_done in E. destruct E as (g2 & E3 & E4).
    split_checks. rename H into Hd. rename H0 into Hp.
    set (s' := s_step K M s (Add j1 j2 x y)).
    assert (Q : g_k K M g1 = s_k K M s' /\ g_m K M g1 = s_m K M s' /\ s_din K M s' = Some (length x) /\ s_dout K M s' = Some (length y) /\
                g_samples K M g1 = s_xs K M s /\ s_xs K M s' = s_xs K M s ++ [x] /\ s_ys K M s' = s_ys K M s ++ [y] /\
                g_obs K M g1 = g_obs K M g /\ g_L K M g1 = g_L K M g /\ s_dm K M s' = false /\
                kok KO (length x) (s_k K M s') /\ mok MO (length y) (s_m K M s') /\
                (s_xs K M s <> [] -> s_dk K M s' = s_dk K M s /\ s_k K M s' = s_k K M s /\ s_dout K M s = Some (length y))).
    { unfold g1 in Hd, Hp |- *. unfold s', s_step. rewrite (w_samples _ _ I) in Hd, Hp |- *.
      destruct (s_xs K M s) as [|x1 xr] eqn:Ex.
      - assert (Ey : s_ys K M s = []) by (pose proof (w_len _ _ I) as Hl; rewrite Ex in Hl; destruct (s_ys K M s); [auto|discriminate]).
        unfold set_dims in *. rewrite (w_din _ _ I), (w_dout _ _ I), (w_k _ _ I), (w_m _ _ I) in *. change same with onat_eqb.
        destruct (onat_eqb (s_din K M s) (length x)) eqn:Ed; destruct (onat_eqb (s_dout K M s) (length y)) eqn:Ep;
          simpl; rewrite ?Ey, ?(w_samples _ _ I), ?Ex; repeat (match goal with H : onat_eqb _ _ = true |- _ => apply onat_eqb_spec in H end);
          repeat split; auto using kok_new, mok_new; try congruence;
          try (now apply (w_kok _ _ I)); try (now apply (w_mok _ _ I)).
      - rewrite (w_din _ _ I) in Hd. rewrite (w_dout _ _ I) in Hp. simpl.
        repeat split; auto; try apply I; auto; rewrite ?(w_samples _ _ I), ?Ex; auto. }
    destruct Q as (Qk & Qm & Qd & Qp & Qs & Qx & Qy & Qo & QL & Qdm & Qkok & Qmok & Qne).
    assert (Hlen : length (s_ys K M s') = length (s_xs K M s')) by (rewrite Qx, Qy, !app_length; simpl; rewrite (w_len _ _ I); reflexivity).
    assert (HN : N s' = S (N s)) by (unfold N; rewrite Qx, app_length; simpl; lia).
    rewrite Qs in E3.
    match type of E3 with compute_obs_mean _ _ ?gg = _ => set (g1' := gg) in E3 end.
    assert (Hor : rows (g_obs K M g1) = N s) by (rewrite Qo; apply (w_orows _ _ I)).
    assert (Hobs : forall i j, (i < length (s_xs K M s'))%nat -> (j < length y)%nat -> at_ (g_obs K M g1') i j = y_ (s_ys K M s') i j).
    { intros i j Hi Hj. unfold g1'. cbn [with_data g_obs at_]. rewrite Hor. unfold y_. rewrite Qy.
      assert (Hly : length (s_ys K M s) = N s) by apply (w_len _ _ I).
      destruct (Nat.eqb_spec i (N s)) as [->|Hne].
      - rewrite app_nth2 by lia. rewrite Hly, Nat.sub_diag. reflexivity.
      - fold (N s') in Hi. rewrite app_nth1 by lia.
        assert (Hxs : s_xs K M s <> []) by (intro E0; unfold N in *; rewrite E0 in *; simpl in *; lia).
        destruct (w_nonempty _ _ I Hxs) as (_ & _ & _ & Hc & Hat & _).
        destruct (Qne Hxs) as (_ & _ & Ep). unfold P in *. rewrite Ep in *. cbn [oget] in *.
        unfold cresize. cbn [at_]. rewrite Hor, Qo, Hc.
        rewrite (proj2 (Nat.ltb_lt i (N s))) by lia. rewrite (proj2 (Nat.ltb_lt j (length y)) Hj). cbn [andb].
        apply Hat; lia. }
    assert (Hrow1 : rows (g_obs K M g1') = length (s_xs K M s')).
    { unfold g1'. cbn [with_data g_obs rows]. fold (N s'). rewrite Hor, HN. lia. }
    assert (Hmean : g_mean_obs K M g1' = data_mean (s_ys K M s') (length y)).
    { change (g_mean_obs K M g1') with (col_means (g_obs K M g1')). unfold col_means, data_mean.
      change (cols (g_obs K M g1')) with (length y). rewrite Hrow1, Hlen. apply vec_of_ext. intros j Hj. f_equal.
      apply rsum_ext. intros i Hi. now apply Hobs. }
    eapply after_obs_mean with (xs := s_xs K M s') (ys := s_ys K M s') (p := length y) (k := s_k K M s') (m := s_m K M s') in E3; auto.
    2:{ rewrite Qx. destruct (s_xs K M s); discriminate. }
    destruct E3 as (Hp0 & (d' & Hd1 & Hd2 & Hd3) & F1 & F2 & F3 & F4 & F5 & F6 & F7 & F8 & F9 & F10 & F11 & F12 & F13).
    unfold g1' in Hd1, F1. cbn [with_data g_din] in Hd1, F1. rewrite Hd in Hd1, F1. inversion Hd1. subst d'.
    assert (HP : P s' = length y) by (unfold P; rewrite Qp; reflexivity).
    assert (Fr : frame g2 g') by (eapply incr_frame; eauto).
    destruct Fr as [R1 R2 R3 R4 R5 R6 R7 R8].
    constructor.
    + now rewrite R1, F1, Qd.
    + now rewrite R2, F2, Qp.
    + now rewrite R3, F3.
    + now rewrite R4, F4.
    + now rewrite R5, F5.
    + intros d0 E0. rewrite Qd in E0. inversion E0. subst d0. exact Qkok.
    + intros d0 E0. rewrite Qp in E0. inversion E0. subst d0. exact Qmok.
    + exact Hlen.
    + rewrite R6, F6, Hrow1. reflexivity.
    + intros Hne'. split; [exists (length x); auto|]. split; [exists (length y); auto|]. split.
      { rewrite HP, Qy. apply Forall_app. split; [|repeat constructor].
        destruct (s_xs K M s) eqn:Ex.
        - pose proof (w_len _ _ I) as Hl. rewrite Ex in Hl. destruct (s_ys K M s); [constructor|discriminate].
        - assert (Hxs : s_xs K M s <> []) by (rewrite Ex; discriminate).
          destruct (w_nonempty _ _ I Hxs) as (_ & _ & Hf & _). rewrite <- Ex in Qne. destruct (Qne Hxs) as (_ & _ & Ep).
          unfold P in Hf. rewrite Ep in Hf. exact Hf. }
      rewrite HP, R6, F6. split; [reflexivity|]. split; [intros i j Hi Hj; apply Hobs; auto|].
      split; [now rewrite R8|]. rewrite R7. split; [exact F8|]. split; [exact F9|]. split.
      { intros _. unfold Rs. rewrite Qp. cbn [oget]. exact F10. }
      intros Hdk.
      assert (HL' : (1 < nb_samples K M g2)%nat -> rows (g_L K M g2) = (nb_samples K M g2 - 1)%nat /\ cols (g_L K M g2) = (nb_samples K M g2 - 1)%nat /\
                is_chol (nb_samples K M g2 - 1) (at_ (g_L K M g2)) (gram K (g_k K M g2) (g_samples K M g2))).
      { unfold nb_samples. rewrite F5. fold (N s'). rewrite HN. intro H1.
        assert (Hxs : s_xs K M s <> []) by (intro E0; unfold N in H1; rewrite E0 in H1; simpl in H1; lia).
        destruct (Qne Hxs) as (Ek & Ek2 & Ep). rewrite Hdk in Ek. symmetry in Ek.
        destruct (w_nonempty _ _ I Hxs) as (_ & _ & _ & _ & _ & _ & HL). destruct (HL Ek) as (L1 & L2 & L3).
        rewrite F11. unfold g1'. cbn [with_data g_L]. rewrite QL. simpl. rewrite Nat.sub_0_r.
        split; [exact L1|]. split; [exact L2|].
        eapply is_chol_ext; [|exact L3]. intros i j Hi Hj. unfold G. rewrite F3, Ek2, Qx.
        unfold gram, x_. rewrite !app_nth1 by (unfold N in *; lia). reflexivity. }
      destruct (incremental_spec j2 g2 (length x)) as (L & Km & al & B1 & B2 & B3).
      * rewrite F3. exact Qkok.
      * rewrite F5. exact Hd3.
      * unfold nb_samples. rewrite F5. fold (N s'). lia.
      * unfold nb_samples. rewrite F5. exact F8.
      * exact HL'.
      * rewrite B3 in E4. inversion E4. subst g'. unfold nb_samples in *. rewrite F5, F3, F9 in *. cbn [g_L g_inv_updated g_alpha rows cols at_].
        unfold N, G. split; [reflexivity|]. split; [reflexivity|]. split; [exact B1|]. split; [discriminate|].
        intros _. split; [reflexivity|]. split; [reflexivity|].
        intros o Ho i Hi. etransitivity; [exact (B2 o i Hi)|]. unfold Rs. rewrite Qp. apply F10; auto.
Qed.

Lemma comp_inv g s xs ys b g' : linv g s -> compute K M g xs ys b = Done g' -> inv g' (s_step K M s (Compute xs ys b)).
Proof.
  intros I E.
    unfold compute in E. destruct xs as [|x0 xs]; [discriminate|]. destruct ys as [|y0 ys]; [discriminate|].
    apply check_done in E. destruct E as [E1 E]. apply check_done in E. destruct E as [E2 E].
    apply bind_done in E. destruct E as (g2 & E3 & E4). apply Nat.eqb_eq in E1. rewrite forallb_forall in E2.
    set (d := length x0) in *. set (p := length y0) in *.
    set (xs1 := x0 :: xs) in *. set (ys1 := y0 :: ys) in *.
    set (k' := if same (s_din K M s) d then s_k K M s else k_new K d).
    set (m' := if same (s_dout K M s) p then s_m K M s else m_new M p).
    assert (Sd : forall Z, set_dims K M g d p = Z -> g_din K M Z = Some d /\ g_dout K M Z = Some p /\ g_k K M Z = k' /\ g_m K M Z = m').
    { intros Z <-. unfold set_dims. rewrite (w_din _ _ I), (w_dout _ _ I), (w_k _ _ I), (w_m _ _ I).
      unfold k', m'. change same with onat_eqb.
      destruct (onat_eqb (s_din K M s) d) eqn:Ed; destruct (onat_eqb (s_dout K M s) p) eqn:Ep; simpl;
        repeat (match goal with H : onat_eqb _ _ = true |- _ => apply onat_eqb_spec in H end); auto. }
    destruct (Sd _ eq_refl) as (Sd1 & Sd2 & Sd3 & Sd4).
    assert (Hk' : kok KO d k').
    { unfold k'. change same with onat_eqb. destruct (onat_eqb (s_din K M s) d) eqn:Ed; [|apply kok_new].
      apply onat_eqb_spec in Ed. now apply (w_kok _ _ I). }
    assert (Hm' : mok MO p m').
    { unfold m'. change same with onat_eqb. destruct (onat_eqb (s_dout K M s) p) eqn:Ep; [|apply mok_new].
      apply onat_eqb_spec in Ep. now apply (w_mok _ _ I). }
    eapply after_obs_mean with (xs := xs1) (ys := ys1) (p := p) (k := k') (m := m') in E3; simpl; auto; try (unfold xs1; discriminate).
    destruct E3 as (Hp & (d' & Hd1 & Hd2 & Hd3) & F1 & F2 & F3 & F4 & F5 & F6 & F7 & F8 & F9 & F10 & F11 & F12 & F13).
    cbn [with_data g_din] in Hd1, F1. rewrite Sd1 in Hd1, F1. inversion Hd1. subst d'.
    assert (Fin : forall gg, frame g2 gg ->
      (b = true -> rows (g_L K M gg) = length xs1 /\ cols (g_L K M gg) = length xs1 /\
         is_chol (length xs1) (at_ (g_L K M gg)) (gram K k' xs1) /\ g_inv_updated K M gg = false /\
         rows (g_alpha K M gg) = length xs1 /\ cols (g_alpha K M gg) = p /\
         forall o, (o < p)%nat -> veq (length xs1) (mvec (length xs1) (gram K k' xs1) (col (g_alpha K M gg) o)) (col (g_obs_mean K M g2) o)) ->
      inv gg (s_step K M s (Compute xs1 ys1 b))).
    { intros gg [] HL.
      constructor; cbn [s_step s_din s_dout s_k s_m s_xs s_ys s_dk s_dm hd]; fold d; fold p; fold k'; fold m'.
      - rewrite f_din0, F1. reflexivity.
      - rewrite f_dout0, F2. reflexivity.
      - now rewrite f_k0, F3.
      - now rewrite f_m0, F4.
      - now rewrite f_samples0, F5.
      - intros d0 E0. inversion E0. subst. exact Hk'.
      - intros p0 E0. inversion E0. subst. exact Hm'.
      - auto.
      - rewrite f_obs0, F6. simpl. unfold N. simpl. auto.
      - intros _. split; [exists d; auto|]. split; [exists p; auto|]. split.
        { apply Forall_forall. intros y0' Hy. specialize (E2 y0' Hy). apply Nat.eqb_eq in E2. exact E2. }
        rewrite f_obs0, F6. split; [reflexivity|]. split; [reflexivity|]. split; [now rewrite f_mean_obs0|].
        rewrite f_obs_mean0. split; [exact F8|]. split; [exact F9|]. split; [intros _; exact F10|].
        intros Hb. destruct b; [|discriminate]. destruct (HL eq_refl) as (A1 & A2 & A3 & A4 & A5 & A6 & A7).
        split; [exact A1|]. split; [exact A2|]. split; [exact A3|]. split; [rewrite A4; discriminate|].
        intros _. split; [exact A5|]. split; [exact A6|].
        intros o Ho i Hi. etransitivity; [exact (A7 o Ho i Hi)|]. apply F10; auto. }
    destruct b.
    + destruct (full_kernel_spec g2 d) as (L & Km & al & B1 & B2 & B3).
      * now rewrite F3.
      * now rewrite F5.
      * unfold nb_samples. now rewrite F5.
      * unfold nb_samples in *. rewrite F5, F3 in *.
        rewrite B3 in E4. inversion E4. apply Fin.
        -- split; simpl; auto.
        -- intros _. simpl. repeat split; auto; try apply B1. intros o Ho. apply B2.
    + inversion E4. subst g'. apply Fin; [split; auto|discriminate].
Qed.

Lemma step_inv g s o g' : inv g s -> exec K M g o = Done g' -> inv g' (s_step K M s o).
Proof.
  intros I E. destruct o as [xs ys b|j1 j2 x y|p|p|a b|]; cbn [exec] in E.
  - (* compute *)
    eapply comp_inv; [apply inv_linv|]; eauto.
  - (* add_sample *)
    eapply add_inv; [apply inv_linv|]; eauto.
  - (* kernel parameters *)
    apply check_done in E. destruct E as [E1 E]. inversion E. apply Nat.eqb_eq in E1. destruct I.
    constructor; simpl; auto; try congruence.
    + intros d Hd. apply kok_set; auto. now rewrite <- v_k0.
    + intro Hx. destruct (v_nonempty0 Hx) as (A1 & A2 & A3 & A4 & A5 & A6 & A7 & A8 & A9 & A10).
      repeat (split; [assumption|]). discriminate.
  - (* mean parameters *)
    apply check_done in E. destruct E as [E1 E]. inversion E. apply Nat.eqb_eq in E1. destruct I.
    constructor; simpl; auto; try congruence.
    + intros d Hd. apply mok_set; auto. now rewrite <- v_m0.
    + intro Hx. destruct (v_nonempty0 Hx) as (A1 & A2 & A3 & A4 & A5 & A6 & A7 & A8 & A9 & A10).
      repeat (split; [assumption|]). split; [discriminate|]. intro Hk. destruct (A10 Hk) as (B1 & B2 & B3 & B4 & B5).
      repeat (split; [assumption|]). discriminate.
  - (* recompute *)
    apply check_done in E. destruct E as [E1 E]. apply Nat.ltb_lt in E1. apply bind_done in E. destruct E as (g1 & E2 & E3).
    assert (Hxs : s_xs K M s <> []) by (intro E0; unfold nb_samples in E1; rewrite (v_samples _ _ I), E0 in E1; simpl in E1; lia).
    destruct (v_nonempty _ _ I Hxs) as ((d & Hd1 & Hd2 & Hd3) & (p & Hp1 & Hp2) & A3 & A4 & A5 & A6 & A7 & A8 & A9 & A10).
    assert (HP : P s = p) by (unfold P; now rewrite Hp1). 
    assert (Q : g_din K M g1 = s_din K M s /\ g_dout K M g1 = s_dout K M s /\ g_k K M g1 = s_k K M s /\ g_m K M g1 = s_m K M s /\
      g_samples K M g1 = s_xs K M s /\ g_obs K M g1 = g_obs K M g /\ g_mean_obs K M g1 = g_mean_obs K M g /\
      rows (g_obs_mean K M g1) = N s /\ cols (g_obs_mean K M g1) = P s /\
      (s_dm K M s && negb a = false -> meq (N s) (P s) (at_ (g_obs_mean K M g1)) (Rs s)) /\
      g_L K M g1 = g_L K M g /\ g_inv K M g1 = g_inv K M g /\ g_inv_updated K M g1 = g_inv_updated K M g).
    { destruct a.
      - eapply after_obs_mean with (xs := s_xs K M s) (ys := s_ys K M s) (p := P s) (k := s_k K M s) (m := s_m K M s) in E2;
          try apply I; auto; try (rewrite ?(v_dout _ _ I), Hp1, HP; reflexivity).
        destruct E2 as (Hp0 & (d' & Hd1' & Hd2' & Hd3') & F1 & F2 & F3 & F4 & F5 & F6 & F7 & F8 & F9 & F10 & F11 & F12 & F13).
        repeat split; auto.
        + rewrite F1. apply I.
        + rewrite F2, Hp1, HP. reflexivity.
        + now rewrite F7, A6.
      - inversion E2. subst g1. rewrite andb_true_r. repeat split; auto; apply I. }
    destruct Q as (Q1 & Q2 & Q3 & Q4 & Q5 & Q6 & Q7 & Q8 & Q9 & Q10 & Q11 & Q12 & Q13).
    assert (Fr : frame g1 g') by (destruct b; [eapply full_frame; eauto|eapply alpha_frame; eauto]).
    destruct Fr as [R1 R2 R3 R4 R5 R6 R7 R8].
    constructor; cbn [s_step s_din s_dout s_k s_m s_xs s_ys s_dk s_dm]; try congruence; try apply I; auto.
    { rewrite R6, Q6. apply I. }
    intros _. split; [exists d; auto|]. split; [exists p; auto|]. split; [exact A3|].
    rewrite R6, Q6. split; [exact A4|]. split; [exact A5|]. split; [now rewrite R8, Q7|].
    rewrite R7. split; [exact Q8|]. split; [exact Q9|]. split; [exact Q10|].
    intro Hdk. change (N _) with (N s). change (P _) with (P s). change (G _) with (G s). change (Rs _) with (Rs s).
    destruct b.
    + destruct (full_kernel_spec g1 d) as (L & Km & al & B1 & B2 & B3).
      * rewrite Q3. now apply (v_kok _ _ I).
      * now rewrite Q5.
      * unfold nb_samples. now rewrite Q5.
      * rewrite B3 in E3. inversion E3. subst g'. unfold nb_samples in *. rewrite Q5, Q3, Q9 in *. cbn [g_L g_inv_updated g_alpha rows cols at_].
        unfold N, G. split; [reflexivity|]. split; [reflexivity|]. split; [exact B1|]. split; [discriminate|].
        intros Hdm. split; [reflexivity|]. split; [reflexivity|].
        intros o Ho i Hi. etransitivity; [exact (B2 o i Hi)|]. apply Q10; auto.
    + rewrite andb_true_r in Hdk. destruct (A10 Hdk) as (L1 & L2 & L3 & L4 & _).
      pose proof E3 as E4. apply alpha_frame in E4. destruct E4 as (_ & T1 & T2 & T3).
      rewrite T1, Q11, T2, Q12, T3, Q13. repeat (split; [assumption|]).
      intros Hdm. apply compute_alpha_spec in E3. destruct E3 as (_ & _ & _ & ->). cbn [g_alpha rows cols].
      rewrite Q11, L1, Q9. split; [reflexivity|]. split; [reflexivity|].
      intros o Ho i Hi. transitivity (col (g_obs_mean K M g1) o i); [|apply Q10; auto].
      unfold col at 1. cbn [at_]. apply (alpha_solves (N s) (at_ (g_L K M g)) (G s)); auto.
  - (* compute_inv_kernel *)
    unfold compute_inv_kernel in E. apply check_done in E. destruct E as [E1 E]. split_checks.
    destruct (diag_ok _ _) eqn:Ed; [|discriminate]. inversion E. clear E. subst g'.
    destruct I. constructor; simpl; auto.
    intros Hx. destruct (v_nonempty0 Hx) as (A1 & A2 & A3 & A4 & A5 & A6 & A7 & A8 & A9 & A10).
    repeat (split; [assumption|]). intro Hk. destruct (A10 Hk) as (B1 & B2 & B3 & B4 & B5).
    repeat (split; [assumption|]). split; [|exact B5]. intros _. rewrite A7. split; [reflexivity|]. split; [reflexivity|].
    apply (inv_of_is_inv (N s) _ _ B3).
Qed.

Lemma run_inv os : forall g s g', inv g s -> run K M g os = Done g' -> inv g' (meaning K M s os).
Proof.
  induction os as [|o os IH]; intros g s g' I E; cbn [run meaning fold_left] in *.
  - inversion E. now subst.
  - apply bind_done in E. destruct E as (g1 & E1 & E2). eapply IH; [|exact E2]. eapply step_inv; eauto.
Qed.

(** ** Calls respecting their preconditions succeed *)
Lemma add_progress j1 j2 x y g s : linv g s -> valid K M s (Add j1 j2 x y) -> exists g', add_sample K M j1 j2 g x y = Done g'.
Proof.
  intros I V. cbn [valid] in V.
    destruct V as (Hx & Hy & Hne). unfold add_sample.
    set (g1 := match g_samples K M g with [] => _ | _ => g end).
    assert (Q : g_din K M g1 = Some (length x) /\ g_dout K M g1 = Some (length y) /\ g_samples K M g1 = s_xs K M s /\
                g_L K M g1 = g_L K M g /\ g_obs K M g1 = g_obs K M g /\
                kok KO (length x) (g_k K M g1) /\ mok MO (length y) (g_m K M g1) /\ (s_xs K M s <> [] -> g_k K M g1 = s_k K M s)).
    { unfold g1. rewrite (w_samples _ _ I). destruct (s_xs K M s) as [|x1 xr] eqn:Ex.
      - unfold set_dims. rewrite (w_din _ _ I), (w_dout _ _ I), (w_k _ _ I), (w_m _ _ I).
        destruct (onat_eqb (s_din K M s) (length x)) eqn:Ed; destruct (onat_eqb (s_dout K M s) (length y)) eqn:Ep; simpl;
          rewrite ?(w_samples _ _ I), ?Ex;
          repeat (match goal with H : onat_eqb _ _ = true |- _ => apply onat_eqb_spec in H end);
          repeat split; auto using kok_new, mok_new; try congruence; try (now apply (w_kok _ _ I)); try (now apply (w_mok _ _ I)).
      - destruct Hne as (A & B & C); [discriminate|].
        rewrite (w_din _ _ I), (w_dout _ _ I), (w_k _ _ I), (w_m _ _ I), (w_samples _ _ I), Ex.
        repeat split; auto; [now apply (w_kok _ _ I)|now apply (w_mok _ _ I)]. }
    destruct Q as (Q1 & Q2 & Q3 & QL & Qo & Q4 & Q5 & Q6). rewrite Q1, Q2. simpl onat_eqb. rewrite !Nat.eqb_refl. cbn [andb check].
    match goal with |- context [compute_obs_mean K M ?gg] => set (g1' := gg) end.
    assert (Hrow : rows (g_obs K M g1') = nb_samples K M g1').
    { unfold g1', nb_samples. cbn [with_data g_obs rows g_samples]. rewrite app_length, Q3, Qo, (w_orows _ _ I). reflexivity. }
    assert (Hall : Forall (fun v => length v = length x) (s_xs K M s ++ [x])).
    { apply Forall_app. split; [|auto]. destruct (s_xs K M s) eqn:Ex; [constructor|]. rewrite <- Ex in *.
      assert (Hn : s_xs K M s <> []) by (rewrite Ex; discriminate).
      destruct (w_nonempty _ _ I Hn) as ((d & D1 & D2 & D3) & _).
      destruct (Hne Hn) as (A & _). rewrite D1 in A. inversion A. now subst. }
    destruct (obs_mean_ok g1' (length y)) as (g2 & E2); auto.

    + unfold g1'. cbn [with_data g_samples]. intro E0. apply app_eq_nil in E0. now destruct E0.
    + unfold g1'. simpl. rewrite Q3. intros v Hv. rewrite Forall_forall in Hall. rewrite (Hall v Hv). auto.
    + unfold g1'. cbn [with_data g_mean_obs]. apply vec_of_length.
    + rewrite E2. cbn [bind]. apply obs_mean_spec in E2. destruct E2 as (_ & _ & _ & _ & _ & mv & ->).
      match goal with |- context [compute_incremental_kernel K M j2 ?gg] => set (g2 := gg) end.
      assert (N2 : nb_samples K M g2 = S (N s)).
      { unfold nb_samples, g2, g1'. simpl. rewrite Q3, app_length. unfold N. simpl. lia. }
      destruct (incremental_spec j2 g2 (length x)) as (L & Km & al & _ & _ & E3); auto.
      * unfold g2, g1'. simpl. rewrite Q3. exact Hall.
      * lia.
      * rewrite N2. intros H1. assert (Hn : s_xs K M s <> []) by (intro E0; unfold N in H1; rewrite E0 in H1; simpl in H1; lia).
        destruct (Hne Hn) as (_ & _ & Hdk).
        destruct (w_nonempty _ _ I Hn) as (_ & _ & _ & _ & _ & _ & HL). destruct (HL Hdk) as (L1 & L2 & L3).
        unfold g2, g1'. cbn [g_L with_data g_k g_samples]. rewrite QL, Q3, (Q6 Hn). simpl. rewrite Nat.sub_0_r.
        split; [exact L1|]. split; [exact L2|]. eapply is_chol_ext; [|exact L3].
        intros i j Hi Hj. unfold G, gram, x_. rewrite !app_nth1 by (unfold N in *; lia). reflexivity.
      * eauto.
Qed.

Lemma comp_progress xs ys b g s : linv g s -> valid K M s (Compute xs ys b) -> exists g', compute K M g xs ys b = Done g'.
Proof.
  intros I V. cbn [valid] in V.
    destruct V as (Hne & Hl & [Hd Hx] & [Hp Hy]). destruct xs as [|x0 xs]; [congruence|].
    destruct ys as [|y0 ys]; [discriminate|]. cbn [hd] in *.
    unfold compute. rewrite Hl, Nat.eqb_refl. cbn [check].
    rewrite (proj2 (forallb_forall _ (y0 :: ys))).
    2:{ intros y Hy0. rewrite Forall_forall in Hy. apply Nat.eqb_eq. auto. }
    cbn [check]. set (g1 := set_dims K M g (length x0) (length y0)).
    assert (Q : g_din K M g1 = Some (length x0) /\ g_dout K M g1 = Some (length y0) /\
                kok KO (length x0) (g_k K M g1) /\ mok MO (length y0) (g_m K M g1)).
    { unfold g1, set_dims. rewrite (w_din _ _ I), (w_dout _ _ I), (w_k _ _ I), (w_m _ _ I).
      destruct (onat_eqb (s_din K M s) (length x0)) eqn:Ed; destruct (onat_eqb (s_dout K M s) (length y0)) eqn:Ep; simpl;
        repeat (match goal with H : onat_eqb _ _ = true |- _ => apply onat_eqb_spec in H end);
        repeat split; auto using kok_new, mok_new; try (now apply (w_kok _ _ I)); try (now apply (w_mok _ _ I)). }
    destruct Q as (Q1 & Q2 & Q3 & Q4).
    match goal with |- context [compute_obs_mean K M ?gg] => set (g1' := gg) end.
    destruct (obs_mean_ok g1' (length y0)) as (g2 & E2); auto.
    + intros x Hin. unfold g1' in *. simpl in Hin |- *. rewrite Forall_forall in Hx. rewrite (Hx x Hin). auto.
    + unfold g1'. cbn [with_data g_mean_obs]. apply vec_of_length.
    + rewrite E2. cbn [bind]. destruct b; [|eauto].
      apply obs_mean_spec in E2. destruct E2 as (_ & _ & _ & _ & _ & mv & ->).
      match goal with |- context [compute_full_kernel K M ?gg] => set (g2 := gg) end.
      destruct (full_kernel_spec g2 (length x0)) as (L & Km & al & _ & _ & E3); auto. eauto.
Qed.

Lemma progress g s o : inv g s -> valid K M s o -> exists g', exec K M g o = Done g'.
Proof.
  intros I V. destruct o as [xs ys b|j1 j2 x y|p|p|a b|]; cbn [exec valid] in *.
  - eapply comp_progress; [apply inv_linv|]; eauto.
  - eapply add_progress; [apply inv_linv|]; eauto.
  - unfold set_kernel_params. rewrite (v_k _ _ I), V, Nat.eqb_refl. simpl. eauto.
  - unfold set_mean_params. rewrite (v_m _ _ I), V, Nat.eqb_refl. simpl. eauto.
  - destruct V as (Hn & Hb). unfold recompute, nb_samples. rewrite (v_samples _ _ I).
    assert (E0 : (0 <? length (s_xs K M s))%nat = true) by (apply Nat.ltb_lt; destruct (s_xs K M s); simpl; [congruence|lia]).
    rewrite E0. cbn [check].
    destruct (v_nonempty _ _ I Hn) as ((d & D1 & D2 & D3) & (p & P1 & P2) & A3 & A4 & A5 & A6 & A7 & A8 & A9 & A10).
    assert (HP : P s = p) by (unfold P; now rewrite P1).
    assert (X : exists g1, (if a then compute_obs_mean K M g else Done g) = Done g1 /\ frame g (if a then g else g1) /\
                g_k K M g1 = g_k K M g /\ g_samples K M g1 = g_samples K M g /\ rows (g_obs_mean K M g1) = N s /\ g_L K M g1 = g_L K M g).
    { destruct a.
      - destruct (obs_mean_ok g p) as (g1 & E1); auto.
        + now rewrite (v_dout _ _ I).
        + now rewrite (v_samples _ _ I).
        + rewrite (v_samples _ _ I), (v_din _ _ I). intros x Hin. rewrite Forall_forall in D3. rewrite (D3 x Hin). auto.
        + rewrite (v_m _ _ I). now apply (v_mok _ _ I).
        + rewrite A6, HP. apply data_mean_length.
        + unfold nb_samples. rewrite (v_samples _ _ I). apply (v_orows _ _ I).
        + now rewrite A4.
        + exists g1. split; [exact E1|]. apply obs_mean_spec in E1. destruct E1 as (_ & _ & _ & _ & _ & mv & ->).
          split; [split; auto|]. simpl. unfold nb_samples. rewrite (v_samples _ _ I). auto.
      - exists g. split; auto. split; [split; auto|]. auto. }
    destruct X as (g1 & -> & _ & X1 & X2 & X3 & X4). cbn [bind]. destruct b.
    + destruct (full_kernel_spec g1 d) as (L & Km & al & _ & _ & E3).
      * rewrite X1, (v_k _ _ I). now apply (v_kok _ _ I).
      * now rewrite X2, (v_samples _ _ I).
      * unfold nb_samples. now rewrite X2, (v_samples _ _ I).
      * eauto.
    + destruct (A10 (Hb eq_refl)) as (L1 & L2 & L3 & _). unfold compute_alpha. rewrite X4, L1, L2, X3, !Nat.eqb_refl. cbn [andb check].
      rewrite lower_diag_ok by apply L3. eauto.
  - destruct V as (Hn & Hk).
    destruct (v_nonempty _ _ I Hn) as (_ & _ & _ & _ & _ & _ & A7 & _ & _ & A10). destruct (A10 Hk) as (L1 & L2 & L3 & _).
    unfold compute_inv_kernel. rewrite A7, L1, L2, Nat.eqb_refl. cbn [andb check]. rewrite lower_diag_ok by apply L3. eauto.
Qed.

Lemma run_progress os : forall g s, inv g s -> valid_all K M s os -> exists g', run K M g os = Done g' /\ inv g' (meaning K M s os).
Proof.
  induction os as [|o os IH]; intros g s I V; cbn [run meaning fold_left valid_all] in *; [eauto|].
  destruct V as [V1 V2]. destruct (progress g s o I V1) as (g1 & E1). rewrite E1. cbn [bind].
  apply (IH g1 (s_step K M s o)); auto. eapply step_inv; eauto.
Qed.
End Facts.
