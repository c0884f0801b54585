(** Property C48: the seed sequence can be recovered. *)
From Coq Require Import ZArith List Bool Lia Zpow_facts.
From Verif Require Import SeedModel.
Import ListNotations.
Open Scope Z_scope.

(** ** Specification *)
Definition word (z : Z) : Prop := 0 <= z < 2 ^ 32.
Definition store (count : nat) (m : list Z) : Prop := length m = count /\ Forall word m.

(** ** Words *)
Lemma W32_pos : 0 < W32. Proof. reflexivity. Qed.

Lemma word_mod z : word (z mod W32).
Proof. unfold word. change (2 ^ 32) with W32. apply Z.mod_pos_bound, W32_pos. Qed.

Lemma word_small z : word z -> z mod W32 = z.
Proof. intro H. apply Z.mod_small. exact H. Qed.

Lemma wmul_word a b : word (wmul a b).
Proof. apply word_mod. Qed.

Lemma word_testbit z : 0 <= z -> (word z <-> forall i, 32 <= i -> Z.testbit z i = false).
Proof.
  intro Hz. split.
  - intros [_ H] i Hi. apply Z.bits_above_log2; auto.
    destruct (Z.eq_dec z 0) as [->|Hn]; [simpl; lia|].
    apply Z.log2_lt_pow2; try lia.
    eapply Z.lt_le_trans; [exact H|]. apply Z.pow_le_mono_r; lia.
  - intro H. split; auto.
    destruct (Z.eq_dec z 0) as [->|Hn]; [lia|].
    apply Z.log2_lt_pow2; try lia.
    destruct (Z.lt_ge_cases (Z.log2 z) 32) as [|K]; auto.
    specialize (H (Z.log2 z) K). rewrite Z.bit_log2 in H by lia. discriminate.
Qed.

Lemma lxor_word a b : word a -> word b -> word (Z.lxor a b).
Proof.
  intros Ha Hb. assert (0 <= Z.lxor a b) by (apply Z.lxor_nonneg; destruct Ha, Hb; lia).
  apply word_testbit; auto. intros i Hi. rewrite Z.lxor_spec.
  destruct Ha as [Ha0 Ha], Hb as [Hb0 Hb].
  rewrite (proj1 (word_testbit a Ha0) (conj Ha0 Ha)), (proj1 (word_testbit b Hb0) (conj Hb0 Hb)); auto.
Qed.

Lemma shiftr_word a k : 0 <= k -> word a -> word (Z.shiftr a k).
Proof.
  intros Hk [H0 H]. assert (0 <= Z.shiftr a k) by (apply Z.shiftr_nonneg; auto).
  split; auto. rewrite Z.shiftr_div_pow2 by auto.
  apply Z.le_lt_trans with a; auto. apply Z.div_le_upper_bound; [apply Z.pow_pos_nonneg; lia|].
  assert (1 <= 2 ^ k) by (change 1 with (2 ^ 0); apply Z.pow_le_mono_r; lia). nia.
Qed.

Lemma xorshift_word a : word a -> word (xorshift a).
Proof. intro H. apply lxor_word; auto. apply shiftr_word; auto. unfold XSHIFT. lia. Qed.

Lemma xorshift_invol a : word a -> xorshift (xorshift a) = a.
Proof.
  intros H. unfold xorshift. rewrite Z.shiftr_lxor, Z.shiftr_shiftr by (unfold XSHIFT; lia).
  assert (E : Z.shiftr a (XSHIFT + XSHIFT) = 0).
  { change (XSHIFT + XSHIFT) with 32. rewrite Z.shiftr_div_pow2 by lia. apply Z.div_small. exact H. }
  rewrite E, Z.lxor_0_r, Z.lxor_assoc, Z.lxor_nilpotent, Z.lxor_0_r. reflexivity.
Qed.

Lemma lxor_cancel a b : Z.lxor (Z.lxor a b) b = a.
Proof. now rewrite Z.lxor_assoc, Z.lxor_nilpotent, Z.lxor_0_r. Qed.

(** ** Exponentiation and inverses *)
Lemma wmul_mod_l a b : wmul (a mod W32) b = wmul a b.
Proof. unfold wmul. apply Z.mul_mod_idemp_l. discriminate. Qed.
Lemma wmul_mod_r a b : wmul a (b mod W32) = wmul a b.
Proof. unfold wmul. apply Z.mul_mod_idemp_r. discriminate. Qed.
Lemma wmul_assoc a b c : wmul a (wmul b c) = wmul (wmul a b) c.
Proof. unfold wmul. rewrite Z.mul_mod_idemp_r, Z.mul_mod_idemp_l by discriminate. f_equal. ring. Qed.
Lemma wmul_comm a b : wmul a b = wmul b a.
Proof. unfold wmul. f_equal. ring. Qed.
Lemma wmul_1_r a : word a -> wmul a 1 = a.
Proof. intro H. unfold wmul. rewrite Z.mul_1_r. now apply word_small. Qed.

Lemma fast_exp_loop_spec p : forall x r,
  word r -> fast_exp_loop p x r = (r * x ^ Zpos p) mod W32.
Proof.
  induction p as [p IH|p IH|]; intros x r Hr; cbn [fast_exp_loop].
  - rewrite IH by apply wmul_word. unfold wmul at 1. rewrite Z.mul_mod_idemp_l by discriminate.
    unfold wmul. rewrite <- Z.mul_mod_idemp_r by discriminate.
    rewrite Zpower_mod by apply W32_pos.
    rewrite Z.mod_mod by discriminate. rewrite <- Zpower_mod by apply W32_pos.
    rewrite Z.mul_mod_idemp_r by discriminate. f_equal.
    rewrite Pos2Z.inj_xI, Z.pow_add_r, Z.pow_mul_r by lia. rewrite Z.pow_1_r, Z.pow_2_r. ring.
  - rewrite IH by apply wmul_word. rewrite wmul_1_r by auto.
    unfold wmul. rewrite <- Z.mul_mod_idemp_r by discriminate.
    rewrite Zpower_mod by apply W32_pos.
    rewrite Z.mod_mod by discriminate. rewrite <- Zpower_mod by apply W32_pos.
    rewrite Z.mul_mod_idemp_r by discriminate. f_equal.
    rewrite Pos2Z.inj_xO, Z.pow_mul_r by lia. rewrite Z.pow_2_r. ring.
  - unfold wmul. now rewrite Z.pow_1_r.
Qed.

Lemma fast_exp_spec x n : 0 <= n -> fast_exp x n = x ^ n mod W32.
Proof.
  intro Hn. destruct n as [|p|p]; [reflexivity| |lia].
  unfold fast_exp. rewrite fast_exp_loop_spec by (unfold word; lia). f_equal. ring.
Qed.

Lemma odd_pow2 x k : Z.odd x = true -> 0 <= k -> x ^ (2 ^ k) mod 2 ^ k = 1 mod 2 ^ k.
Proof.
  intros Hx Hk. pattern k. apply natlike_ind; auto.
  - simpl. now rewrite !Z.mod_1_r.
  - clear k Hk. intros k Hk IH. unfold Z.succ.
    rewrite !Z.pow_add_r by lia. change (2 ^ 1) with 2.
    rewrite Z.pow_mul_r by lia. set (y := x ^ (2 ^ k)) in *.
    assert (Hpos : 0 < 2 ^ k) by (apply Z.pow_pos_nonneg; lia).
    assert (exists q, y = 1 + 2 ^ k * q).
    { destruct (Z.eq_dec k 0) as [->|Hk0].
      - exists (y - 1). change (2 ^ 0) with 1. lia.
      - rewrite (Z.mod_small 1) in IH by (split; [lia|]; apply Z.pow_gt_1; lia).
        exists (y / 2 ^ k). rewrite (Z.div_mod y (2 ^ k)) at 1 by lia. lia. }
    destruct H as (q & Hq).
    assert (Hodd : Z.odd y = true).
    { unfold y. rewrite Z.odd_pow by lia. exact Hx. }
    rewrite Z.pow_2_r.
    assert (E : exists t, y * y = 1 + t * (2 ^ k * 2)).
    { apply Z.odd_spec in Hodd. destruct Hodd as (w & Hw).
      (* y*y - 1 = (y-1)(y+1) = 2^k q (2w+2) *)
      exists (q * (w + 1)). replace (y * y) with ((y - 1) * (y + 1) + 1) by ring.
      replace (y - 1) with (2 ^ k * q) by lia. replace (y + 1) with (2 * (w + 1)) by lia. ring. }
    destruct E as (t & ->). rewrite Z.mod_add by lia. reflexivity.
Qed.

Lemma inverse x : Z.odd x = true -> wmul x (fast_exp x (W32 - 1)) = 1.
Proof.
  intro Hx. rewrite fast_exp_spec by (unfold W32; lia). rewrite wmul_mod_r. unfold wmul.
  replace (x * x ^ (W32 - 1)) with (x ^ W32).
  - exact (odd_pow2 x 32 Hx ltac:(lia)).
  - replace W32 with (1 + (W32 - 1)) at 1 by (unfold W32; lia).
    rewrite Z.pow_add_r by (unfold W32; lia). now rewrite Z.pow_1_r.
Qed.

Lemma wmul_odd a b : Z.odd a = true -> Z.odd b = true -> Z.odd (wmul a b) = true.
Proof.
  intros Ha Hb. unfold wmul, W32. rewrite <- Z.bit0_odd.
  rewrite Z.mod_pow2_bits_low by lia. rewrite Z.bit0_odd, Z.odd_mul, Ha, Hb. reflexivity.
Qed.

(** the [k]-th value of hash_const *)
Fixpoint hc (k : nat) : Z := match k with O => INIT_A | S j => wmul (hc j) MULT_A end.

Lemma hc_word k : word (hc k).
Proof. destruct k; [vm_compute; split; congruence|apply wmul_word]. Qed.

Lemma hc_odd k : Z.odd (hc k) = true.
Proof. induction k; [reflexivity|]. simpl. apply wmul_odd; auto. Qed.

Lemma hc_back k : wmul (hc (S k)) INV_A = hc k.
Proof.
  cbn [hc]. rewrite <- wmul_assoc. unfold INV_A. rewrite inverse by reflexivity.
  apply wmul_1_r, hc_word.
Qed.

Lemma hc_pow k : hc k = (INIT_A * MULT_A ^ Z.of_nat k) mod W32.
Proof.
  induction k as [|k IH]; [reflexivity|]. cbn [hc]. rewrite IH, wmul_mod_l. unfold wmul.
  rewrite Nat2Z.inj_succ, Z.pow_succ_r by lia. f_equal. ring.
Qed.

(** ** One pair *)
Lemma get_put_same m i v : (i < length m)%nat -> get (put m i v) i = v.
Proof. revert i; induction m as [|x m IH]; intros [|i] H; simpl in *; try lia; auto. apply IH. lia. Qed.
Lemma get_put_other m i j v : i <> j -> get (put m i v) j = get m j.
Proof.
  revert i j; induction m as [|x m IH]; intros [|i] [|j] H; simpl; auto; try congruence.
  apply (IH i j). congruence.
Qed.
Lemma put_put m i v w : put (put m i v) i w = put m i w.
Proof. revert i; induction m as [|x m IH]; intros [|i]; simpl; auto. now rewrite IH. Qed.
Lemma put_get m i : put m i (get m i) = m.
Proof. revert i; induction m as [|x m IH]; intros [|i]; simpl; auto. f_equal. apply IH. Qed.
Lemma put_length m i v : length (put m i v) = length m.
Proof. revert i; induction m as [|x m IH]; intros [|i]; simpl; auto. Qed.
Lemma put_store count m i v : store count m -> word v -> store count (put m i v).
Proof.
  intros [H1 H2] Hv. split; [now rewrite put_length|].
  clear H1. revert i; induction H2 as [|x m Hx Hm IH]; intros [|i]; simpl; constructor; auto.
Qed.
Lemma get_word count m i : store count m -> word (get m i).
Proof.
  intros [_ H]. unfold get. destruct (nth_in_or_default i m 0) as [K|K].
  - rewrite Forall_forall in H. auto.
  - rewrite K. unfold word; lia.
Qed.

Lemma hash_value k v : hash (hc k) v = (xorshift (wmul (Z.lxor v (hc k)) (hc (S k))), hc (S k)).
Proof. reflexivity. Qed.

Lemma hash_word k v : word (fst (hash (hc k) v)).
Proof. rewrite hash_value. apply xorshift_word, wmul_word. Qed.

Lemma unmix_mix x hv : word x ->
  wmul (wadd (xorshift (mix x hv)) (wmul MIX_MULT_R hv)) MIX_INV_L = x.
Proof.
  intros Hx. unfold mix. rewrite xorshift_invol by apply word_mod.
  unfold wadd, wsub. rewrite wmul_mod_l.
  rewrite <- wmul_mod_l. rewrite Z.add_mod_idemp_l by discriminate.
  replace (wmul MIX_MULT_L x - wmul MIX_MULT_R hv + wmul MIX_MULT_R hv) with (wmul MIX_MULT_L x) by ring.
  rewrite wmul_mod_l. rewrite (wmul_comm MIX_MULT_L), <- wmul_assoc.
  unfold MIX_INV_L. rewrite inverse by reflexivity. now apply wmul_1_r.
Qed.

Lemma mix_unmix y hv : word y ->
  mix (wmul (wadd (xorshift y) (wmul MIX_MULT_R hv)) MIX_INV_L) hv = y.
Proof.
  intros Hy. unfold mix. rewrite (wmul_comm _ MIX_INV_L), wmul_assoc.
  unfold MIX_INV_L. rewrite inverse by reflexivity.
  rewrite wmul_comm, wmul_1_r by apply word_mod.
  unfold wadd, wsub. rewrite Zminus_mod_idemp_l.
  replace (xorshift y + wmul MIX_MULT_R hv - wmul MIX_MULT_R hv) with (xorshift y) by ring.
  rewrite word_small by (apply xorshift_word; auto). now apply xorshift_invol.
Qed.

(** one step forth and back, and back and forth *)
Lemma pair_unpair count m k s d : store count m -> (s < count)%nat -> (d < count)%nat -> s <> d ->
  unmix_pair (mix_pair (m, hc k) s d) s d = (m, hc k) /\
  (exists m', mix_pair (m, hc k) s d = (m', hc (S k)) /\ store count m').
Proof.
  intros Hm Hs Hd Hsd. unfold mix_pair. destruct (Nat.eqb_spec s d); [contradiction|].
  rewrite hash_value. set (hv := xorshift _).
  assert (Hhv : word hv) by apply (hash_word k (get m s)).
  split.
  - unfold unmix_pair. destruct (Nat.eqb_spec s d); [contradiction|].
    rewrite hc_back, (get_put_other m d s) by congruence. fold hv.
    rewrite get_put_same by (destruct Hm; lia).
    rewrite unmix_mix by (eapply get_word; eauto). rewrite put_put, put_get. reflexivity.
  - eexists. split; [reflexivity|]. apply put_store; auto. unfold mix. apply xorshift_word, word_mod.
Qed.

Lemma unpair_pair count m k s d : store count m -> (s < count)%nat -> (d < count)%nat -> s <> d ->
  mix_pair (unmix_pair (m, hc (S k)) s d) s d = (m, hc (S k)) /\
  (exists m', unmix_pair (m, hc (S k)) s d = (m', hc k) /\ store count m').
Proof.
  intros Hm Hs Hd Hsd. unfold unmix_pair. destruct (Nat.eqb_spec s d); [contradiction|].
  rewrite hc_back. set (hv := xorshift (wmul (Z.lxor (get m s) (hc k)) (hc (S k)))).
  split.
  - unfold mix_pair. destruct (Nat.eqb_spec s d); [contradiction|].
    rewrite hash_value, (get_put_other m d s) by congruence. fold hv.
    rewrite get_put_same by (destruct Hm; lia).
    rewrite mix_unmix by (eapply get_word; eauto). rewrite put_put, put_get. reflexivity.
  - eexists. split; [reflexivity|]. apply put_store; auto. apply wmul_word.
Qed.

(** ** Sequences of pairs *)
Definition mixes (ps : list (nat * nat)) (st : list Z * Z) :=
  fold_left (fun st p => mix_pair st (fst p) (snd p)) ps st.
Definition unmixes (ps : list (nat * nat)) (st : list Z * Z) :=
  fold_left (fun st p => unmix_pair st (fst p) (snd p)) ps st.
Definition okp (count : nat) (p : nat * nat) : Prop := (fst p < count)%nat /\ (snd p < count)%nat.
(** number of pairs that do something *)
Definition acts (ps : list (nat * nat)) : nat := length (filter (fun p => negb (fst p =? snd p)%nat) ps).

Lemma mixes_back count ps : Forall (okp count) ps -> forall m k, store count m ->
  exists m', mixes ps (m, hc k) = (m', hc (k + acts ps)) /\ store count m' /\
    unmixes (rev ps) (m', hc (k + acts ps)) = (m, hc k).
Proof.
  induction 1 as [|[s d] ps [Hs Hd] Hps IH]; intros m k Hm.
  - exists m. unfold acts. simpl. rewrite Nat.add_0_r. auto.
  - unfold mixes, unmixes, acts in *. cbn [fold_left fst snd filter rev].
    destruct (Nat.eqb_spec s d) as [->|Hsd]; cbn [negb].
    + assert (E : forall st, mix_pair st d d = st) by (intro; unfold mix_pair; now rewrite Nat.eqb_refl).
      assert (E' : forall st, unmix_pair st d d = st) by (intro; unfold unmix_pair; now rewrite Nat.eqb_refl).
      rewrite E. destruct (IH m k Hm) as (m' & H1 & H2 & H3). exists m'. rewrite fold_left_app. cbn [fold_left fst snd]. rewrite E'. auto.
    + simpl in Hs, Hd. destruct (pair_unpair count m k s d Hm Hs Hd Hsd) as (B & m1 & E1 & S1).
      rewrite E1 in *. destruct (IH m1 (S k) S1) as (m' & H1 & H2 & H3).
      cbn [length]. replace (k + S (length (filter (fun p => negb (fst p =? snd p)%nat) ps)))%nat
        with (S k + length (filter (fun p => negb (fst p =? snd p)%nat) ps))%nat by lia.
      exists m'. split; [exact H1|]. split; [exact H2|]. rewrite fold_left_app. cbn [fold_left fst snd]. rewrite H3. exact B.
Qed.

Lemma unmixes_forth count ps : Forall (okp count) ps -> forall m k, store count m ->
  exists m', unmixes (rev ps) (m, hc (k + acts ps)) = (m', hc k) /\ store count m' /\
    mixes ps (m', hc k) = (m, hc (k + acts ps)).
Proof.
  intro H. induction H as [|[s d] ps [Hs Hd] Hps IH]; intros m k Hm.
  - exists m. unfold acts. simpl. rewrite Nat.add_0_r. auto.
  - unfold mixes, unmixes, acts in *. cbn [fold_left fst snd filter rev].
    rewrite fold_left_app. cbn [fold_left fst snd].
    destruct (Nat.eqb_spec s d) as [->|Hsd]; cbn [negb].
    + assert (E : forall st, mix_pair st d d = st) by (intro; unfold mix_pair; now rewrite Nat.eqb_refl).
      assert (E' : forall st, unmix_pair st d d = st) by (intro; unfold unmix_pair; now rewrite Nat.eqb_refl).
      destruct (IH m k Hm) as (m' & H1 & H2 & H3). exists m'. rewrite E', E. auto.
    + simpl in Hs, Hd. cbn [length].
      replace (k + S (length (filter (fun p => negb (fst p =? snd p)%nat) ps)))%nat
        with (S k + length (filter (fun p => negb (fst p =? snd p)%nat) ps))%nat by lia.
      destruct (IH m (S k) Hm) as (m1 & H1 & H2 & H3). rewrite H1.
      destruct (unpair_pair count m1 k s d H2 Hs Hd Hsd) as (B & m' & E1 & S1).
      rewrite E1 in *. exists m'. split; [reflexivity|]. split; [exact S1|]. rewrite B. exact H3.
Qed.

Definition all_pairs (count : nat) : list (nat * nat) := list_prod (seq 0 count) (seq 0 count).

Lemma fold_prod {A} (f : A -> nat -> nat -> A) l1 l2 : forall a,
  fold_left (fun a i => fold_left (fun a j => f a i j) l2 a) l1 a
  = fold_left (fun a p => f a (fst p) (snd p)) (list_prod l1 l2) a.
Proof.
  induction l1 as [|i l1 IH]; intro a; simpl; auto.
  rewrite fold_left_app, IH. f_equal.
  clear. revert a; induction l2 as [|j l2 IH]; intro a; simpl; auto.
Qed.

Lemma rev_prod (l1 l2 : list nat) : list_prod (rev l1) (rev l2) = rev (list_prod l1 l2).
Proof.
  induction l1 as [|i l1 IH]; simpl; auto.
  rewrite rev_app_distr, <- map_rev.
  assert (Happ : forall a b (l : list nat), list_prod (a ++ b) l = list_prod a l ++ @list_prod nat nat b l).
  { clear. induction a as [|x a IH]; intros b l; simpl; auto. now rewrite IH, app_assoc. }
  rewrite Happ, IH. simpl. now rewrite app_nil_r.
Qed.

Lemma mix_second_pairs count st : mix_second count st = mixes (all_pairs count) st.
Proof. apply (fold_prod mix_pair). Qed.
Lemma unmix_second_pairs count st : unmix_second count st = unmixes (rev (all_pairs count)) st.
Proof. unfold unmix_second. rewrite (fold_prod unmix_pair), rev_prod. reflexivity. Qed.

Lemma all_pairs_ok count : Forall (okp count) (all_pairs count).
Proof.
  apply Forall_forall. intros [i j] H. apply in_prod_iff in H. rewrite !in_seq in H. split; simpl; lia.
Qed.

Lemma acts_app a b : acts (a ++ b) = (acts a + acts b)%nat.
Proof. unfold acts. now rewrite filter_app, app_length. Qed.

Lemma acts_all count : (acts (all_pairs count) + count = count * count)%nat.
Proof.
  assert (Row : forall n i a, (a <= i < a + n)%nat -> (acts (map (fun j => (i, j)) (seq a n)) + 1 = n)%nat).
  { induction n as [|n IH]; intros i a H; [lia|]. unfold acts in *. cbn [seq map filter fst snd].
    destruct (Nat.eqb_spec i a) as [->|Hne]; cbn [negb].
    - assert (K : forall n b, (a < b)%nat ->
        length (filter (fun p => negb (fst p =? snd p)%nat) (map (fun j => (a, j)) (seq b n))) = n).
      { clear. induction n as [|n IH]; intros b Hb; auto. cbn [seq map filter fst snd].
        destruct (Nat.eqb_spec a b); [lia|]. cbn [negb length]. now rewrite IH by lia. }
      rewrite K by lia. lia.
    - cbn [length]. specialize (IH i (S a)). lia. }
  unfold all_pairs.
  assert (Gen : forall l, (forall i, In i l -> (i < count)%nat) ->
    (acts (list_prod l (seq 0 count)) + length l = length l * count)%nat).
  { induction l as [|i l IH]; intro H; [reflexivity|]. cbn [list_prod length]. rewrite acts_app.
    pose proof (Row count i 0%nat). assert (Hi : (i < count)%nat) by (apply H; simpl; auto).
    assert (Hr : (acts (list_prod l (seq 0 count)) + length l = length l * count)%nat) by (apply IH; intros; apply H; simpl; auto).
    lia. }
  specialize (Gen (seq 0 count)). rewrite seq_length in Gen. apply Gen. intros i Hi. apply in_seq in Hi. lia.
Qed.

(** ** First loop *)
Lemma unhash_hash k v : word v ->
  Z.lxor (wmul (xorshift (fst (hash (hc k) v))) (fast_exp (hc (S k)) (W32 - 1))) (hc k) = v.
Proof.
  intro Hv. rewrite hash_value. cbn [fst]. rewrite xorshift_invol by apply wmul_word.
  rewrite <- wmul_assoc, inverse by apply hc_odd.
  rewrite wmul_1_r by (apply lxor_word; auto using hc_word). apply lxor_cancel.
Qed.

Lemma hash_unhash k x : word x ->
  fst (hash (hc k) (Z.lxor (wmul (xorshift x) (fast_exp (hc (S k)) (W32 - 1))) (hc k))) = x.
Proof.
  intro Hx. rewrite hash_value. cbn [fst]. rewrite lxor_cancel.
  rewrite <- wmul_assoc, (wmul_comm (fast_exp _ _)), inverse by apply hc_odd.
  rewrite wmul_1_r by (apply xorshift_word; auto). now apply xorshift_invol.
Qed.

Lemma mix_first_spec count : forall inp k, length inp = count -> Forall word inp ->
  exists m, mix_first count inp (hc k) = (m, [], hc (k + count)) /\ store count m /\
    rev (unhash_rev (rev m) (hc (k + count))) = inp.
Proof.
  induction count as [|c IH]; intros inp k Hl Hw.
  - destruct inp; [|discriminate]. exists []. simpl. rewrite Nat.add_0_r. repeat split; auto.
  - destruct inp as [|x r]; [discriminate|]. inversion Hw as [|? ? Hx Hr]; subst.
    simpl in Hl. cbn [mix_first]. destruct (hash (hc k) x) as [e h1] eqn:Eh.
    assert (h1 = hc (S k)) by (rewrite hash_value in Eh; inversion Eh; reflexivity). subst h1.
    destruct (IH r (S k)) as (m & E1 & [L S1] & B); [lia|auto|].
    rewrite E1. exists (e :: m). replace (k + S c)%nat with (S k + c)%nat by lia.
    assert (He : e = fst (hash (hc k) x)) by (rewrite Eh; reflexivity).
    split; [reflexivity|]. split.
    + split; [simpl; lia|]. constructor; auto. rewrite He. apply hash_word.
    + cbn [rev].
      assert (U : forall l x h n, h = hc (n + length l) ->
        unhash_rev (l ++ [x]) h = unhash_rev l h ++ [Z.lxor (wmul (xorshift x) (fast_exp (hc n) (W32 - 1))) (wmul (hc n) INV_A)]).
      { clear. induction l as [|y l IH]; intros x h n Hh.
        - cbn [length] in Hh. rewrite Nat.add_0_r in Hh. subst h. cbn [app unhash_rev]. reflexivity.
        - cbn [app unhash_rev]. rewrite (IH x _ n); [reflexivity|].
          rewrite Hh. cbn [length]. rewrite Nat.add_succ_r. apply hc_back. }
      rewrite (U (rev m) e _ (S k)) by (rewrite rev_length, L; reflexivity).
      rewrite rev_app_distr. cbn [rev app]. rewrite B, hc_back, He, unhash_hash by auto. reflexivity.
Qed.

Lemma unhash_rev_spec m : forall k, Forall word m ->
  let inp := rev (unhash_rev (rev m) (hc (k + length m))) in
  Forall word inp /\ length inp = length m /\ mix_first (length m) inp (hc k) = (m, [], hc (k + length m)).
Proof.
  induction m as [|e m IH]; intros k Hm; cbn zeta.
  - simpl. rewrite Nat.add_0_r. auto.
  - inversion Hm as [|? ? He Hm']; subst.
    assert (U : forall l x h n, h = hc (n + length l) ->
      unhash_rev (l ++ [x]) h = unhash_rev l h ++ [Z.lxor (wmul (xorshift x) (fast_exp (hc n) (W32 - 1))) (wmul (hc n) INV_A)]).
    { clear. induction l as [|y l IH]; intros x h n Hh.
      - cbn [length] in Hh. rewrite Nat.add_0_r in Hh. subst h. cbn [app unhash_rev]. reflexivity.
      - cbn [app unhash_rev]. rewrite (IH x _ n); [reflexivity|].
        rewrite Hh. cbn [length]. rewrite Nat.add_succ_r. apply hc_back. }
    destruct (IH (S k) Hm') as (H1 & H2 & H3). cbn zeta in *.
    replace (k + length (e :: m))%nat with (S k + length m)%nat by (simpl; lia).
    cbn [rev]. rewrite (U (rev m) e _ (S k)) by (rewrite rev_length; reflexivity).
    rewrite rev_app_distr. cbn [rev app]. rewrite hc_back. clear U.
    set (v := Z.lxor _ _). split; [|split].
    + constructor; auto. apply lxor_word; [apply wmul_word|apply hc_word].
    + cbn [length]. now rewrite H2.
    + cbn [length mix_first].
      assert (E : hash (hc k) v = (e, hc (S k))).
      { rewrite <- (hash_unhash k e He). fold v. rewrite hash_value. reflexivity. }
      rewrite E, H3. reflexivity.
Qed.

(** ** One round *)
Lemma final_const count :
  wmul INIT_A (fast_exp MULT_A (Z.of_nat count * Z.of_nat count mod W32)) = hc (count * count).
Proof.
  rewrite fast_exp_spec by (apply Z.mod_pos_bound; reflexivity).
  rewrite wmul_mod_r, hc_pow. unfold wmul. rewrite Nat2Z.inj_mul.
  set (n := Z.of_nat count * Z.of_nat count).
  (* MULT_A ^ W32 = 1 mod W32 *)
  assert (P : MULT_A ^ n mod W32 = MULT_A ^ (n mod W32) mod W32).
  { rewrite (Z.div_mod n W32) at 1 by discriminate.
    assert (0 <= n) by (unfold n; nia).
    rewrite Z.pow_add_r; [|apply Z.mul_nonneg_nonneg; [unfold W32; lia|apply Z.div_pos; [lia|reflexivity]]
                          |apply Z.mod_pos_bound; reflexivity].
    rewrite Z.pow_mul_r by first [now (unfold W32; lia) | apply Z.div_pos; [lia|reflexivity]].
    rewrite <- Z.mul_mod_idemp_l by discriminate.
    rewrite Zpower_mod by reflexivity.
    assert (Q : MULT_A ^ W32 mod W32 = 1).
    { exact (odd_pow2 MULT_A 32 eq_refl ltac:(lia)). }
    rewrite Q, Z.pow_1_l by (apply Z.div_pos; [lia|reflexivity]).
    rewrite Z.mul_1_l. reflexivity. }
  rewrite <- Z.mul_mod_idemp_r by discriminate. rewrite <- P.
  now rewrite Z.mul_mod_idemp_r by discriminate.
Qed.

Lemma mix_entropy_back count inp : length inp = count -> Forall word inp ->
  store count (mix_entropy count inp) /\ unmix_entropy count (mix_entropy count inp) = inp.
Proof.
  intros Hl Hw. unfold mix_entropy.
  destruct (mix_first_spec count inp 0 Hl Hw) as (m & E1 & S1 & B1). cbn [hc Nat.add] in E1. rewrite E1.
  rewrite mix_second_pairs.
  destruct (mixes_back count (all_pairs count) (all_pairs_ok count) m (0 + count) S1) as (m' & E2 & S2 & B2).
  change (hc (0 + count)) with (hc count) in *. rewrite E2. unfold mix_third. cbn [fold_left fst].
  split; auto. unfold unmix_entropy. rewrite final_const, unmix_second_pairs.
  replace (count * count)%nat with (0 + count + acts (all_pairs count))%nat by (pose proof (acts_all count); lia).
  rewrite B2. exact B1.
Qed.

Lemma unmix_entropy_forth count m : store count m ->
  store count (unmix_entropy count m) /\ mix_entropy count (unmix_entropy count m) = m.
Proof.
  intros Sm. unfold unmix_entropy. rewrite final_const, unmix_second_pairs.
  replace (count * count)%nat with (count + acts (all_pairs count))%nat by (pose proof (acts_all count); lia).
  destruct (unmixes_forth count (all_pairs count) (all_pairs_ok count) m count Sm) as (m1 & E1 & [L1 W1] & F1).
  rewrite E1. destruct (unhash_rev_spec m1 0 W1) as (H1 & H2 & H3). cbn [Nat.add] in *.
  rewrite L1 in *. split; [split; auto|].
  unfold mix_entropy. cbn [hc] in H3. rewrite H3, mix_second_pairs, F1. reflexivity.
Qed.

(** C48: for every number of words and mixing rounds, the seeds given by param() for an entropy
    store re-create exactly that store *)
Theorem C48_param_recreates_the_store :
  forall count rounds m, (1 <= rounds)%nat -> store count m ->
    store count (param rounds count m) /\ seed count rounds (param rounds count m) = m.
Proof.
  assert (G : forall rounds count m, store count m ->
    store count (param (S rounds) count m) /\
    stir rounds count (mix_entropy count (param (S rounds) count m)) = m).
  { induction rounds as [|r IH]; intros count m Sm.
    - cbn [param stir]. now apply unmix_entropy_forth.
    - destruct (unmix_entropy_forth count m Sm) as [S1 F1].
      change (param (S (S r)) count m) with (param (S r) count (unmix_entropy count m)).
      destruct (IH count (unmix_entropy count m) S1) as [S2 F2]. split; auto.
      assert (Hst : forall n x, stir (S n) count x = mix_entropy count (stir n count x)).
      { clear. induction n as [|n IH]; intro x; [reflexivity|]. cbn [stir] in *. now rewrite IH. }
      rewrite Hst, F2. exact F1. }
  intros count [|rounds] m Hr Sm; [lia|]. unfold seed. rewrite Nat.sub_succ, Nat.sub_0_r. apply G. exact Sm.
Qed.

(** C48: and param() gives back the [count] seeds the sequence was made of (the map from seeds to
    stores is a bijection) *)
Theorem C48_seeds_are_recovered :
  forall count rounds inp, (1 <= rounds)%nat -> store count inp ->
    store count (seed count rounds inp) /\ param rounds count (seed count rounds inp) = inp.
Proof.
  assert (G : forall rounds count inp, store count inp ->
    store count (stir rounds count (mix_entropy count inp)) /\
    param (S rounds) count (stir rounds count (mix_entropy count inp)) = inp).
  { induction rounds as [|r IH]; intros count inp [L Wi].
    - cbn [param stir]. now apply mix_entropy_back.
    - destruct (mix_entropy_back count inp L Wi) as [S1 B1].
      destruct (IH count (mix_entropy count inp) S1) as [S2 B2].
      cbn [stir]. split; auto.
      assert (Hp : forall n x, param (S n) count x = unmix_entropy count (param n count x)).
      { clear. induction n as [|n IH]; intro x; [reflexivity|]. cbn [param] in *. now rewrite IH. }
      rewrite Hp, B2. exact B1. }
  intros count [|rounds] inp Hr Hi; [lia|]. unfold seed. rewrite Nat.sub_succ, Nat.sub_0_r. apply G. exact Hi.
Qed.

(** C48: two stores that produce the same first [count] words are equal, so distinct stores give
    distinct streams *)
Theorem C48_generate_injective :
  forall count m1 m2 n, (count <= n)%nat -> store count m1 -> store count m2 ->
    generate n m1 = generate n m2 -> m1 = m2.
Proof.
  assert (Hget : forall n i m1 m2 h, Z.odd h = true -> store (i + n) m1 -> store (i + n) m2 ->
    forall n', (n <= n')%nat -> generate_from n' m1 i h = generate_from n' m2 i h ->
    forall j, (i <= j < i + n)%nat -> get m1 j = get m2 j).
  { induction n as [|n IH]; intros i m1 m2 h Hh S1 S2 n' Hn E j Hj; [lia|].
    destruct n' as [|n']; [lia|]. cbn [generate_from] in E. pose proof (f_equal (hd 0) E) as E1. pose proof (f_equal (@tl Z) E) as E2. cbn [hd tl] in E1, E2.
    set (h1 := wmul h MULT_B) in *.
    assert (Hh1 : Z.odd h1 = true) by (apply wmul_odd; auto).
    assert (Hi : get m1 i = get m2 i).
    { assert (W1 : word (get m1 i)) by (eapply get_word; eauto).
      assert (W2 : word (get m2 i)) by (eapply get_word; eauto).
      apply (f_equal xorshift) in E1. rewrite !xorshift_invol in E1 by apply wmul_word.
      apply (f_equal (fun z => wmul z (fast_exp h1 (W32 - 1)))) in E1.
      rewrite <- !wmul_assoc, !inverse in E1 by auto. unfold wmul in E1. rewrite !Z.mul_1_r in E1.
      assert (Q : forall z, word z -> Z.lxor (Z.lxor z h mod W32) (h mod W32) = z).
      { intros z Hz. rewrite <- !Z.land_ones with (n := 32) by lia.
        apply Z.bits_inj'. intros b Hb. rewrite Z.lxor_spec, !Z.land_spec, Z.lxor_spec.
        destruct (Z.lt_ge_cases b 32) as [Hlt|Hge].
        - rewrite Z.ones_spec_low by lia. destruct (Z.testbit z b), (Z.testbit h b); reflexivity.
        - rewrite Z.ones_spec_high by lia. rewrite !andb_false_r. simpl.
          destruct Hz as [Hz0 Hz]. symmetry. apply (proj1 (word_testbit z Hz0) (conj Hz0 Hz)); auto. }
      rewrite <- (Q (get m1 i) W1), E1. apply Q; auto. }
    destruct (Nat.eq_dec i j) as [<-|Hne]; auto.
    destruct S1 as [L1 V1], S2 as [L2 V2].
    assert (Hl1 : (S i =? length m1)%nat = false) by (apply Nat.eqb_neq; lia).
    assert (Hl2 : (S i =? length m2)%nat = false) by (apply Nat.eqb_neq; lia).
    rewrite Hl1, Hl2 in E2.
    apply (IH (S i) m1 m2 h1 Hh1) with (n' := n'); auto; try (split; auto; lia); lia. }
  intros count m1 m2 n Hn S1 S2 E.
  assert (K : forall j, (j < count)%nat -> get m1 j = get m2 j).
  { intros j Hj. apply (Hget count O m1 m2 INIT_B eq_refl S1 S2 n Hn E). lia. }
  destruct S1 as [L1 _], S2 as [L2 _].
  apply nth_ext with (d := 0) (d' := 0); [congruence|]. intros j Hj. apply K. lia.
Qed.

(** limbo's store: 4 words (auto_seed_128), one round *)
Example c48_case :
  let m := seed 4 1 [0xdeadbeef; 1; 2; 3; 4; 5; 6] in
  m = seed 4 1 (param 1 4 m) /\ length m = 4%nat /\ param 1 4 (seed 4 1 [7; 8; 9; 10]) = [7; 8; 9; 10] /\
  param 2 2 (seed 2 2 [7; 8]) = [7; 8].
Proof. vm_compute. auto. Qed.
Example c48_hyp : store 4 (seed 4 1 [0xdeadbeef; 1; 2; 3; 4; 5; 6]).
Proof.
  split; [reflexivity|]. apply Forall_forall. intros z Hz.
  assert (K : forallb (fun z => (0 <=? z) && (z <? 2 ^ 32)) (seed 4 1 [0xdeadbeef; 1; 2; 3; 4; 5; 6]) = true)
    by (vm_compute; reflexivity).
  rewrite forallb_forall in K. specialize (K z Hz). apply andb_prop in K. destruct K as [K1 K2].
  apply Z.leb_le in K1. apply Z.ltb_lt in K2. exact (conj K1 K2).
Qed.

Print Assumptions C48_param_recreates_the_store.
Print Assumptions C48_seeds_are_recovered.
Print Assumptions C48_generate_injective.
