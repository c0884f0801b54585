(** C35: the thinning done by SparsifiedGP. *)
From Coq Require Import ZArith List Bool Permutation Sorted Lia Reals Lra.
From Coq Require Import Floats.SpecFloat.
From Flocq Require Import Core IEEE754.BinarySingleNaN.
From Verif Require Import F64 F64R SparseModel SparseSpec.
Local Close Scope Z_scope. Local Close Scope R_scope. Local Open Scope nat_scope.
Import ListNotations.

Section Sorting.
Lemma insert_perm x l : Permutation (insert x l) (x :: l).
Proof.
  induction l as [|y l IH]; simpl; auto. destruct (flt x y); auto.
  rewrite IH. apply perm_swap.
Qed.
Lemma sort_perm l : Permutation (sort l) l.
Proof. induction l; simpl; auto. now rewrite insert_perm, IHl. Qed.
Definition asc := StronglySorted (fun u v : F => flt v u = false).
Lemma insert_sorted x l : notnan x -> List.Forall notnan l -> asc l -> asc (insert x l).
Proof.
  intros Hx Hl H. induction H as [|y l H IH Hy]; simpl.
  - constructor; constructor.
  - inversion Hl; subst. destruct (flt x y) eqn:E.
    + constructor; [now constructor|]. constructor; [now apply flt_asym|].
      rewrite Forall_forall in Hy |- *. intros z Hz. specialize (Hy z Hz).
      apply (nflt_trans z y x); auto. now apply flt_asym.
    + constructor; [now apply IH|]. rewrite Forall_forall in Hy |- *. intros z Hz.
      apply (Permutation_in _ (insert_perm x l)) in Hz. destruct Hz as [<-|Hz]; auto.
Qed.
Lemma sort_sorted l : List.Forall notnan l -> asc (sort l).
Proof.
  induction 1 as [|x l Hx Hl IH]; simpl; [constructor|]. apply insert_sorted; auto.
  rewrite Forall_forall in Hl |- *. intros y Hy. apply Hl. now apply (Permutation_in _ (sort_perm l)).
Qed.
Lemma asc_firstn n l : asc l -> asc (firstn n l).
Proof.
  intros H. revert n. induction H as [|y l H IH Hy]; intros [|n]; simpl; try (now constructor).
  constructor; [apply IH|]. rewrite Forall_forall in Hy |- *. intros z Hz. apply Hy.
  rewrite <- (firstn_skipn n l). apply in_or_app; auto.
Qed.
Lemma asc_split n l u v : asc l -> In u (firstn n l) -> In v (skipn n l) -> flt v u = false.
Proof.
  intros H. revert n. induction H as [|y l H IH Hy]; intros [|n] Hu Hv; simpl in *; try tauto.
  destruct Hu as [->|Hu]; eauto. rewrite Forall_forall in Hy. apply Hy.
  rewrite <- (firstn_skipn n l). apply in_or_app; auto.
Qed.
End Sorting.

Section Lists.
Lemma erase_without {T} k (l : list T) : k < length l -> exists x, without k l x (erase k l) /\ nth_error l k = Some x.
Proof.
  revert k. induction l as [|y l IH]; intros [|k] H; simpl in *; try lia.
  - exists y. split; constructor.
  - destruct (IH k ltac:(lia)) as (x & Hx & E). exists x. split; auto. unfold erase in *. simpl. now constructor.
Qed.
Lemma erase_length {T} k (l : list T) : k < length l -> S (length (erase k l)) = length l.
Proof. intros H. unfold erase. rewrite app_length, firstn_length, skipn_length. lia. Qed.
Lemma nth_ext_error {T} (l m : list T) : (forall i, nth_error l i = nth_error m i) -> l = m.
Proof.
  revert m. induction l as [|x l IH]; intros [|y m] H; auto.
  - specialize (H 0). discriminate.
  - specialize (H 0). discriminate.
  - f_equal; [specialize (H 0); inversion H; auto|]. apply IH. intros i. apply (H (S i)).
Qed.
Lemma fst_combine {T U} (l : list T) (m : list U) : length l = length m -> map fst (combine l m) = l.
Proof. revert m. induction l as [|x l IH]; intros [|y m] H; simpl in *; auto; try lia. now rewrite IH by lia. Qed.
Lemma erase_nth {T} k (l : list T) i : nth_error (erase k l) i = nth_error l (if (i <? k)%nat then i else S i).
Proof.
  revert k i. induction l as [|y l IH]; intros k i.
  - unfold erase. rewrite firstn_nil, skipn_nil. simpl. destruct (i <? k)%nat; destruct i; reflexivity.
  - destruct k as [|k]; [reflexivity|]. destruct i as [|i]; [reflexivity|].
    change (nth_error (erase (S k) (y :: l)) (S i)) with (nth_error (erase k l) i). rewrite IH.
    change (S i <? S k)%nat with (i <? k)%nat. destruct (i <? k)%nat; reflexivity.
Qed.
Lemma erase_map {T U} (f : T -> U) k l : map f (erase k l) = erase k (map f l).
Proof. unfold erase. now rewrite map_app, firstn_map, skipn_map. Qed.
Lemma erase_combine {T U} k (l : list T) (m : list U) : length l = length m -> combine (erase k l) (erase k m) = erase k (combine l m).
Proof.
  revert k m. induction l as [|x l IH]; intros k [|y m] H; simpl in H; try lia.
  - unfold erase. now rewrite !firstn_nil, !skipn_nil.
  - destruct k as [|k]; [reflexivity|]. change (combine (erase (S k) (x :: l)) (erase (S k) (y :: m))) with ((x, y) :: combine (erase k l) (erase k m)).
    rewrite IH by lia. reflexivity.
Qed.
Lemma erase_in {T} k (l : list T) x : In x (erase k l) -> In x l.
Proof.
  unfold erase. intros H. rewrite <- (firstn_skipn k l). apply in_app_or in H. apply in_or_app. destruct H as [H|H]; auto.
  right. clear -H. revert k H. induction l as [|y l IH]; intros [|k] H; simpl in *; eauto.
Qed.
Lemma without_sublist {T} k (l : list T) x r : without k l x r -> sublist r l.
Proof.
  induction 1; constructor; auto. induction l; constructor; auto.
Qed.
Lemma without_length {T} k (l : list T) x r : without k l x r -> length l = S (length r).
Proof. induction 1; simpl; lia. Qed.
Lemma sublist_trans {T} (a b c : list T) : sublist a b -> sublist b c -> sublist a c.
Proof.
  intros H H2. revert a H. induction H2 as [|x b c H2 IH|x b c H2 IH]; intros a H; auto.
  - inversion H; subst; constructor; auto.
  - constructor; auto.
Qed.
Lemma sublist_refl {T} (a : list T) : sublist a a.
Proof. induction a; constructor; auto. Qed.
End Lists.

Section Thin.
Variables (A B : Type) (norm : A -> A -> F) (dim : A -> nat) (p : nat).

(** the matrix holds the distances of the points, off the diagonal *)
Definition dist_ok (dist : nat -> nat -> F) (l : list A) : Prop :=
  forall i j a b, i <> j -> nth_error l i = Some a -> nth_error l j = Some b -> dist i j = norm a b.

Lemma skip_inj k i j : (if (i <? k)%nat then i else S i) = (if (j <? k)%nat then j else S j) -> i = j.
Proof. destruct (Nat.ltb_spec i k); destruct (Nat.ltb_spec j k); lia. Qed.

Lemma dist_ok_erase dist l k : dist_ok dist l -> dist_ok (remove_row k (remove_column k dist)) (erase k l).
Proof.
  intros H i j a b N Ha Hb. rewrite erase_nth in Ha, Hb. unfold remove_row, remove_column.
  apply H; auto. intros E. apply skip_inj in E. contradiction.
Qed.

Lemma map_seq_nth {T} (f : nat -> T) n i : i < n -> nth_error (map f (seq 0 n)) i = Some (f i).
Proof. intros H. apply map_nth_error. rewrite nth_error_nth' with (d := 0); [|now rewrite seq_length]. now rewrite seq_nth. Qed.

Lemma row_others dist l i a : dist_ok dist l -> nth_error l i = Some a ->
  erase i (map (dist i) (seq 0 (length l))) = map (norm a) (erase i l).
Proof.
  intros H Ha. assert (Hi : i < length l) by (apply nth_error_Some; congruence).
  apply nth_ext_error. intros j. rewrite erase_map, !erase_nth.
  set (j' := if (j <? i)%nat then j else S j). assert (N : i <> j') by (unfold j'; destruct (Nat.ltb_spec j i); lia).
  destruct (lt_dec j' (length l)) as [L|L].
  - rewrite map_seq_nth by auto. rewrite nth_error_map. destruct (nth_error l j') as [b|] eqn:Eb; [|apply nth_error_None in Eb; lia].
    simpl. f_equal. apply (H i j' a b); auto.
  - assert (X : nth_error (map (dist i) (seq 0 (length l))) j' = None) by (apply nth_error_None; rewrite map_length, seq_length; lia).
    assert (Y : nth_error (map (norm a) l) j' = None) by (apply nth_error_None; rewrite map_length; lia).
    congruence.
Qed.

Lemma row_density_spec dist (l : list A) D i a : dist_ok dist l -> nth_error l i = Some a -> S D <= length l ->
  (forall b, In b l -> notnan (norm a b)) ->
  exists d, row_density D (length l) dist i = Ok d /\
    forall (obs : list B), length obs = length l -> crowding A B norm D (combine l obs) i d.
Proof.
  intros H Ha HD Hn. assert (Hi : i < length l) by (apply nth_error_Some; congruence).
  unfold row_density. set (row := map (dist i) (seq 0 (length l))).
  change (firstn i row ++ skipn (S i) row) with (erase i row). unfold row. rewrite (row_others _ _ _ _ H Ha).
  set (nb := map (norm a) (erase i l)).
  assert (Ln : S (length nb) = length l) by (unfold nb; rewrite map_length; now apply erase_length).
  assert (Nn : List.Forall notnan nb).
  { apply Forall_forall. intros x Hx. apply in_map_iff in Hx. destruct Hx as (b & <- & Hb). apply Hn. eapply erase_in; eauto. }
  replace (D <=? length nb) with true by (symmetry; apply Nat.leb_le; lia).
  replace (existsb isnan nb) with false; cycle 1.
  { symmetry. apply not_true_is_false. intros X. apply existsb_exists in X. destruct X as (x & Hx & E).
    apply isnan_spec in E. rewrite Forall_forall in Nn. apply (Nn x Hx E). }
  cbn [andb negb]. eexists. split; [reflexivity|]. intros obs Lo.
  destruct (erase_without i (combine l obs)) as ((x1, x2) & Hx & Ex); [rewrite combine_length; lia|].
  exists (x1, x2), (erase i (combine l obs)), (firstn D (sort nb)), (skipn D (sort nb)). cbn [fst].
  assert (x1 = a) as ->.
  { assert (X : nth_error (map fst (combine l obs)) i = Some x1) by (now apply (map_nth_error fst) in Ex).
    rewrite fst_combine in X by lia. congruence. }
  split; [exact Hx|]. split.
  { rewrite firstn_skipn, sort_perm. unfold nb. rewrite <- erase_combine by lia.
    rewrite <- (map_map fst (norm a)), fst_combine; [reflexivity|].
    apply Nat.succ_inj. rewrite !erase_length; lia. }
  split. { rewrite firstn_length, (Permutation_length (sort_perm nb)). lia. }
  split; [apply asc_firstn, sort_sorted, Nn|]. split; [|reflexivity].
  intros u v. apply asc_split. apply sort_sorted, Nn.
Qed.

Lemma density_loop_spec D N dist d od : forall min den, (forall i, In i od -> row_density D N dist i = Ok (d i)) ->
  exists r, density_loop od D N dist min den = Ok r /\
    ((r = den /\ (forall i, In i od -> flt (d i) min = false)) \/
     (exists k, r = Some k /\ In k od /\ flt (d k) min = true /\ forall i, In i od -> flt (d i) (d k) = false)).
Proof.
  induction od as [|i od IH]; intros min den H; cbn [density_loop].
  - exists den. split; auto. left. split; auto. intros i [].
  - rewrite (H i) by (left; auto). assert (H' : forall j, In j od -> row_density D N dist j = Ok (d j)) by (intros; apply H; now right).
    destruct (flt (d i) min) eqn:E.
    + destruct (IH (d i) (Some i) H') as (r & -> & [(-> & Hr)|(k & -> & Hk & Hl & Hr)]); eexists; (split; [reflexivity|]); right.
      * exists i. split; auto. split; [now left|]. split; auto. intros j [<-|Hj]; auto. apply flt_irrefl.
      * exists k. split; auto. split; [now right|]. split; [eapply flt_trans; eauto|]. intros j [<-|Hj]; auto. now apply flt_asym.
    + destruct (IH min den H') as (r & -> & [(-> & Hr)|(k & -> & Hk & Hl & Hr)]); eexists; (split; [reflexivity|]).
      * left. split; auto. intros j [<-|Hj]; auto.
      * right. exists k. split; auto. split; [now right|]. split; auto. intros j [<-|Hj]; auto.
        destruct (flt (d i) (d k)) eqn:E2; auto. rewrite (flt_trans _ _ _ E2 Hl) in E. discriminate.
Qed.

Definition schedules (order : nat -> list nat) : Prop := forall n, Permutation (order n) (seq 0 n).

Lemma thinned_bound D (l l' : list (A * B)) : thinned A B norm D p l l' -> length l' = Nat.min p (length l) /\ sublist l' l.
Proof.
  induction 1 as [l H|l k x r l' H C W T IH]; [split; [lia|apply sublist_refl]|]. destruct IH as [IH1 IH2].
  pose proof (without_length _ _ _ _ W). split; [lia|].
  eapply sublist_trans; eauto. eapply without_sublist; eauto.
Qed.

(** ** every run that returns keeps pairs together and in order *)
Lemma sparsify_loop_sub fuel order : forall samp obs dist s o, length samp = length obs ->
  sparsify_loop A B dim p fuel order samp obs dist = Ok (s, o) ->
  length s = length o /\ sublist (combine s o) (combine samp obs).
Proof.
  induction fuel as [|fuel IH]; intros samp obs dist s o L E; cbn [sparsify_loop] in E.
  - destruct (length samp <=? p); inversion E; subst. split; auto. apply sublist_refl.
  - destruct (length samp <=? p). { inversion E; subst. split; auto. apply sublist_refl. }
    destruct samp as [|s0 sr] eqn:Es; [discriminate|]. rewrite <- Es in *. clear Es.
    destruct (most_dense _ _ _ _) as [[k|]| |]; try discriminate.
    + destruct (Nat.ltb_spec k (length samp)); destruct (Nat.ltb_spec k (length obs)); try discriminate.
      cbn [andb] in E. apply IH in E; [|apply Nat.succ_inj; rewrite !erase_length; lia].
      destruct E as (E1 & E2). split; auto. eapply sublist_trans; eauto. rewrite erase_combine by auto.
      destruct (erase_without k (combine samp obs)) as (x & Hx & _); [rewrite combine_length; lia|].
      eapply without_sublist; eauto.
    + inversion E; subst. split; auto. apply sublist_refl.
Qed.
End Thin.

(** ** sums of moderate distances do not overflow *)
Definition moderate (x : F) : Prop := fvalid x /\ ffin x /\ (0 <= fval x <= bpow radix2 900)%R.

Lemma moderate_notnan x : moderate x -> notnan x.
Proof. intros (_ & H & _). now apply ffin_notnan. Qed.

Lemma big_multiple n : (Z.of_nat n <= 2 ^ 53)%Z -> rnd (INR n * bpow radix2 900) = (INR n * bpow radix2 900)%R.
Proof.
  intros H. unfold rnd. apply round_generic; [typeclasses eauto|].
  destruct (Z.eq_dec (Z.of_nat n) (2 ^ 53)) as [E|E].
  - rewrite INR_IZR_INZ, E. change (IZR (2 ^ 53)) with (bpow radix2 53). rewrite <- bpow_plus.
    apply generic_format_bpow. unfold fexp64, SpecFloat.emin, fprec, femax. lia.
  - replace (INR n * bpow radix2 900)%R with (F2R (Float radix2 (Z.of_nat n) 900)) by (unfold F2R; simpl Fnum; simpl Fexp; now rewrite INR_IZR_INZ).
    apply (generic_format_FLT radix2 (SpecFloat.emin fprec femax) fprec).
    exists (Float radix2 (Z.of_nat n) 900); auto.
    + simpl Fnum. rewrite Z.abs_eq by lia. change (radix2 ^ fprec)%Z with (2 ^ 53)%Z. lia.
    + simpl Fexp. unfold SpecFloat.emin, fprec, femax. lia.
Qed.

Lemma sum_moderate l : forall s n, List.Forall moderate l -> (Z.of_nat (n + length l) <= 2 ^ 53)%Z ->
  fvalid s -> ffin s -> (0 <= fval s <= INR n * bpow radix2 900)%R ->
  let t := fold_left fadd l s in fvalid t /\ ffin t /\ (0 <= fval t <= INR (n + length l) * bpow radix2 900)%R.
Proof.
  induction l as [|x l IH]; intros s n Hl HD Vs Fs Bs; cbn [fold_left length].
  - rewrite Nat.add_0_r. cbn zeta. auto.
  - inversion Hl as [|? ? (Vx & Fx & Bx) Hl']; subst. cbn [length] in HD.
    assert (P : (0 < bpow radix2 900)%R) by apply bpow_gt_0.
    assert (S1 : (0 <= fval s + fval x <= INR (S n) * bpow radix2 900)%R) by (rewrite S_INR; lra).
    assert (R1 : (0 <= rnd (fval s + fval x) <= INR (S n) * bpow radix2 900)%R).
    { split.
      - replace 0%R with (rnd (fval f0)) by (rewrite rnd_id; reflexivity). apply rnd_le. change (fval f0) with 0%R. lra.
      - rewrite <- (big_multiple (S n)) by lia. apply rnd_le. lra. }
    destruct (fadd_correct s x Vs Vx Fs Fx) as (F1 & E1).
    { apply rnd_small. rewrite Rabs_pos_eq by lra. apply Rle_trans with (1 := proj2 S1).
      apply Rle_trans with (bpow radix2 53 * bpow radix2 900)%R.
      - apply Rmult_le_compat_r; [lra|]. rewrite INR_IZR_INZ. change (bpow radix2 53) with (IZR (2 ^ 53)). apply IZR_le. lia.
      - rewrite <- bpow_plus. apply bpow_le. lia. }
    replace (n + S (length l)) with (S n + length l) by lia.
    apply IH; auto; try lia. { now apply fadd_valid. } rewrite E1. exact R1.
Qed.

Lemma dbl_max_big n : (Z.of_nat n <= 2 ^ 53)%Z -> (INR n * bpow radix2 900 < fval dbl_max)%R.
Proof.
  intros H. apply Rle_lt_trans with (bpow radix2 53 * bpow radix2 900)%R.
  - apply Rmult_le_compat_r; [apply bpow_ge_0|]. rewrite INR_IZR_INZ. change (bpow radix2 53) with (IZR (2 ^ 53)). apply IZR_le. lia.
  - unfold fval, dbl_max, SF2R, F2R. cbn [Fnum Fexp cond_Zopp]. rewrite <- bpow_plus.
    apply Rlt_le_trans with (1 * bpow radix2 971)%R; [rewrite Rmult_1_l; apply bpow_lt; lia|].
    apply Rmult_le_compat_r; [apply bpow_ge_0|]. apply IZR_le. lia.
Qed.

Lemma density_small l D : List.Forall moderate l -> (Z.of_nat D <= 2 ^ 53)%Z -> flt (fold_left fadd (firstn D l) f0) dbl_max = true.
Proof.
  intros H HD. assert (LD : length (firstn D l) <= D) by (rewrite firstn_length; lia).
  destruct (sum_moderate (firstn D l) f0 0) as (V & Fi & Bd).
  - rewrite Forall_forall in H |- *. intros x Hx. apply H. rewrite <- (firstn_skipn D l). apply in_or_app; auto.
  - lia.
  - reflexivity.
  - reflexivity.
  - change (fval f0) with 0%R. simpl. lra.
  - apply flt_R; auto; try reflexivity. eapply Rle_lt_trans; [exact (proj2 Bd)|]. apply dbl_max_big. simpl. lia.
Qed.

Section Bounded.
Variables (A B : Type) (norm : A -> A -> F) (dim : A -> nat) (p D : nat).
Hypothesis HD : D <= p.
Hypothesis HD53 : (Z.of_nat D <= 2 ^ 53)%Z.

Definition tame (l : list A) : Prop :=
  (forall a, In a l -> dim a = D) /\ (forall a b, In a l -> In b l -> moderate (norm a b)).

Lemma row_small dist (l : list A) i a d : dist_ok A norm dist l -> nth_error l i = Some a -> tame l ->
  row_density D (length l) dist i = Ok d -> flt d dbl_max = true.
Proof.
  intros H Ha (_ & T) E. unfold row_density in E. set (row := map (dist i) (seq 0 (length l))) in E.
  change (firstn i row ++ skipn (S i) row) with (erase i row) in E. unfold row in E. rewrite (row_others _ _ _ _ _ _ H Ha) in E.
  destruct (_ && _); [|discriminate]. inversion E. apply density_small; auto.
  apply Forall_forall. intros x Hx. apply (Permutation_in _ (sort_perm _)) in Hx. apply in_map_iff in Hx.
  destruct Hx as (b & <- & Hb). apply T; [eapply nth_error_In; eauto|eapply erase_in; eauto].
Qed.

Lemma sparsify_loop_thins fuel order : schedules order -> forall samp obs dist, length samp = length obs ->
  tame samp -> dist_ok A norm dist samp -> length samp <= fuel ->
  exists s o, sparsify_loop A B dim p fuel order samp obs dist = Ok (s, o) /\ length s = length o /\
    thinned A B norm D p (combine samp obs) (combine s o).
Proof.
  intros SO. induction fuel as [|fuel IH]; intros samp obs dist L T Hd Hf; cbn [sparsify_loop].
  - destruct (Nat.leb_spec (length samp) p); [|lia]. exists samp, obs. repeat split; auto. constructor. rewrite combine_length. lia.
  - destruct (Nat.leb_spec (length samp) p).
    { exists samp, obs. repeat split; auto. constructor. rewrite combine_length. lia. }
    destruct samp as [|s0 sr] eqn:Es; [simpl in *; lia|]. rewrite <- Es in *.
    assert (D0 : dim s0 = D) by (apply T; rewrite Es; now left). rewrite D0.
    assert (R : exists d, forall i, i < length samp -> row_density D (length samp) dist i = Ok (d i) /\
              crowding A B norm D (combine samp obs) i (d i)).
    { exists (fun i => match row_density D (length samp) dist i with Ok d => d | _ => f0 end). intros i Hi.
      destruct (nth_error samp i) as [a|] eqn:Ea; [|apply nth_error_None in Ea; lia].
      destruct (row_density_spec A B norm dist samp D i a) as (d & E & C); auto; try lia.
      { intros b Hb. apply moderate_notnan, T; auto. eapply nth_error_In; eauto. }
      rewrite E. split; auto. }
    destruct R as (d & R).
    assert (I : forall i, In i (order (length samp)) <-> i < length samp).
    { intros i. split; intros X.
      - apply (Permutation_in _ (SO _)) in X. apply in_seq in X. lia.
      - apply (Permutation_in _ (Permutation_sym (SO _))). apply in_seq. lia. }
    destruct (density_loop_spec D (length samp) dist d (order (length samp)) dbl_max None) as (r & Er & Hr).
    { intros i Hi. apply R. now apply I. }
    unfold most_dense. rewrite Er. destruct Hr as [(-> & Hr)|(k & -> & Hk & Hl & Hr)].
    + exfalso. assert (X : flt (d 0) dbl_max = true).
      { apply (row_small dist samp 0 s0); auto; [rewrite Es; reflexivity|]. apply R. lia. }
      rewrite Hr in X; [discriminate|]. apply I. lia.
    + apply I in Hk. replace (k <? length samp) with true by (symmetry; now apply Nat.ltb_lt).
      replace (k <? length obs) with true by (symmetry; apply Nat.ltb_lt; lia). cbn [andb].
      assert (L1 : S (length (erase k samp)) = length samp) by now apply erase_length.
      destruct (IH (erase k samp) (erase k obs) (remove_row k (remove_column k dist))) as (s & o & E & L2 & Th).
      * apply Nat.succ_inj. rewrite !erase_length; lia.
      * destruct T as [T1 T2]. split; intros; [apply T1|apply T2]; eapply erase_in; eauto.
      * now apply dist_ok_erase.
      * lia.
      * exists s, o. split; auto. split; auto.
        rewrite erase_combine in Th by auto.
        assert (Lc : length (combine samp obs) = length samp) by (rewrite combine_length; lia).
        destruct (erase_without k (combine samp obs)) as (x & Hx & _); [lia|].
        eapply thin_step; eauto; [lia|]. exists d. rewrite Lc. split; [intros; now apply R|]. split; auto.
        intros i Hi. apply Hr. now apply I.
Qed.
End Bounded.

(** * C35 *)
Section C35.
Variables (A B : Type) (norm : A -> A -> F) (dim : A -> nat) (p : nat).

Theorem C35_pairs_kept junk order samples observations s o : length samples = length observations ->
  kept A B norm dim p junk order samples observations = Ok (s, o) ->
  length s = length o /\ sublist (combine s o) (combine samples observations).
Proof.
  unfold kept. intros L E. destruct (length samples <=? p).
  - inversion E; subst. split; auto. apply sublist_refl.
  - eapply sparsify_loop_sub; eauto.
Qed.

Theorem C35_small_unchanged junk order samples observations : length samples <= p ->
  kept A B norm dim p junk order samples observations = Ok (samples, observations).
Proof. unfold kept. intros H. apply Nat.leb_le in H. now rewrite H. Qed.

Theorem C35_thins D junk order samples observations :
  length samples = length observations -> D <= p -> (Z.of_nat D <= 2 ^ 53)%Z -> schedules order ->
  (forall a, In a samples -> dim a = D) ->
  (forall a b, In a samples -> In b samples -> moderate (norm a b)) ->
  exists s o, kept A B norm dim p junk order samples observations = Ok (s, o) /\ length s = length o /\
    length s = Nat.min p (length samples) /\
    thinned A B norm D p (combine samples observations) (combine s o).
Proof.
  intros L HD HD53 SO Hdim Hm. unfold kept. destruct (Nat.leb_spec (length samples) p) as [H|H].
  - exists samples, observations. repeat split; auto; [lia|]. constructor. rewrite combine_length. lia.
  - destruct (sparsify_loop_thins A B norm dim p D HD HD53 (length samples) order SO samples observations
      (fun i j => if (i =? j)%nat then junk i
         else match nth_error samples i, nth_error samples j with Some a, Some b => norm a b | _, _ => f0 end)) as (s & o & E & L2 & Th); auto.
    { split; auto. }
    { intros i j a b N Ha Hb. apply Nat.eqb_neq in N. now rewrite N, Ha, Hb. }
    exists s, o. unfold sparsify. split; auto. split; auto. split; auto.
    apply thinned_bound in Th. rewrite !combine_length in Th. lia.
Qed.
End C35.

(** * Where the claim fails: samples with one coordinate, [norm] = sqrt of the squared difference *)
Definition norm1 (a b : F) : F := let d := fsub a b in fsqrt (fmul d d).
Definition in_order (n : nat) : list nat := seq 0 n.
Definition backwards (n : nat) : list nat := rev (seq 0 n).

Lemma in_order_schedules : schedules in_order.
Proof. intros n. apply Permutation_refl. Qed.
Lemma backwards_schedules : schedules backwards.
Proof. intros n. apply Permutation_sym, Permutation_rev. Qed.

(** the points 1e200 and -1e200 are (as doubles) infinitely far apart: neither is removed *)
Theorem C35_infinite_distance_refuted : exists samples : list F, exists p, p < length samples /\
  List.Forall ffin samples /\
  forall junk, kept F F norm1 (fun _ => 1) p junk in_order samples samples = Ok (samples, samples).
Proof.
  exists [fofZe 1 664; fofZe (-1) 664], 1. split; [simpl; lia|]. split; [repeat constructor|].
  intros junk. vm_compute. reflexivity.
Qed.

(** with less than dim(x) points allowed the distances are sorted out of range *)
Theorem C35_dimension_refuted : exists (samples : list (F * F)) (norm : F * F -> F * F -> F), forall junk,
  kept (F * F) F norm (fun _ => 2) 1 junk in_order samples (map fst samples) = Unspecified.
Proof.
  exists [(f0, f1); (f1, f0)], (fun a b => norm1 (fst a) (fst b)). intros junk. vm_compute. reflexivity.
Qed.

(** which of equally crowded points is removed depends on the schedule *)
Theorem C35_schedule_refuted : exists samples : list F, forall junk,
  kept F F norm1 (fun _ => 1) 2 junk in_order samples samples <> kept F F norm1 (fun _ => 1) 2 junk backwards samples samples.
Proof. exists [fofZ 0; fofZ 1; fofZ 2]. intros junk. vm_compute. discriminate. Qed.

(** ** the hypotheses of [C35_thins] can be met *)
Example C35_ex : let l := [fofZ 0; fofZ 1; fofZ 3] in
  (forall a b, In a l -> In b l -> moderate (norm1 a b)) /\ schedules in_order /\
  forall junk, kept F F norm1 (fun _ => 1) 2 junk in_order l l = Ok ([fofZ 1; fofZ 3], [fofZ 1; fofZ 3]).
Proof.
  intros l. split; [|split; [apply in_order_schedules|intros; vm_compute; reflexivity]].
  assert (M : forall z, (0 <= z <= 10)%Z -> moderate (fofZ z)).
  { intros z Hz. assert (Z.abs z <= 2 ^ 53)%Z by lia. destruct (fofZ_correct z H) as [F1 V1]. split; [apply fofZ_valid|]. split; auto.
    rewrite V1. split; [apply IZR_le; lia|]. apply Rle_trans with (bpow radix2 10); [|apply bpow_le; lia].
    change (bpow radix2 10) with (IZR (2 ^ 10)). apply IZR_le. lia. }
  intros a b Ha Hb.
  assert (X : exists z, (0 <= z <= 10)%Z /\ norm1 a b = fofZ z); [|destruct X as (z & Hz & ->); auto].
  simpl in Ha, Hb.
  destruct Ha as [<-|[<-|[<-|[]]]]; destruct Hb as [<-|[<-|[<-|[]]]];
    first [exists 0%Z; split; [lia|vm_compute; reflexivity] | exists 1%Z; split; [lia|vm_compute; reflexivity]
          | exists 2%Z; split; [lia|vm_compute; reflexivity] | exists 3%Z; split; [lia|vm_compute; reflexivity]].
Qed.
