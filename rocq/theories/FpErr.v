(** Rounding errors of sums of products (FpModel.v), whatever the order of the operations. *)
From Coq Require Import ZArith List Bool Lia Permutation Reals Lra.
From Coq Require Import Floats.SpecFloat.
From Flocq Require Import Core IEEE754.BinarySingleNaN Relative.
From Verif Require Import F64 F64R AdamFloat FpModel.
Import ListNotations.
Open Scope R_scope.

(** unit roundoff, and the largest error made on a subnormal result *)
Definition uu : R := bpow radix2 (-53).
Definition e0 : R := bpow radix2 (-1075).

Lemma uu_pos : 0 < uu. Proof. apply bpow_gt_0. Qed.
Lemma e0_pos : 0 < e0. Proof. apply bpow_gt_0. Qed.

Lemma rnd_error x : Rabs (rnd x - x) <= uu * Rabs x + e0.
Proof.
  assert (P : Prec_gt_0 53) by reflexivity.
  destruct (error_N_FLT radix2 (-1074) 53 P (fun z => negb (Z.even z)) x) as (eps & eta & A & B & _ & C).
  change (rnd x) with (round radix2 (FLT_exp (-1074) 53) ZnearestE x). rewrite C.
  replace (x * (1 + eps) + eta - x) with (x * eps + eta) by ring.
  apply Rle_trans with (1 := Rabs_triang _ _). rewrite Rabs_mult.
  apply Rplus_le_compat.
  - rewrite Rmult_comm. apply Rmult_le_compat_r; [apply Rabs_pos|]. apply Rle_trans with (1 := A).
    unfold uu. right. change (/ 2) with (/ IZR radix2). rewrite <- (bpow_1 radix2), <- bpow_opp, <- bpow_plus. f_equal.
  - apply Rle_trans with (1 := B). unfold e0. right.
    change (/ 2) with (/ IZR radix2). rewrite <- (bpow_1 radix2), <- bpow_opp, <- bpow_plus. f_equal.
Qed.

(** ** a finite result has finite operands and did not overflow *)
Lemma ov_notfin s : is_finite_SF (binary_overflow fprec femax mode_NE s) = true -> False.
Proof. discriminate. Qed.

Lemma fadd_fin x y : fvalid x -> fvalid y -> ffin (fadd x y) ->
  ffin x /\ ffin y /\ fval (fadd x y) = rnd (fval x + fval y).
Proof.
  intros Hx Hy Hf.
  assert (Fx : ffin x) by (destruct x as [s|s| |s m e], y as [t|t| |t m' e']; try reflexivity; try discriminate Hf; unfold ffin, fadd, SFadd in Hf; destruct (Bool.eqb s t); discriminate Hf).
  assert (Fy : ffin y) by (destruct x as [s|s| |s m e], y as [t|t| |t m' e']; try reflexivity; discriminate).
  repeat split; auto.
  destruct (Rlt_or_le (Rabs (rnd (fval x + fval y))) fmaxR) as [B|B].
  - now apply fadd_correct.
  - exfalso.
    pose proof (Bplus_correct fprec femax _ _ mode_NE (toB x Hx) (toB y Hy)) as K.
    rewrite !toB_fin, !toB_R in K. specialize (K Fx Fy).
    change (round_mode mode_NE) with ZnearestE in K. fold (rnd (fval x + fval y)) in K.
    rewrite Rlt_bool_false in K by exact B. destruct K as (K & _).
    apply (f_equal is_finite_SF) in K. rewrite <- fadd_B, !toB_SF in K. unfold ffin in Hf. rewrite Hf in K. symmetry in K.
    now apply ov_notfin in K.
Qed.

Lemma fsub_fin x y : fvalid x -> fvalid y -> ffin (fsub x y) ->
  ffin x /\ ffin y /\ fval (fsub x y) = rnd (fval x - fval y).
Proof.
  intros Hx Hy Hf.
  assert (Fx : ffin x) by (destruct x as [s|s| |s m e], y as [t|t| |t m' e']; try reflexivity; try discriminate Hf; unfold ffin, fsub, SFsub in Hf; destruct (Bool.eqb s (negb t)); discriminate Hf).
  assert (Fy : ffin y) by (destruct x as [s|s| |s m e], y as [t|t| |t m' e']; try reflexivity; discriminate).
  repeat split; auto.
  destruct (Rlt_or_le (Rabs (rnd (fval x - fval y))) fmaxR) as [B|B].
  - now apply fsub_correct.
  - exfalso.
    pose proof (Bminus_correct fprec femax _ _ mode_NE (toB x Hx) (toB y Hy)) as K.
    rewrite !toB_fin, !toB_R in K. specialize (K Fx Fy).
    change (round_mode mode_NE) with ZnearestE in K. fold (rnd (fval x - fval y)) in K.
    rewrite Rlt_bool_false in K by exact B. destruct K as (K & _).
    apply (f_equal is_finite_SF) in K. rewrite <- fsub_B, !toB_SF in K. unfold ffin in Hf. rewrite Hf in K. symmetry in K.
    now apply ov_notfin in K.
Qed.

Lemma fmul_fin x y : fvalid x -> fvalid y -> ffin (fmul x y) ->
  ffin x /\ ffin y /\ fval (fmul x y) = rnd (fval x * fval y).
Proof.
  intros Hx Hy Hf.
  assert (Fx : ffin x) by (destruct x as [s|s| |s m e], y as [t|t| |t m' e']; try reflexivity; discriminate).
  assert (Fy : ffin y) by (destruct x as [s|s| |s m e], y as [t|t| |t m' e']; try reflexivity; discriminate).
  repeat split; auto.
  destruct (Rlt_or_le (Rabs (rnd (fval x * fval y))) fmaxR) as [B|B].
  - now apply fmul_correct.
  - exfalso.
    pose proof (Bmult_correct fprec femax _ _ mode_NE (toB x Hx) (toB y Hy)) as K.
    rewrite !toB_fin, !toB_R in K.
    change (round_mode mode_NE) with ZnearestE in K. fold (rnd (fval x * fval y)) in K.
    rewrite Rlt_bool_false in K by exact B.
    apply (f_equal is_finite_SF) in K. rewrite <- fmul_B, !toB_SF in K. unfold ffin in Hf. rewrite Hf in K. symmetry in K.
    now apply ov_notfin in K.
Qed.

Lemma fdiv_fin x y : fvalid x -> fvalid y -> ffin y -> fval y <> 0 -> ffin (fdiv x y) ->
  ffin x /\ fval (fdiv x y) = rnd (fval x / fval y).
Proof.
  intros Hx Hy Fy N Hf.
  assert (Fx : ffin x) by (destruct x as [s|s| |s m e], y as [t|t| |t m' e']; try reflexivity; discriminate).
  split; auto.
  destruct (Rlt_or_le (Rabs (rnd (fval x / fval y))) fmaxR) as [B|B].
  - now apply fdiv_correct.
  - exfalso.
    pose proof (Bdiv_correct fprec femax _ _ mode_NE (toB x Hx) (toB y Hy)) as K.
    rewrite !toB_fin, !toB_R in K. specialize (K N).
    change (round_mode mode_NE) with ZnearestE in K. fold (rnd (fval x / fval y)) in K.
    rewrite Rlt_bool_false in K by exact B.
    apply (f_equal is_finite_SF) in K. rewrite <- fdiv_B, !toB_SF in K. unfold ffin in Hf. rewrite Hf in K. symmetry in K.
    now apply ov_notfin in K.
Qed.

(** ** fused multiply-add *)
Lemma ffinb_spec x : ffinb x = true <-> ffin x.
Proof. now destruct x. Qed.
Lemma mant_val x : ffin x -> fval x = IZR (mant x) * bpow radix2 (expo x).
Proof.
  destruct x as [s|s| |s m e]; intros H; try discriminate H; unfold fval; simpl.
  - ring.
  - unfold F2R. simpl. now destruct s.
Qed.
Lemma bpow_pos_IZR k : (0 <= k)%Z -> IZR (2 ^ k) = bpow radix2 k.
Proof. intros H. now rewrite <- (IZR_Zpower radix2). Qed.

Lemma fma_exact a b c : ffin a -> ffin b -> ffin c ->
  let e := Z.min (expo a + expo b) (expo c) in
  F2R (Float radix2 (mant a * mant b * 2 ^ (expo a + expo b - e) + mant c * 2 ^ (expo c - e)) e)
  = fval a * fval b + fval c.
Proof.
  intros Fa Fb Fc e. unfold F2R. cbn [Fnum Fexp].
  rewrite plus_IZR, !mult_IZR, !bpow_pos_IZR by (unfold e; lia).
  rewrite (mant_val a), (mant_val b), (mant_val c) by assumption.
  rewrite Rmult_plus_distr_r, !Rmult_assoc, <- !bpow_plus.
  replace (expo a + expo b - e + e)%Z with (expo a + expo b)%Z by lia.
  replace (expo c - e + e)%Z with (expo c) by lia. rewrite bpow_plus. ring.
Qed.

Lemma ffma_valid a b c : fvalid a -> fvalid b -> fvalid c -> fvalid (ffma a b c).
Proof.
  intros Ha Hb Hc. unfold ffma. destruct (ffinb a && ffinb b).
  - destruct (ffinb c); auto. rewrite bn_equiv. apply fvalid_B.
  - apply fadd_valid; auto. now apply fmul_valid.
Qed.

Lemma ffma_correct a b c : ffin a -> ffin b -> ffin c -> Rabs (rnd (fval a * fval b + fval c)) < fmaxR ->
  ffin (ffma a b c) /\ fval (ffma a b c) = rnd (fval a * fval b + fval c).
Proof.
  intros Fa Fb Fc B. unfold ffma.
  rewrite (proj2 (ffinb_spec a) Fa), (proj2 (ffinb_spec b) Fb), (proj2 (ffinb_spec c) Fc). cbn [andb].
  rewrite bn_equiv. unfold ffin, fval at 1. rewrite is_finite_SF_B2SF, SF2R_B2SF.
  match goal with |- context [BinarySingleNaN.binary_normalize _ _ _ _ _ ?mm ?ee ?ss] =>
    pose proof (binary_normalize_correct fprec femax Hfprec Hfemax mode_NE mm ee ss) as K end.
  cbv zeta in K. rewrite (fma_exact a b c Fa Fb Fc) in K.
  change (round_mode mode_NE) with ZnearestE in K. fold (rnd (fval a * fval b + fval c)) in K.
  rewrite Rlt_bool_true in K by exact B. tauto.
Qed.

Lemma ffma_fin a b c : fvalid a -> fvalid b -> fvalid c -> ffin (ffma a b c) ->
  ffin a /\ ffin b /\ ffin c /\ fval (ffma a b c) = rnd (fval a * fval b + fval c).
Proof.
  intros Ha Hb Hc Hf.
  assert (G : ffin a /\ ffin b /\ ffin c).
  { unfold ffma in Hf. destruct (ffinb a) eqn:Ea.
    - destruct (ffinb b) eqn:Eb.
      + cbn [andb] in Hf. destruct (ffinb c) eqn:Ec.
        * now rewrite !ffinb_spec in *.
        * exfalso. apply (proj2 (ffinb_spec c)) in Hf. congruence.
      + cbn [andb] in Hf. exfalso. apply fadd_fin in Hf; auto using fmul_valid. destruct Hf as (Hf & _).
        apply fmul_fin in Hf; auto. destruct Hf as (_ & Hf & _). apply ffinb_spec in Hf. congruence.
    - cbn [andb] in Hf. exfalso. apply fadd_fin in Hf; auto using fmul_valid. destruct Hf as (Hf & _).
      apply fmul_fin in Hf; auto. destruct Hf as (Hf & _). apply ffinb_spec in Hf. congruence. }
  destruct G as (Fa & Fb & Fc). repeat split; auto.
  destruct (Rlt_or_le (Rabs (rnd (fval a * fval b + fval c))) fmaxR) as [B|B].
  - now apply ffma_correct.
  - exfalso. unfold ffma in Hf.
    rewrite (proj2 (ffinb_spec a) Fa), (proj2 (ffinb_spec b) Fb), (proj2 (ffinb_spec c) Fc) in Hf. cbn [andb] in Hf.
    rewrite bn_equiv in Hf.
    match type of Hf with context [BinarySingleNaN.binary_normalize _ _ _ _ _ ?mm ?ee ?ss] =>
      pose proof (binary_normalize_correct fprec femax Hfprec Hfemax mode_NE mm ee ss) as K end.
    cbv zeta in K. rewrite (fma_exact a b c Fa Fb Fc) in K.
    change (round_mode mode_NE) with ZnearestE in K. fold (rnd (fval a * fval b + fval c)) in K.
    rewrite Rlt_bool_false in K by exact B.
    rewrite K in Hf. now apply ov_notfin in Hf.
Qed.

(** ** sums of terms *)
Definition tval (t : bool * term) : R :=
  (if fst t then -1 else 1) * match snd t with TNum x => fval x | TMul a b => fval a * fval b end.
Definition tsum (l : list (bool * term)) : R := fold_right (fun t s => tval t + s) 0 l.
Definition tabs (l : list (bool * term)) : R := fold_right (fun t s => Rabs (tval t) + s) 0 l.
Definition tvalid (t : bool * term) : Prop := match snd t with TNum x => fvalid x | TMul a b => fvalid a /\ fvalid b end.

Lemma tsum_app l r : tsum (l ++ r) = tsum l + tsum r.
Proof. induction l; simpl; [ring|]. rewrite IHl. ring. Qed.
Lemma tabs_app l r : tabs (l ++ r) = tabs l + tabs r.
Proof. induction l; simpl; [ring|]. rewrite IHl. ring. Qed.
Lemma tabs_pos l : 0 <= tabs l.
Proof. induction l; simpl; [lra|]. pose proof (Rabs_pos (tval a)). lra. Qed.
Lemma tsum_abs l : Rabs (tsum l) <= tabs l.
Proof. induction l; simpl; [rewrite Rabs_R0; lra|]. pose proof (Rabs_triang (tval a) (tsum l)). lra. Qed.
Lemma tsum_perm l r : Permutation l r -> tsum l = tsum r.
Proof. induction 1; simpl; lra. Qed.
Lemma tabs_perm l r : Permutation l r -> tabs l = tabs r.
Proof. induction 1; simpl; lra. Qed.
Lemma tval_neg b t : tval (negb b, t) = - tval (b, t).
Proof. unfold tval; simpl. destruct b; simpl; ring. Qed.
Lemma terms_neg s : forall b, tsum (terms (negb b) s) = - tsum (terms b s) /\ tabs (terms (negb b) s) = tabs (terms b s).
Proof.
  induction s; intros d; simpl.
  - rewrite tval_neg, Rabs_Ropp. split; ring.
  - rewrite tval_neg, Rabs_Ropp. split; ring.
  - rewrite !tsum_app, !tabs_app. destruct (IHs1 d), (IHs2 d). split; lra.
  - rewrite !tsum_app, !tabs_app. destruct (IHs1 d) as [E1 E2], (IHs2 (negb d)) as [E3 E4]. split; lra.
  - destruct (IHs d) as [E1 E2]. rewrite tval_neg, Rabs_Ropp. split; lra.
  - destruct (IHs d) as [E1 E2]. rewrite tval_neg, Rabs_Ropp. split; lra.
Qed.

Lemma tvalid_mul b x y l : Forall tvalid ((b, TMul x y) :: l) -> fvalid x /\ fvalid y /\ Forall tvalid l.
Proof. intros H. inversion H as [|? ? V W]; subst. destruct V. auto. Qed.
Lemma feval_valid s : forall b, Forall tvalid (terms b s) -> fvalid (feval s).
Proof.
  induction s; intros d H; simpl in *.
  - now inversion H.
  - destruct (tvalid_mul _ _ _ _ H) as (? & ? & _). now apply fmul_valid.
  - apply Forall_app in H. apply fadd_valid; [eapply IHs1|eapply IHs2]; apply H.
  - apply Forall_app in H. apply fsub_valid; [eapply IHs1|eapply IHs2]; apply H.
  - destruct (tvalid_mul _ _ _ _ H) as (? & ? & ?). apply ffma_valid; auto. eapply IHs; eauto.
  - destruct (tvalid_mul _ _ _ _ H) as (? & ? & ?). apply ffma_valid; auto using fopp_valid. eapply IHs; eauto.
Qed.

Definition gro (c : nat) : R := (1 + uu) ^ c.
Lemma gro_ge1 c : 1 <= gro c.
Proof. apply pow_R1_Rle. pose proof uu_pos. lra. Qed.
Lemma gro_S c : gro (S c) = (1 + uu) * gro c. Proof. reflexivity. Qed.
Lemma gro_le c d : (c <= d)%nat -> gro c <= gro d.
Proof. intros H. apply Rle_pow; auto. pose proof uu_pos. lra. Qed.

(** one more rounding *)
Lemma one_more c v x a r : Rabs (v - x) <= (gro c - 1) * a + gro c * (INR c * e0) -> Rabs x <= a ->
  r = rnd v -> Rabs (r - x) <= (gro (S c) - 1) * a + gro (S c) * (INR (S c) * e0).
Proof.
  intros H X ->. pose proof (rnd_error v) as E. pose proof uu_pos. pose proof e0_pos. pose proof (gro_ge1 c).
  assert (V : Rabs v <= gro c * a + gro c * (INR c * e0)).
  { replace v with ((v - x) + x) by ring. pose proof (Rabs_triang (v - x) x). lra. }
  replace (rnd v - x) with ((rnd v - v) + (v - x)) by ring.
  pose proof (Rabs_triang (rnd v - v) (v - x)). rewrite gro_S, S_INR.
  assert (uu * Rabs v <= uu * (gro c * a + gro c * (INR c * e0))) by (apply Rmult_le_compat_l; lra).
  assert (e0 <= (1 + uu) * gro c * e0).
  { rewrite <- (Rmult_1_l e0) at 1. apply Rmult_le_compat_r; [lra|]. nra. }
  lra.
Qed.

Lemma two_sums c d v w x y a b :
  Rabs (v - x) <= (gro c - 1) * a + gro c * (INR c * e0) ->
  Rabs (w - y) <= (gro d - 1) * b + gro d * (INR d * e0) -> 0 <= a -> 0 <= b ->
  Rabs (v - x) + Rabs (w - y) <= (gro (c + d) - 1) * (a + b) + gro (c + d) * (INR (c + d) * e0).
Proof.
  intros H K A B. pose proof (gro_le c (c + d) ltac:(lia)). pose proof (gro_le d (c + d) ltac:(lia)). rewrite plus_INR.
  pose proof e0_pos. pose proof (pos_INR c). pose proof (pos_INR d).
  assert (gro c * (INR c * e0) <= gro (c + d) * (INR c * e0)) by (apply Rmult_le_compat_r; [nra|lra]).
  assert (gro d * (INR d * e0) <= gro (c + d) * (INR d * e0)) by (apply Rmult_le_compat_r; [nra|lra]).
  assert ((gro c - 1) * a <= (gro (c + d) - 1) * a) by (apply Rmult_le_compat_r; lra).
  assert ((gro d - 1) * b <= (gro (c + d) - 1) * b) by (apply Rmult_le_compat_r; lra).
  lra.
Qed.

Lemma opp_fin x : ffin (fopp x) -> ffin x. Proof. now destruct x. Qed.
Lemma fin_opp x : ffin x -> ffin (fopp x). Proof. now destruct x. Qed.

Lemma feval_error s : Forall tvalid (terms false s) -> ffin (feval s) ->
  Rabs (fval (feval s) - tsum (terms false s)) <= (gro (ops s) - 1) * tabs (terms false s) + gro (ops s) * (INR (ops s) * e0).
Proof.
  induction s; intros V Hf; simpl terms in *; simpl ops; simpl feval in *.
  - unfold tsum, tabs, tval, gro; simpl. match goal with |- Rabs ?a <= _ => replace a with 0 by ring end. rewrite Rabs_R0. lra.
  - destruct (tvalid_mul _ _ _ _ V) as (Va & Vb & _). destruct (fmul_fin a b Va Vb Hf) as (Fa & Fb & E). rewrite E.
    apply (one_more 0 (fval a * fval b)); auto; unfold tsum, tabs, tval, gro; simpl.
    + match goal with |- Rabs ?a <= _ => replace a with 0 by ring end. rewrite Rabs_R0. lra.
    + rewrite Rplus_0_r. lra.
  - apply Forall_app in V. destruct V as [V1 V2].
    destruct (fadd_fin _ _ (feval_valid _ _ V1) (feval_valid _ _ V2) Hf) as (F1 & F2 & E).
    eapply one_more; [|apply tsum_abs|exact E]. rewrite tsum_app, tabs_app.
    eapply Rle_trans; [|apply two_sums; [apply IHs1|apply IHs2|apply tabs_pos|apply tabs_pos]; auto].
    eapply Rle_trans; [|apply Rabs_triang]. right. f_equal. ring.
  - apply Forall_app in V. destruct V as [V1 V2]. destruct (terms_neg s2 false) as [N1 N2]. simpl negb in *.
    assert (V2' : Forall tvalid (terms false s2)).
    { clear -V2. revert V2. generalize true, false. induction s2; intros t f H; simpl in *.
      - constructor; auto. inversion H; auto.
      - constructor; auto. inversion H; auto.
      - apply Forall_app in H. apply Forall_app. split; [eapply IHs2_1|eapply IHs2_2]; apply H.
      - apply Forall_app in H. apply Forall_app. split; [eapply IHs2_1|eapply IHs2_2]; apply H.
      - inversion H; subst. constructor; auto. eapply IHs2; eauto.
      - inversion H; subst. constructor; auto. eapply IHs2; eauto. }
    destruct (fsub_fin _ _ (feval_valid _ _ V1) (feval_valid _ _ V2) Hf) as (F1 & F2 & E).
    eapply one_more; [|apply tsum_abs|exact E]. rewrite tsum_app, tabs_app, N1, N2.
    eapply Rle_trans; [|apply two_sums; [apply IHs1|apply IHs2|apply tabs_pos|apply tabs_pos]; auto].
    rewrite <- (Rabs_Ropp (fval (feval s2) - _)).
    eapply Rle_trans; [|apply Rabs_triang]. right. f_equal. ring.
  - destruct (tvalid_mul _ _ _ _ V) as (Va & Vb & V1). destruct (ffma_fin a b (feval s) Va Vb (feval_valid _ _ V1) Hf) as (Fa & Fb & F1 & E).
    specialize (IHs V1 F1).
    eapply one_more; [|apply tsum_abs|exact E].
    change (tsum ((false, TMul a b) :: terms false s)) with (tval (false, TMul a b) + tsum (terms false s)).
    change (tabs ((false, TMul a b) :: terms false s)) with (Rabs (tval (false, TMul a b)) + tabs (terms false s)).
    replace (fval a * fval b + fval (feval s) - (tval (false, TMul a b) + tsum (terms false s)))
      with (fval (feval s) - tsum (terms false s)) by (unfold tval; simpl; ring).
    assert (0 <= (gro (ops s) - 1) * Rabs (tval (false, TMul a b))).
    { pose proof (gro_ge1 (ops s)). pose proof (Rabs_pos (tval (false, TMul a b))). nra. } lra.
  - destruct (tvalid_mul _ _ _ _ V) as (Va & Vb & V1). destruct (ffma_fin (fopp a) b (feval s) (fopp_valid _ Va) Vb (feval_valid _ _ V1) Hf) as (Fa & Fb & F1 & E).
    specialize (IHs V1 F1). rewrite fopp_val in E.
    eapply one_more; [|apply tsum_abs|exact E]. simpl negb.
    change (tsum ((true, TMul a b) :: terms false s)) with (tval (true, TMul a b) + tsum (terms false s)).
    change (tabs ((true, TMul a b) :: terms false s)) with (Rabs (tval (true, TMul a b)) + tabs (terms false s)).
    replace (- fval a * fval b + fval (feval s) - (tval (true, TMul a b) + tsum (terms false s)))
      with (fval (feval s) - tsum (terms false s)) by (unfold tval; simpl; ring).
    assert (0 <= (gro (ops s) - 1) * Rabs (tval (true, TMul a b))).
    { pose proof (gro_ge1 (ops s)). pose proof (Rabs_pos (tval (true, TMul a b))). nra. } lra.
Qed.

(** ** no overflow when the terms are bounded *)
Definition tfin (t : bool * term) : Prop := match snd t with TNum x => ffin x | TMul a b => ffin a /\ ffin b end.
Lemma tfin_mul b x y l : Forall tfin ((b, TMul x y) :: l) -> ffin x /\ ffin y /\ Forall tfin l.
Proof. intros H. inversion H as [|? ? V W]; subst. destruct V. auto. Qed.

Definition reach (s : sumx) (b : bool) : R := gro (ops s) * tabs (terms b s) + gro (ops s) * (INR (ops s) * e0).
Lemma reach_part c d x y : (c <= d)%nat -> 0 <= x <= y ->
  gro c * x + gro c * (INR c * e0) <= gro d * y + gro d * (INR d * e0).
Proof.
  intros H K. pose proof (gro_le c d H). pose proof (gro_ge1 c). pose proof e0_pos. apply le_INR in H. pose proof (pos_INR c).
  apply Rplus_le_compat; apply Rmult_le_compat; nra.
Qed.

Lemma step_fin v x a c : Rabs (v - x) <= (gro c - 1) * a + gro c * (INR c * e0) -> Rabs x <= a ->
  gro c * a + gro c * (INR c * e0) <= bpow radix2 1000 -> Rabs (rnd v) < fmaxR.
Proof.
  intros H X B. apply rnd_fin with (gro c * a + gro c * (INR c * e0)); auto.
  replace v with ((v - x) + x) by ring. pose proof (Rabs_triang (v - x) x). lra.
Qed.

Lemma tvalid_flip s : forall b b', Forall tvalid (terms b s) -> Forall tvalid (terms b' s).
Proof.
  induction s; intros t f H; simpl in *.
  - constructor; auto. inversion H; auto.
  - constructor; auto. inversion H; auto.
  - apply Forall_app in H. apply Forall_app. split; [eapply IHs1|eapply IHs2]; apply H.
  - apply Forall_app in H. apply Forall_app. split; [eapply IHs1|eapply IHs2]; apply H.
  - inversion H; subst. constructor; auto. eapply IHs; eauto.
  - inversion H; subst. constructor; auto. eapply IHs; eauto.
Qed.
Lemma tfin_flip s : forall b b', Forall tfin (terms b s) -> Forall tfin (terms b' s).
Proof.
  induction s; intros t f H; simpl in *.
  - constructor; auto. inversion H; auto.
  - constructor; auto. inversion H; auto.
  - apply Forall_app in H. apply Forall_app. split; [eapply IHs1|eapply IHs2]; apply H.
  - apply Forall_app in H. apply Forall_app. split; [eapply IHs1|eapply IHs2]; apply H.
  - inversion H; subst. constructor; auto. eapply IHs; eauto.
  - inversion H; subst. constructor; auto. eapply IHs; eauto.
Qed.

Lemma feval_fin s : Forall tvalid (terms false s) -> Forall tfin (terms false s) ->
  reach s false <= bpow radix2 1000 -> ffin (feval s).
Proof.
  unfold reach. induction s; intros V T B; simpl terms in *; simpl ops in *; simpl feval.
  - now inversion T.
  - destruct (tvalid_mul _ _ _ _ V) as (Va & Vb & _). destruct (tfin_mul _ _ _ _ T) as (Ta & Tb & _).
    apply fmul_correct; auto. eapply rnd_fin; [|exact B].
    unfold tabs, tval; simpl. rewrite Rmult_1_l, Rplus_0_r. pose proof (gro_ge1 1). pose proof e0_pos. pose proof (Rabs_pos (fval a * fval b)).
    assert (0 <= gro 1 * (1 * e0)) by nra. nra.
  - apply Forall_app in V. apply Forall_app in T. destruct V as [V1 V2], T as [T1 T2]. rewrite tabs_app in B.
    pose proof (tabs_pos (terms false s1)). pose proof (tabs_pos (terms false s2)).
    assert (F1 : ffin (feval s1)) by (apply IHs1; auto; eapply Rle_trans; [|exact B]; apply reach_part; [lia|lra]).
    assert (F2 : ffin (feval s2)) by (apply IHs2; auto; eapply Rle_trans; [|exact B]; apply reach_part; [lia|lra]).
    apply fadd_correct; auto; try (eapply feval_valid; eassumption).
    eapply step_fin with (x := tsum (terms false s1 ++ terms false s2)) (c := (ops s1 + ops s2)%nat) (a := tabs (terms false s1 ++ terms false s2));
      [|apply tsum_abs|rewrite tabs_app; eapply Rle_trans; [|exact B]; apply reach_part; [lia|lra]].
    rewrite tsum_app, tabs_app.
    eapply Rle_trans; [|apply two_sums; [apply feval_error|apply feval_error|apply tabs_pos|apply tabs_pos]; auto].
    eapply Rle_trans; [|apply Rabs_triang]. right. f_equal. ring.
  - apply Forall_app in V. apply Forall_app in T. destruct V as [V1 V2], T as [T1 T2]. rewrite tabs_app in B.
    destruct (terms_neg s2 false) as [N1 N2]. simpl negb in *.
    apply tvalid_flip with (b' := false) in V2. apply tfin_flip with (b' := false) in T2. rewrite N2 in B.
    pose proof (tabs_pos (terms false s1)). pose proof (tabs_pos (terms false s2)).
    assert (F1 : ffin (feval s1)) by (apply IHs1; auto; eapply Rle_trans; [|exact B]; apply reach_part; [lia|lra]).
    assert (F2 : ffin (feval s2)) by (apply IHs2; auto; eapply Rle_trans; [|exact B]; apply reach_part; [lia|lra]).
    apply fsub_correct; auto; try (eapply feval_valid; eassumption).
    eapply step_fin with (x := tsum (terms false s1 ++ terms true s2)) (c := (ops s1 + ops s2)%nat) (a := tabs (terms false s1 ++ terms true s2));
      [|apply tsum_abs|rewrite tabs_app, N2; eapply Rle_trans; [|exact B]; apply reach_part; [lia|lra]].
    rewrite tsum_app, tabs_app, N1, N2.
    eapply Rle_trans; [|apply two_sums; [apply feval_error|apply feval_error|apply tabs_pos|apply tabs_pos]; auto].
    rewrite <- (Rabs_Ropp (fval (feval s2) - _)).
    eapply Rle_trans; [|apply Rabs_triang]. right. f_equal. ring.
  - destruct (tvalid_mul _ _ _ _ V) as (Va & Vb & V1). destruct (tfin_mul _ _ _ _ T) as (Ta & Tb & T1).
    change (tabs ((false, TMul a b) :: terms false s)) with (Rabs (tval (false, TMul a b)) + tabs (terms false s)) in B.
    pose proof (tabs_pos (terms false s)). pose proof (Rabs_pos (tval (false, TMul a b))).
    assert (F1 : ffin (feval s)) by (apply IHs; auto; eapply Rle_trans; [|exact B]; apply reach_part; [lia|lra]).
    apply ffma_correct; auto.
    eapply step_fin with (x := tsum ((false, TMul a b) :: terms false s)) (c := ops s) (a := tabs ((false, TMul a b) :: terms false s));
      [|apply tsum_abs|eapply Rle_trans; [|exact B]; apply reach_part; [lia|simpl; lra]].
    change (tsum ((false, TMul a b) :: terms false s)) with (tval (false, TMul a b) + tsum (terms false s)).
    change (tabs ((false, TMul a b) :: terms false s)) with (Rabs (tval (false, TMul a b)) + tabs (terms false s)).
    replace (fval a * fval b + fval (feval s) - (tval (false, TMul a b) + tsum (terms false s)))
      with (fval (feval s) - tsum (terms false s)) by (unfold tval; simpl; ring).
    pose proof (feval_error s V1 F1).
    assert (0 <= (gro (ops s) - 1) * Rabs (tval (false, TMul a b))).
    { pose proof (gro_ge1 (ops s)). nra. } lra.
  - destruct (tvalid_mul _ _ _ _ V) as (Va & Vb & V1). destruct (tfin_mul _ _ _ _ T) as (Ta & Tb & T1). simpl negb in *.
    change (tabs ((true, TMul a b) :: terms false s)) with (Rabs (tval (true, TMul a b)) + tabs (terms false s)) in B.
    pose proof (tabs_pos (terms false s)). pose proof (Rabs_pos (tval (true, TMul a b))).
    assert (F1 : ffin (feval s)) by (apply IHs; auto; eapply Rle_trans; [|exact B]; apply reach_part; [lia|lra]).
    apply ffma_correct; auto using fin_opp. rewrite fopp_val.
    eapply step_fin with (x := tsum ((true, TMul a b) :: terms false s)) (c := ops s) (a := tabs ((true, TMul a b) :: terms false s));
      [|apply tsum_abs|eapply Rle_trans; [|exact B]; apply reach_part; [lia|simpl; lra]].
    change (tsum ((true, TMul a b) :: terms false s)) with (tval (true, TMul a b) + tsum (terms false s)).
    change (tabs ((true, TMul a b) :: terms false s)) with (Rabs (tval (true, TMul a b)) + tabs (terms false s)).
    replace (- fval a * fval b + fval (feval s) - (tval (true, TMul a b) + tsum (terms false s)))
      with (fval (feval s) - tsum (terms false s)) by (unfold tval; simpl; ring).
    pose proof (feval_error s V1 F1).
    assert (0 <= (gro (ops s) - 1) * Rabs (tval (true, TMul a b))).
    { pose proof (gro_ge1 (ops s)). nra. } lra.
Qed.

(** ** the factor of at most 2^40 operations *)
Lemma uu_inv : uu = / IZR (2 ^ 53).
Proof. unfold uu. change (-53)%Z with (Z.opp 53). rewrite bpow_opp, bpow_pos_IZR by lia. reflexivity. Qed.

Lemma gro_small c : INR c * uu < 1 -> gro c <= 1 / (1 - INR c * uu).
Proof.
  induction c; intros H.
  - unfold gro; simpl. replace (1 - 0 * uu) with 1 by ring. lra.
  - rewrite S_INR in H. pose proof uu_pos. assert (H' : INR c * uu < 1) by lra. specialize (IHc H').
    rewrite gro_S, S_INR. pose proof (pos_INR c).
    apply Rle_trans with ((1 + uu) * (1 / (1 - INR c * uu))); [apply Rmult_le_compat_l; lra|].
    apply Rmult_le_reg_r with ((1 - INR c * uu) * (1 - (INR c + 1) * uu)); [nra|].
    replace ((1 + uu) * (1 / (1 - INR c * uu)) * ((1 - INR c * uu) * (1 - (INR c + 1) * uu))) with ((1 + uu) * (1 - (INR c + 1) * uu)) by (field; lra).
    replace (1 / (1 - (INR c + 1) * uu) * ((1 - INR c * uu) * (1 - (INR c + 1) * uu))) with (1 - INR c * uu) by (field; lra).
    assert (0 <= (INR c + 1) * uu * uu) by nra. lra.
Qed.

Definition small (m : nat) : Prop := INR m <= IZR (2 ^ 40).
Lemma small_uu m : small m -> INR m * uu <= / IZR (2 ^ 13).
Proof.
  intros H. unfold small in H. rewrite uu_inv.
  replace (/ IZR (2 ^ 13)) with (IZR (2 ^ 40) * / IZR (2 ^ 53)).
  - apply Rmult_le_compat_r; auto. left. apply Rinv_0_lt_compat, IZR_lt. reflexivity.
  - change (2 ^ 53)%Z with (2 ^ 40 * 2 ^ 13)%Z. rewrite mult_IZR, Rinv_mult_distr by (apply IZR_neq; discriminate).
    rewrite <- Rmult_assoc, Rinv_r by (apply IZR_neq; discriminate). ring.
Qed.
Lemma small_uu' m : small m -> 0 <= INR m * uu <= / 8192.
Proof. intros H. pose proof (small_uu m H) as K. change (2 ^ 13)%Z with 8192%Z in K. split; auto. pose proof (pos_INR m). pose proof uu_pos. nra. Qed.

Lemma gro_bound m : small m -> gro m - 1 <= 2 * INR m * uu /\ gro m <= 2.
Proof.
  intros H. pose proof (small_uu' m H) as K. pose proof (gro_small m ltac:(lra)) as G.
  assert (D : 1 / (1 - INR m * uu) <= 1 + 2 * (INR m * uu)).
  { apply Rmult_le_reg_r with (1 - INR m * uu); [lra|]. unfold Rdiv. rewrite Rmult_1_l, Rinv_l by lra. nra. }
  split; lra.
Qed.

Lemma zeros_sum zs : Forall (fun t : bool * term => snd t = TNum f0) zs -> tsum zs = 0 /\ tabs zs = 0 /\ Forall tvalid zs /\ Forall tfin zs.
Proof.
  induction 1 as [|[b t] zs E Z (I1 & I2 & I3 & I4)]; simpl; [auto|]. simpl in E. subst t.
  rewrite I1, I2. unfold tval; simpl. unfold fval; simpl. rewrite Rmult_0_r, Rabs_R0. repeat split; try ring; constructor; auto; reflexivity.
Qed.

Lemma sum_of_valid m ts r : Forall tvalid ts -> sum_of m ts r -> fvalid r.
Proof.
  intros V (s & zs & P & Z & O & ->). apply (feval_valid s false).
  eapply Permutation_Forall; [apply Permutation_sym; exact P|]. apply Forall_app. split; auto. now apply zeros_sum.
Qed.

Lemma sum_of_error m ts r : small m -> Forall tvalid ts -> sum_of m ts r -> ffin r ->
  Rabs (fval r - tsum ts) <= 2 * INR m * uu * tabs ts + 2 * INR m * e0.
Proof.
  intros M V (s & zs & P & Z & O & ->) Hf.
  destruct (zeros_sum zs Z) as (Z1 & Z2 & Z3 & Z4).
  assert (V' : Forall tvalid (terms false s)).
  { eapply Permutation_Forall; [apply Permutation_sym; exact P|]. apply Forall_app. auto. }
  pose proof (feval_error s V' Hf) as E.
  rewrite (tsum_perm _ _ P), (tabs_perm _ _ P), tsum_app, tabs_app, Z1, Z2, !Rplus_0_r in E.
  destruct (gro_bound m M) as (G1 & G2). pose proof (gro_le _ _ O). pose proof (gro_ge1 (ops s)).
  apply le_INR in O. pose proof (pos_INR (ops s)). pose proof e0_pos. pose proof (tabs_pos ts).
  eapply Rle_trans; [exact E|]. apply Rplus_le_compat.
  - apply Rmult_le_compat_r; lra.
  - rewrite Rmult_assoc. apply Rmult_le_compat; nra.
Qed.

Lemma sum_of_fin m ts r : small m -> Forall tvalid ts -> Forall tfin ts -> sum_of m ts r ->
  tabs ts <= bpow radix2 990 -> ffin r.
Proof.
  intros M V T (s & zs & P & Z & O & ->) B.
  destruct (zeros_sum zs Z) as (Z1 & Z2 & Z3 & Z4).
  apply feval_fin.
  - eapply Permutation_Forall; [apply Permutation_sym; exact P|]. apply Forall_app. auto.
  - eapply Permutation_Forall; [apply Permutation_sym; exact P|]. apply Forall_app. auto.
  - unfold reach. rewrite (tabs_perm _ _ P), tabs_app, Z2, Rplus_0_r.
    destruct (gro_bound m M) as (G1 & G2). pose proof (gro_le _ _ O). pose proof (gro_ge1 (ops s)).
    apply le_INR in O. pose proof (pos_INR (ops s)). pose proof e0_pos. pose proof (tabs_pos ts).
    assert (A1 : gro (ops s) * tabs ts <= 2 * bpow radix2 990) by (apply Rmult_le_compat; lra).
    assert (A2 : INR (ops s) * e0 <= 1).
    { apply Rle_trans with (IZR (2 ^ 40) * e0).
      - apply Rmult_le_compat_r; [lra|]. unfold small in M. lra.
      - rewrite bpow_pos_IZR by lia. unfold e0. rewrite <- bpow_plus. change 1 with (bpow radix2 0). apply bpow_le. lia. }
    assert (A3 : gro (ops s) * (INR (ops s) * e0) <= 2 * 1) by (apply Rmult_le_compat; nra).
    assert (A4 : 1 <= bpow radix2 990) by (change 1 with (bpow radix2 0); apply bpow_le; lia).
    assert (A5 : bpow radix2 1000 = 1024 * bpow radix2 990).
    { change 1024 with (bpow radix2 10). rewrite <- bpow_plus. reflexivity. }
    lra.
Qed.
