(** Link between the binary64 numbers of [F64] and real numbers, through Flocq
    (IEEE754.BinarySingleNaN): value, correctly rounded operations, comparisons. *)
From Coq Require Import ZArith Lia Bool List Reals Lra.
From Coq Require Import Floats.SpecFloat.
From Flocq Require Import Core IEEE754.BinarySingleNaN.
From Verif Require Import F64.
Import ListNotations.
Open Scope R_scope.

Global Instance Hfprec : Prec_gt_0 fprec.
Proof. reflexivity. Qed.
Global Instance Hfemax : Prec_lt_emax fprec femax.
Proof. reflexivity. Qed.

Notation fexp64 := (SpecFloat.fexp fprec femax).
Notation B64 := (binary_float fprec femax).

(** an actual binary64 number: mantissa and exponent in range, normalised *)
Definition fvalid (x : F) : Prop := valid_binary fprec femax x = true.
(** finite *)
Definition ffin (x : F) : Prop := is_finite_SF x = true.
(** real value (0 for NaN and infinities) *)
Definition fval (x : F) : R := SF2R radix2 x.
(** round to nearest, ties to even *)
Definition rnd (x : R) : R := round radix2 fexp64 ZnearestE x.

Definition toB (x : F) (H : fvalid x) : B64 := SF2B (emax := femax) x H.

Lemma toB_SF x H : B2SF (toB x H) = x.
Proof. apply B2SF_SF2B. Qed.
Lemma toB_R x H : B2R (toB x H) = fval x.
Proof. apply B2R_SF2B. Qed.
Lemma toB_fin x H : is_finite (toB x H) = is_finite_SF x.
Proof. apply is_finite_SF2B. Qed.

(** ** equivalence of the standard-library operations with Flocq's (after Flocq's PrimFloat.v,
    restated here without primitive floats) *)
Lemma ne_equiv s m l : round_nearest_even m l = choice_mode mode_NE s m l.
Proof. destruct l as [|[]]; try reflexivity. simpl. unfold Round.cond_incr. now case Z.even. Qed.

Lemma bra_equiv sx mx ex lx :
  SpecFloat.binary_round_aux fprec femax sx mx ex lx
  = BinarySingleNaN.binary_round_aux fprec femax mode_NE sx mx ex lx.
Proof.
  unfold SpecFloat.binary_round_aux, BinarySingleNaN.binary_round_aux.
  set (mrse' := shr_fexp _ _ _). case mrse'; intros mrs' e'; simpl.
  now rewrite (ne_equiv sx).
Qed.

Lemma br_equiv s m e :
  SpecFloat.binary_round fprec femax s m e = BinarySingleNaN.binary_round fprec femax mode_NE s m e.
Proof.
  unfold SpecFloat.binary_round, BinarySingleNaN.binary_round, shl_align_fexp.
  set (mez := shl_align _ _ _); case mez as [mz ez]. apply bra_equiv.
Qed.

Lemma bn_equiv m e szero :
  SpecFloat.binary_normalize fprec femax m e szero
  = B2SF (BinarySingleNaN.binary_normalize fprec femax Hfprec Hfemax mode_NE m e szero).
Proof. case m as [ | p | p]; [now simpl| |]; simpl; rewrite B2SF_SF2B; apply br_equiv. Qed.

Lemma fadd_B (x y : B64) : fadd (B2SF x) (B2SF y) = B2SF (Bplus mode_NE x y).
Proof.
  case x as [sx|sx| |sx mx ex Bx]; case y as [sy|sy| |sy my ey By];
    [now (trivial || simpl; case Bool.eqb).. | ].
  apply bn_equiv.
Qed.

Lemma fsub_B (x y : B64) : fsub (B2SF x) (B2SF y) = B2SF (Bminus mode_NE x y).
Proof.
  case x as [sx|sx| |sx mx ex Bx]; case y as [sy|sy| |sy my ey By];
    [now (trivial || simpl; case Bool.eqb).. | ].
  simpl. unfold Zminus. rewrite <- cond_Zopp_negb. apply bn_equiv.
Qed.

Lemma fmul_B (x y : B64) : fmul (B2SF x) (B2SF y) = B2SF (Bmult mode_NE x y).
Proof.
  case x as [sx|sx| |sx mx ex Bx]; case y as [sy|sy| |sy my ey By]; [now trivial.. | ].
  simpl. rewrite B2SF_SF2B. apply bra_equiv.
Qed.

Lemma fdiv_B (x y : B64) : fdiv (B2SF x) (B2SF y) = B2SF (Bdiv mode_NE x y).
Proof.
  case x as [sx|sx| |sx mx ex Bx]; case y as [sy|sy| |sy my ey By];
    [now (trivial || simpl; case Bool.eqb).. | ].
  simpl. rewrite B2SF_SF2B. unfold fdiv, SFdiv. simpl B2SF.
  set (melz := SFdiv_core_binary _ _ _ _ _ _). case melz as [[mz ez] lz]. apply bra_equiv.
Qed.

Lemma fsqrt_B (x : B64) : fsqrt (B2SF x) = B2SF (Bsqrt mode_NE x).
Proof.
  case x as [sx|sx| |sx mx ex Bx]; [now (trivial || case sx).. | ].
  case sx; [reflexivity | ].
  simpl. rewrite B2SF_SF2B. unfold fsqrt, SFsqrt. simpl B2SF.
  set (melz := SFsqrt_core_binary _ _ _ _). case melz as [[mz ez] lz]. apply bra_equiv.
Qed.

(** ** validity is preserved *)
Lemma fvalid_B (x : B64) : fvalid (B2SF x).
Proof. apply valid_binary_B2SF. Qed.

Lemma fadd_valid x y : fvalid x -> fvalid y -> fvalid (fadd x y).
Proof. intros Hx Hy. rewrite <- (toB_SF x Hx), <- (toB_SF y Hy), fadd_B. apply fvalid_B. Qed.
Lemma fsub_valid x y : fvalid x -> fvalid y -> fvalid (fsub x y).
Proof. intros Hx Hy. rewrite <- (toB_SF x Hx), <- (toB_SF y Hy), fsub_B. apply fvalid_B. Qed.
Lemma fmul_valid x y : fvalid x -> fvalid y -> fvalid (fmul x y).
Proof. intros Hx Hy. rewrite <- (toB_SF x Hx), <- (toB_SF y Hy), fmul_B. apply fvalid_B. Qed.
Lemma fdiv_valid x y : fvalid x -> fvalid y -> fvalid (fdiv x y).
Proof. intros Hx Hy. rewrite <- (toB_SF x Hx), <- (toB_SF y Hy), fdiv_B. apply fvalid_B. Qed.
Lemma fsqrt_valid x : fvalid x -> fvalid (fsqrt x).
Proof. intros Hx. rewrite <- (toB_SF x Hx), fsqrt_B. apply fvalid_B. Qed.
Lemma fofZe_valid m e : fvalid (fofZe m e).
Proof. unfold fofZe. rewrite bn_equiv. apply fvalid_B. Qed.
Lemma fofZ_valid m : fvalid (fofZ m).
Proof. apply fofZe_valid. Qed.
Lemma fopp_valid x : fvalid x -> fvalid (fopp x).
Proof. now destruct x. Qed.
Lemma fopp_val x : fval (fopp x) = - fval x.
Proof.
  destruct x as [s|s| |s m e]; simpl; unfold fval; simpl; try ring.
  rewrite <- F2R_Zopp. f_equal. now destruct s.
Qed.

(** ** correctly rounded operations *)
Notation fmaxR := (bpow radix2 1024).

Lemma fadd_correct x y : fvalid x -> fvalid y -> ffin x -> ffin y ->
  Rabs (rnd (fval x + fval y)) < fmaxR ->
  ffin (fadd x y) /\ fval (fadd x y) = rnd (fval x + fval y).
Proof.
  intros Hx Hy Fx Fy B.
  pose proof (Bplus_correct fprec femax _ _ mode_NE (toB x Hx) (toB y Hy)) as K.
  rewrite !toB_fin, !toB_R in K. specialize (K Fx Fy).
  change (round_mode mode_NE) with ZnearestE in K. fold (rnd (fval x + fval y)) in K.
  rewrite Rlt_bool_true in K by exact B. destruct K as (K1 & K2 & _).
  rewrite <- (toB_SF x Hx) at 1 2. rewrite <- (toB_SF y Hy) at 1 2. rewrite fadd_B.
  unfold ffin, fval. rewrite is_finite_SF_B2SF, SF2R_B2SF. auto.
Qed.

Lemma fsub_correct x y : fvalid x -> fvalid y -> ffin x -> ffin y ->
  Rabs (rnd (fval x - fval y)) < fmaxR ->
  ffin (fsub x y) /\ fval (fsub x y) = rnd (fval x - fval y).
Proof.
  intros Hx Hy Fx Fy B.
  pose proof (Bminus_correct fprec femax _ _ mode_NE (toB x Hx) (toB y Hy)) as K.
  rewrite !toB_fin, !toB_R in K. specialize (K Fx Fy).
  change (round_mode mode_NE) with ZnearestE in K. fold (rnd (fval x - fval y)) in K.
  rewrite Rlt_bool_true in K by exact B. destruct K as (K1 & K2 & _).
  rewrite <- (toB_SF x Hx) at 1 2. rewrite <- (toB_SF y Hy) at 1 2. rewrite fsub_B.
  unfold ffin, fval. rewrite is_finite_SF_B2SF, SF2R_B2SF. auto.
Qed.

Lemma fmul_correct x y : fvalid x -> fvalid y -> ffin x -> ffin y ->
  Rabs (rnd (fval x * fval y)) < fmaxR ->
  ffin (fmul x y) /\ fval (fmul x y) = rnd (fval x * fval y).
Proof.
  intros Hx Hy Fx Fy B.
  pose proof (Bmult_correct fprec femax _ _ mode_NE (toB x Hx) (toB y Hy)) as K.
  rewrite !toB_fin, !toB_R in K.
  change (round_mode mode_NE) with ZnearestE in K. fold (rnd (fval x * fval y)) in K.
  rewrite Rlt_bool_true in K by exact B. destruct K as (K1 & K2 & _).
  rewrite <- (toB_SF x Hx) at 1 2. rewrite <- (toB_SF y Hy) at 1 2. rewrite fmul_B.
  unfold ffin, fval. rewrite is_finite_SF_B2SF, SF2R_B2SF. split; auto.
  rewrite K2. unfold ffin in *. now rewrite Fx, Fy.
Qed.

Lemma fdiv_correct x y : fvalid x -> fvalid y -> ffin x -> ffin y -> fval y <> 0 ->
  Rabs (rnd (fval x / fval y)) < fmaxR ->
  ffin (fdiv x y) /\ fval (fdiv x y) = rnd (fval x / fval y).
Proof.
  intros Hx Hy Fx Fy N B.
  pose proof (Bdiv_correct fprec femax _ _ mode_NE (toB x Hx) (toB y Hy)) as K.
  rewrite !toB_fin, !toB_R in K. specialize (K N).
  change (round_mode mode_NE) with ZnearestE in K. fold (rnd (fval x / fval y)) in K.
  rewrite Rlt_bool_true in K by exact B. destruct K as (K1 & K2 & _).
  rewrite <- (toB_SF x Hx) at 1 2. rewrite <- (toB_SF y Hy) at 1 2. rewrite fdiv_B.
  unfold ffin, fval. rewrite is_finite_SF_B2SF, SF2R_B2SF. split; auto. now rewrite K2.
Qed.

(** ** comparisons *)
Lemma flt_R x y : fvalid x -> fvalid y -> ffin x -> ffin y -> (flt x y = true <-> fval x < fval y).
Proof.
  intros Hx Hy Fx Fy.
  pose proof (Bltb_correct fprec femax (toB x Hx) (toB y Hy)) as K.
  rewrite !toB_fin, !toB_R in K. specialize (K Fx Fy).
  unfold Bltb in K. rewrite !toB_SF in K. unfold flt. rewrite K.
  split; [case Rlt_bool_spec; auto; discriminate | apply Rlt_bool_true].
Qed.

Lemma fle_R x y : fvalid x -> fvalid y -> ffin x -> ffin y -> (fle x y = true <-> fval x <= fval y).
Proof.
  intros Hx Hy Fx Fy.
  pose proof (Bleb_correct fprec femax (toB x Hx) (toB y Hy)) as K.
  rewrite !toB_fin, !toB_R in K. specialize (K Fx Fy).
  unfold Bleb in K. rewrite !toB_SF in K. unfold fle. rewrite K.
  split; [case Rle_bool_spec; auto; discriminate | apply Rle_bool_true].
Qed.

Lemma flt_R_false x y : fvalid x -> fvalid y -> ffin x -> ffin y -> (flt x y = false <-> fval y <= fval x).
Proof.
  intros. pose proof (flt_R x y H H0 H1 H2) as K. destruct (flt x y).
  - split; [discriminate|]. intro. assert (fval x < fval y) by (now apply K). lra.
  - split; auto. intros _. destruct (Rle_lt_dec (fval y) (fval x)); auto.
    apply K in r. discriminate.
Qed.

(** ** integers *)
Lemma rnd_id (x : F) : fvalid x -> rnd (fval x) = fval x.
Proof.
  intro H. unfold rnd. apply round_generic; [typeclasses eauto|].
  rewrite <- (toB_R x H). apply generic_format_B2R.
Qed.

Lemma fofZ_correct m : (Z.abs m <= 2 ^ 53)%Z -> ffin (fofZ m) /\ fval (fofZ m) = IZR m.
Proof.
  intro Hm. unfold fofZ. rewrite bn_equiv. unfold ffin, fval. rewrite is_finite_SF_B2SF, SF2R_B2SF.
  pose proof (binary_normalize_correct fprec femax _ _ mode_NE m 0 false) as K.
  change (round_mode mode_NE) with ZnearestE in K. cbv zeta in K.
  assert (E : F2R (Float radix2 m 0) = IZR m) by (unfold F2R; simpl; ring).
  rewrite E in K.
  assert (R : round radix2 fexp64 ZnearestE (IZR m) = IZR m).
  { apply round_generic; [typeclasses eauto|].
    rewrite <- E.
    destruct (Z.eq_dec (Z.abs m) (2 ^ 53)) as [e|n].
    - assert (G : generic_format radix2 fexp64 (bpow radix2 53)).
      { apply generic_format_bpow. unfold fexp64, SpecFloat.emin, fprec, femax. lia. }
      assert (Q : (m = 2 ^ 53 \/ m = - 2 ^ 53)%Z) by lia.
      rewrite E. destruct Q as [Q|Q]; rewrite Q; [exact G|].
      change (- 2 ^ 53)%Z with (- (2 ^ 53))%Z. rewrite opp_IZR. apply generic_format_opp. exact G.
    - apply generic_format_F2R. intro. unfold cexp.
      rewrite mag_F2R by auto.
      assert (Hmag : (mag radix2 (IZR m) <= 53)%Z).
      { apply mag_le_bpow; [intro A; apply eq_IZR in A; lia|].
        rewrite <- abs_IZR. change (bpow radix2 53) with (IZR (2 ^ 53)). apply IZR_lt. lia. }
      unfold SpecFloat.fexp, SpecFloat.emin, fprec, femax in *. lia. }
  rewrite R in K. rewrite Rlt_bool_true in K.
  - destruct K as (K1 & K2 & _). auto.
  - rewrite <- abs_IZR. apply Rle_lt_trans with (IZR (2 ^ 53)); [now apply IZR_le|].
    change (IZR (2 ^ 53)) with (bpow radix2 53). apply bpow_lt. reflexivity.
Qed.

(** ** basic facts on rounding *)
Lemma rnd_le x y : x <= y -> rnd x <= rnd y.
Proof. apply round_le; typeclasses eauto. Qed.

Lemma rnd_small x : Rabs x <= bpow radix2 1000 -> Rabs (rnd x) < fmaxR.
Proof.
  intros H. apply Rle_lt_trans with (bpow radix2 1000); [|apply bpow_lt; reflexivity].
  unfold rnd. apply abs_round_le_generic; [typeclasses eauto|typeclasses eauto| |exact H].
  apply generic_format_bpow. unfold fexp64, SpecFloat.emin, fprec, femax. lia.
Qed.

Lemma rnd_fin x b : Rabs x <= b -> b <= bpow radix2 1000 -> Rabs (rnd x) < fmaxR.
Proof. intros. apply rnd_small. lra. Qed.

Lemma ffin_notnan x : ffin x -> notnan x.
Proof. destruct x; unfold ffin, notnan; simpl; congruence. Qed.

Lemma ffin_number x : ffin x <-> is_number x.
Proof. destruct x; unfold ffin; simpl; split; try congruence; tauto. Qed.
