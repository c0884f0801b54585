(** C82: optimizer runs in double precision with the acquisition function GP-UCB: the computed exploration weight,
    convergence with learnt hyper-parameters and any nearly maximising inner optimizer, and the first iteration. *)
From Coq Require Import ZArith List Bool Lia Permutation Reals Lra.
From Coq Require Import Floats.SpecFloat.
From Flocq Require Import Core IEEE754.BinarySingleNaN.
From Verif Require Import F64 F64R AdamFloat OptFloat OptModel OptSpec Prop_Opt FpModel FpErr LinAlgModel LinAlg FpAlg FpChol FpSolve FpGp FpFin Prop_Fp.
From Verif Require Import KernelModel KernelFacts FpKerModel FpKer FpKer2 Prop_FpKer FpAcqModel FpAcq Prop_FpAcq FpLip Prop_Next FpMeanModel FpHpModel FpLife FpImpl Prop_FpMean.
From Verif Require Import FpLikModel FpLik Prop_FpLik InitModel InitFacts BOModel BOSpec BOFacts Prop_BO BORun BOCount FpBand Prop_BoFp Prop_Conv Prop_Any.
From Verif Require Import AcquiModelF Prop_AcquiF.
From Verif Require Import BOLater Prop_Hp.
Import ListNotations.
Open Scope R_scope.

(** ** The weight *)
(** what is assumed of std::pow: on bases of at least 1, finite with a small relative error when there is no
    overflow *)
Definition libm_pow (fpow : F -> F -> F) : Prop :=
  forall x y, fvalid x -> ffin x -> fvalid y -> ffin y -> 1 <= fval x -> Rpower (fval x) (fval y) <= 2 ^ 1000 ->
    fvalid (fpow x y) /\ ffin (fpow x y) /\ Rabs (fval (fpow x y) - Rpower (fval x) (fval y)) <= / 2 ^ 50 * Rpower (fval x) (fval y) + / 2 ^ 1074.
(** the weight of the literature (gp_ucb.hpp:72-74), at iteration [i] in dimension [d] *)
Definition gp_weight (delta : R) (d : nat) (i : Z) : R := sqrt (2 * ln (Rpower (IZR i) (INR d / 2 + 2) * PI ^ 2 / (3 * delta))).

Definition rel (e x' x : R) : Prop := (1 - e) * x <= x' <= (1 + e) * x.
Lemma rel_mono e f x' x : 0 < x -> e <= f -> rel e x' x -> rel f x' x.
Proof. intros Hx H (A & B). split; [apply Rle_trans with (2 := A)|apply Rle_trans with (1 := B)]; apply Rmult_le_compat_r; lra. Qed.
Lemma rel_mul e f x' x y' y : 0 < x -> 0 < y -> 0 <= e <= 1 -> 0 <= f <= 1 -> rel e x' x -> rel f y' y -> rel (e + f + e * f) (x' * y') (x * y).
Proof.
  intros Hx Hy He Hf (A & B) (C & D). assert (P : 0 < x * y) by now apply Rmult_lt_0_compat. assert (Q : 0 <= e * f) by (apply Rmult_le_pos; lra). split.
  - apply Rle_trans with ((1 - e) * x * ((1 - f) * y)); [|apply Rmult_le_compat; auto; apply Rmult_le_pos; lra].
    replace ((1 - e) * x * ((1 - f) * y)) with ((1 - e - f + e * f) * (x * y)) by ring. apply Rmult_le_compat_r; lra.
  - apply Rle_trans with ((1 + e) * x * ((1 + f) * y)); [apply Rmult_le_compat; auto|right; ring].
    + apply Rle_trans with (2 := A). apply Rmult_le_pos; lra.
    + apply Rle_trans with (2 := C). apply Rmult_le_pos; lra.
Qed.
Lemma rel_inv f y' y : 0 < y -> 0 <= f <= 1 / 2 -> rel f y' y -> rel (2 * f) (/ y') (/ y).
Proof.
  intros Hy Hf (C & D). assert (P : 0 < (1 - f) * y) by (apply Rmult_lt_0_compat; lra). assert (P' : 0 < y') by lra.
  assert (I : 0 < / y) by now apply Rinv_0_lt_compat. split.
  - apply Rle_trans with (/ ((1 + f) * y)); [|apply Rinv_le_contravar; auto]. rewrite Rinv_mult. apply Rmult_le_compat_r; [lra|].
    apply Rmult_le_reg_r with (1 + f); [lra|]. rewrite Rinv_l by lra. assert (0 <= f * f) by (apply Rmult_le_pos; lra). lra.
  - apply Rle_trans with (/ ((1 - f) * y)); [apply Rinv_le_contravar; auto|]. rewrite Rinv_mult. apply Rmult_le_compat_r; [lra|].
    apply Rmult_le_reg_r with (1 - f); [lra|]. rewrite Rinv_l by lra. assert (f * f <= 1 / 2 * f) by (apply Rmult_le_compat_r; lra). lra.
Qed.
Lemma rel_pos e x' x : 0 < x -> e < 1 -> rel e x' x -> 0 < x'.
Proof. intros Hx He (A & _). apply Rlt_le_trans with (2 := A). apply Rmult_lt_0_compat; lra. Qed.
Lemma rel_trans e f x'' x' x : 0 < x -> 0 <= e < 1 -> 0 <= f <= 1 -> rel e x' x -> rel f x'' x' -> rel (e + f + e * f) x'' x.
Proof.
  intros Hx He Hf H1 H2. pose proof (rel_pos e x' x Hx ltac:(lra) H1) as P.
  assert (Q : rel (f + e + f * e) (x'' / x' * x') (1 * x)).
  { apply rel_mul; try lra; auto. destruct H2 as (A & B). split; apply Rmult_le_reg_r with x'; auto; unfold Rdiv; rewrite (Rmult_assoc x''), Rinv_l, ?Rmult_1_r by lra; auto. }
  replace (x'' / x' * x') with x'' in Q by (field; lra). rewrite Rmult_1_l in Q. replace (e + f + e * f) with (f + e + f * e) by ring. exact Q.
Qed.
Lemma rnd_rel x : / 10 ^ 10 <= x -> rel (/ 10 ^ 15) (rnd x) x.
Proof.
  intros Hx. pose proof (rnd_error x) as E. rewrite (Rabs_pos_eq x) in E by lra. pose proof e0_40 as E0.
  assert (U : uu <= / 10 ^ 15 / 2) by (change uu with (bp (- Z.of_nat 53)); rewrite bp_inv; lra).
  assert (uu * x <= / 10 ^ 15 / 2 * x) by (apply Rmult_le_compat_r; lra). apply Rabs_le_inv in E. unfold rel. lra.
Qed.
Lemma rel_rnd e x' x : 0 < x -> 0 <= e <= 1 / 2 -> / 10 ^ 9 <= x -> rel e x' x -> rel (e + 2 / 10 ^ 15) (rnd x') x.
Proof.
  intros Hx He Hx' H. assert (L : / 10 ^ 10 <= x').
  { destruct H as (A & _). apply Rle_trans with (2 := A). apply Rle_trans with (1 / 2 * / 10 ^ 9); [lra|apply Rmult_le_compat; lra]. }
  apply rel_mono with (e + / 10 ^ 15 + e * / 10 ^ 15); [auto| |apply rel_trans with x'; auto; try lra; now apply rnd_rel].
  assert (e * / 10 ^ 15 <= 1 / 2 * / 10 ^ 15) by (apply Rmult_le_compat_r; lra). lra.
Qed.
Lemma half_int_exact z : (Z.abs z < 2 ^ 53)%Z -> rnd (IZR z / 2) = IZR z / 2.
Proof.
  intros Hz. apply rnd_gf. apply generic_format_FLT. apply FLT_spec with (Float radix2 z (-1)); cbn; [|lia|lia].
  unfold F2R. cbn. lra.
Qed.

Lemma exponent_val d : (d <= 64)%nat -> let e := fadd (fdiv (fofZ (Z.of_nat d)) f2) f2 in fvalid e /\ ffin e /\ fval e = INR d / 2 + 2.
Proof.
  intros Hd e. unfold e. clear e. destruct (fofZ_correct (Z.of_nat d) ltac:(lia)) as [D1 D2]. destruct (fofZ_correct 2 ltac:(lia)) as [T1 T2]. fold f2 in T1, T2.
  assert (Hr : 0 <= IZR (Z.of_nat d) <= 64) by (split; apply IZR_le; lia). assert (B7 : 100 <= bp 1000) by (apply Rle_trans with (bp 7); [cbn; lra|apply bp_le; lia]).
  destruct (fdiv_correct (fofZ (Z.of_nat d)) f2 (fofZ_valid _) (fofZ_valid _) D1 T1) as [Q1 Q2]; [rewrite T2; lra| |].
  { rewrite D2, T2. apply rnd_small. rewrite Rabs_pos_eq; lra. }
  rewrite D2, T2, half_int_exact in Q2 by lia.
  assert (VQ : fvalid (fdiv (fofZ (Z.of_nat d)) f2)) by (apply fdiv_valid; apply fofZ_valid).
  destruct (fadd_correct (fdiv (fofZ (Z.of_nat d)) f2) f2 VQ (fofZ_valid _) Q1 T1) as [A1 A2].
  { rewrite Q2, T2. apply rnd_small. rewrite Rabs_pos_eq; lra. }
  split; [apply fadd_valid; auto; apply fofZ_valid|]. split; auto. rewrite A2, Q2, T2, INR_IZR_INZ.
  replace (IZR (Z.of_nat d) / 2 + 2) with (IZR (Z.of_nat d + 4) / 2) by (rewrite plus_IZR; lra). rewrite half_int_exact by lia. rewrite plus_IZR. lra.
Qed.

Lemma sqrt_near a b e : 1 <= b -> 0 <= a -> Rabs (a - b) <= e -> Rabs (sqrt a - sqrt b) <= e.
Proof.
  intros Hb Ha H. assert (S1 : 1 <= sqrt b) by (rewrite <- sqrt_1; now apply sqrt_le_1_alt). pose proof (sqrt_pos a).
  assert (E : a - b = (sqrt a - sqrt b) * (sqrt a + sqrt b)) by (pose proof (sqrt_sqrt a Ha); pose proof (sqrt_sqrt b ltac:(lra)); lra).
  rewrite E, Rabs_mult, (Rabs_pos_eq (sqrt a + sqrt b)) in H by lra. apply Rle_trans with (2 := H). rewrite <- (Rmult_1_r (Rabs _)) at 1. apply Rmult_le_compat_l; [apply Rabs_pos|lra].
Qed.

(** From iteration 1 on, the computed weight is the one of the literature up to 2e-9. *)
Theorem C82_weight : forall fpow flog delta d i, libm_pow fpow -> libm_log (fun x y => y = flog x) (/ 2 ^ 50) ->
  fvalid delta -> ffin delta -> / 2 ^ 20 <= fval delta <= 1 -> (d <= 64)%nat -> (1 <= i <= 2 ^ 20)%Z ->
  let b := gp_ucb_beta_F fpow flog delta (Z.of_nat d) i in
  fvalid b /\ ffin b /\ Rabs (fval b - gp_weight (fval delta) d i) <= 2 / 10 ^ 9 /\ sqrt 2 <= gp_weight (fval delta) d i <= 40.
Proof.
  intros fpow flog delta d i Hpow Hlog Vd Fd Rd Hd Hi b. unfold b, gp_ucb_beta_F, gp_weight. clear b. cbv zeta.
  destruct (exponent_val d Hd) as (Ve & Fe & Ee). set (e := fadd (fdiv (fofZ (Z.of_nat d)) f2) f2) in *.
  destruct (fofZ_correct i ltac:(lia)) as [I1 I2]. assert (Ri : 1 <= IZR i <= IZR (2 ^ 20)) by (split; apply IZR_le; lia).
  assert (Rdd : 0 <= INR d <= 64) by (split; [apply pos_INR|rewrite INR_IZR_INZ; apply IZR_le; lia]).
  set (nt := Rpower (IZR i) (INR d / 2 + 2)). set (D := fval delta) in *.
  assert (L2 : 0 < ln 2 <= 1). { split; [rewrite <- ln_1; apply ln_increasing; lra|]. pose proof (exp_ineq1_le (ln 2)) as E. rewrite exp_ln in E by lra. lra. }
  assert (Li : 0 <= ln (IZR i) <= 20 * ln 2).
  { split; [rewrite <- ln_1; destruct (Req_dec (IZR i) 1) as [->|]; [lra|left; apply ln_increasing; lra]|].
    replace (20 * ln 2) with (ln (IZR (2 ^ 20))). 2:{ replace (IZR (2 ^ 20)) with (2 ^ 20) by (cbn; lra). rewrite ln_pow by lra. replace (INR 20) with 20 by (rewrite INR_IZR_INZ; reflexivity). reflexivity. }
    destruct (Req_dec (IZR i) (IZR (2 ^ 20))) as [->|]; [lra|left; apply ln_increasing; lra]. }
  assert (Ln : 0 <= ln nt <= 680 * ln 2).
  { unfold nt, Rpower. rewrite ln_exp. split; [apply Rmult_le_pos; lra|]. apply Rle_trans with (34 * (20 * ln 2)); [apply Rmult_le_compat; lra|lra]. }
  assert (N0 : 0 < nt) by (unfold nt, Rpower; apply exp_pos).
  assert (Np : nt = exp (ln nt)) by (now rewrite exp_ln).
  assert (N1 : 1 <= nt) by (rewrite Np, <- exp_0; destruct (Req_dec (ln nt) 0) as [->|]; [lra|left; apply exp_increasing; lra]).
  assert (N2 : nt <= 2 ^ 680).
  { replace (2 ^ 680) with (exp (680 * ln 2)). 2:{ replace 680 with (INR 680) at 1 by (rewrite INR_IZR_INZ; reflexivity). rewrite <- ln_pow by lra. apply exp_ln. apply pow_lt. lra. }
    rewrite Np. destruct (Req_dec (ln nt) (680 * ln 2)) as [->|]; [lra|left; apply exp_increasing; lra]. }
  assert (P680 : 2 ^ 680 * 2 ^ 100 <= 2 ^ 1000) by (rewrite <- pow_add; apply Rle_pow; [lra|lia]).
  assert (P6 : 1 <= 2 ^ 680) by (apply pow_R1_Rle; lra).
  assert (Bp : bp 1000 = 2 ^ 1000) by exact (bp_pow 1000).
  destruct (Hpow (fofZ i) e (fofZ_valid _) I1 Ve Fe) as (Vn & Fn & En); [lra| |].
  { rewrite I2, Ee. fold nt. lra. }
  rewrite I2, Ee in En. fold nt in En.
  assert (Rn : rel (/ 10 ^ 15) (fval (fpow (fofZ i) e)) nt).
  { assert (/ 2 ^ 50 * nt <= 9 / 10 ^ 16 * nt) by (apply Rmult_le_compat_r; lra).
    assert (T : / 2 ^ 1074 <= / 10 ^ 17). { apply Rle_trans with (/ 2 ^ 60); [apply Rinv_le_contravar; [apply pow_lt; lra|apply Rle_pow; [lra|lia]]|lra]. }
    apply Rabs_le_inv in En. unfold rel. lra. }
  set (nt' := fpow (fofZ i) e) in *.
  (* pi *)
  pose proof pi_bounds as Pb. assert (Pp : 0 < PI ^ 2) by (apply pow_lt; lra).
  assert (Vp : fvalid (fmul M_PI M_PI)) by reflexivity. assert (Fp : ffin (fmul M_PI M_PI)) by reflexivity.
  assert (Rp : rel (/ 10 ^ 10) (fval (fmul M_PI M_PI)) (PI ^ 2)).
  { assert (E : 98696044010 / 10 ^ 10 <= fval (fmul M_PI M_PI) <= 98696044012 / 10 ^ 10) by (cbv -[IZR F2R bpow Rdiv Rle]; unfold F2R; simpl; lra).
    assert (31415926535 / 10 ^ 10 * (31415926535 / 10 ^ 10) <= PI * PI <= 31415926536 / 10 ^ 10 * (31415926536 / 10 ^ 10)) by (split; apply Rmult_le_compat; lra).
    unfold rel. simpl pow. rewrite Rmult_1_r. simpl pow in *. lra. }
  assert (Pv : 98 / 10 <= PI ^ 2 <= 99 / 10).
  { assert (31415926535 / 10 ^ 10 * (31415926535 / 10 ^ 10) <= PI * PI <= 31415926536 / 10 ^ 10 * (31415926536 / 10 ^ 10)) by (split; apply Rmult_le_compat; lra). simpl pow in *. lra. }
  (* delta * 3 *)
  destruct (fofZ_correct 3 ltac:(lia)) as [H31 H32].
  assert (B1000 : 100 <= bp 1000) by (apply Rle_trans with (bp 7); [cbn; lra|apply bp_le; lia]).
  destruct (fmul_correct delta (fofZ 3) Vd (fofZ_valid _) Fd H31) as (Fd3 & Ed3). { fold D. rewrite H32. apply rnd_small. rewrite Rabs_pos_eq; lra. }
  fold D in Ed3. rewrite H32 in Ed3. set (d3 := fmul delta (fofZ 3)) in *. assert (Vd3 : fvalid d3) by (apply fmul_valid; auto; apply fofZ_valid).
  assert (Rd3 : rel (/ 10 ^ 15) (fval d3) (3 * D)) by (rewrite Ed3, (Rmult_comm D); apply rnd_rel; lra).
  (* nt * pi2 *)
  assert (Rq : rel (2 / 10 ^ 10) (fval nt' * fval (fmul M_PI M_PI)) (nt * PI ^ 2)).
  { apply rel_mono with (/ 10 ^ 15 + / 10 ^ 10 + / 10 ^ 15 * / 10 ^ 10); [now apply Rmult_lt_0_compat|lra|apply rel_mul; auto; lra]. }
  assert (Np2 : 9 <= nt * PI ^ 2 <= 2 ^ 680 * 10).
  { split; [apply Rle_trans with (1 * (98 / 10)); [lra|apply Rmult_le_compat; lra]|apply Rmult_le_compat; lra]. }
  assert (Rb1 : 8 <= fval nt' * fval (fmul M_PI M_PI) <= 2 ^ 680 * 11) by (unfold rel in Rq; lra).
  destruct (fmul_correct nt' (fmul M_PI M_PI) Vn Vp Fn Fp) as (Fm & Em). { apply rnd_small. rewrite Bp. rewrite Rabs_pos_eq; lra. }
  set (nu := fmul nt' (fmul M_PI M_PI)) in *. assert (Vm : fvalid nu) by (apply fmul_valid; auto).
  assert (Rm : rel (3 / 10 ^ 10) (fval nu) (nt * PI ^ 2)).
  { apply rel_mono with (2 / 10 ^ 10 + 2 / 10 ^ 15); [lra|lra|]. rewrite Em. apply rel_rnd; try lra. exact Rq. }
  (* quotient *)
  set (A := nt * PI ^ 2 / (3 * D)).
  assert (I3 : 1 / 3 <= / (3 * D) <= 2 ^ 20).
  { split; [apply Rle_trans with (/ 3); [lra|apply Rinv_le_contravar; lra]|]. apply Rle_trans with (/ (/ 2 ^ 20)); [apply Rinv_le_contravar; lra|right; apply Rinv_inv]. }
  assert (A1 : 98 / 30 <= A <= 2 ^ 680 * 10 * 2 ^ 20).
  { unfold A, Rdiv. split; [apply Rle_trans with (98 / 10 * (1 / 3)); [lra|apply Rmult_le_compat; try lra]|apply Rmult_le_compat; lra].
    apply Rle_trans with (1 * (98 / 10)); [lra|apply Rmult_le_compat; lra]. }
  assert (Rqq : rel (4 / 10 ^ 10) (fval nu / fval d3) A).
  { unfold A, Rdiv. apply rel_mono with (3 / 10 ^ 10 + 2 * / 10 ^ 15 + 3 / 10 ^ 10 * (2 * / 10 ^ 15)); [apply Rmult_lt_0_compat; lra|lra|].
    apply rel_mul; auto; try lra. apply rel_inv; auto; lra. }
  assert (D3n : fval d3 <> 0) by (apply Rgt_not_eq, (rel_pos (/ 10 ^ 15) _ (3 * D)); lra || auto).
  assert (P1 : 2 ^ 680 * 10 * 2 ^ 20 * 2 <= 2 ^ 1000) by (apply Rle_trans with (2 := P680); apply Rle_trans with (2 ^ 680 * (10 * 2 ^ 20 * 2)); [right; ring|apply Rmult_le_compat_l; lra]).
  destruct (fdiv_correct nu d3 Vm Vd3 Fm Fd3 D3n) as (Fq & Eq). { apply rnd_small. rewrite Bp. unfold rel in Rqq. rewrite Rabs_pos_eq; lra. }
  set (q := fdiv nu d3) in *. assert (Vq : fvalid q) by (apply fdiv_valid; auto).
  assert (Rq5 : rel (5 / 10 ^ 10) (fval q) A).
  { apply rel_mono with (4 / 10 ^ 10 + 2 / 10 ^ 15); [lra|lra|]. rewrite Eq. apply rel_rnd; try lra. exact Rqq. }
  (* logarithm *)
  assert (LA : 1 <= ln A <= 710).
  { split.
    - rewrite <- (ln_exp 1). pose proof exp_le_3. left. apply ln_increasing; [apply exp_pos|lra].
    - unfold A, Rdiv. rewrite ln_mult, ln_mult by lra.
      assert (ln (PI ^ 2) <= 9). { pose proof (exp_ineq1_le (ln (PI ^ 2))) as E. rewrite exp_ln in E by lra. lra. }
      assert (ln (/ (3 * D)) <= 20 * ln 2).
      { replace (20 * ln 2) with (ln (2 ^ 20)). 2:{ rewrite ln_pow by lra. replace (INR 20) with 20 by (rewrite INR_IZR_INZ; reflexivity). reflexivity. }
        destruct (Req_dec (/ (3 * D)) (2 ^ 20)) as [->|]; [lra|left; apply ln_increasing; lra]. }
      lra. }
  assert (Eln : Rabs (ln (fval q) - ln A) <= 6 / 10 ^ 10).
  { apply Rle_trans with (5 / 10 ^ 10 / (1 - 5 / 10 ^ 10)); [|lra]. unfold rel in Rq5. apply ln_ratio; lra. }
  destruct (Hlog q (flog q) eq_refl Vq Fq) as (Vl & Fl & El); [unfold rel in Rq5; lra|].
  set (l := flog q) in *. apply Rabs_le_inv in Eln.
  assert (El2 : / 2 ^ 50 * (1 + Rabs (ln (fval q))) <= / 2 ^ 50 * 1000) by (apply Rmult_le_compat_l; [lra|]; rewrite Rabs_pos_eq; lra).
  apply Rabs_le_inv in El.
  assert (Ll : Rabs (fval l - ln A) <= 7 / 10 ^ 10) by (apply Rabs_le; lra). apply Rabs_le_inv in Ll.
  (* 2 * log *)
  destruct (fofZ_correct 2 ltac:(lia)) as [T1 T2]. fold f2 in T1, T2.
  assert (B10 : 2000 <= bp 1000) by (apply Rle_trans with (bp 11); [cbn; lra|apply bp_le; lia]).
  destruct (fmul_correct f2 l (fofZ_valid _) Vl T1 Fl) as (F2' & E2'). { rewrite T2. apply rnd_small. rewrite Rabs_pos_eq; lra. }
  rewrite T2 in E2'. assert (V2 : fvalid (fmul f2 l)) by (apply fmul_valid; auto; apply fofZ_valid). set (z := fmul f2 l) in *.
  pose proof (rnd_rel (2 * fval l) ltac:(lra)) as Rz. rewrite <- E2' in Rz. unfold rel in Rz.
  assert (Ez : Rabs (fval z - 2 * ln A) <= 15 / 10 ^ 10) by (apply Rabs_le; lra).
  destruct (fsqrt_correct z V2 F2' ltac:(apply Rabs_le_inv in Ez; lra)) as (Fs & Es).
  pose proof (sqrt_near (fval z) (2 * ln A) _ ltac:(lra) ltac:(apply Rabs_le_inv in Ez; lra) Ez) as Sz.
  assert (W : sqrt 2 <= sqrt (2 * ln A) <= 40).
  { split; [apply sqrt_le_1_alt; lra|]. rewrite <- (sqrt_square 40) by lra. apply sqrt_le_1_alt. lra. }
  assert (S2 : 1 <= sqrt 2) by (rewrite <- sqrt_1; apply sqrt_le_1_alt; lra).
  split; [apply fsqrt_valid; auto|]. split; auto. fold A. split; [|exact W]. rewrite Es. apply Rabs_le_inv in Sz.
  pose proof (rnd_rel (sqrt (fval z)) ltac:(lra)) as Rs. unfold rel in Rs. apply Rabs_le. lra.
Qed.

(** ** Runs *)
(** [any_loss] (C80) for the weight [b] *)
Definition gp_loss (b : R) (sf2 noise : F) (p : kpar) (N d m : nat) (M lam : R) (r k : nat) (zeta : R) : R :=
  let W := sqrt (INR N / nugget noise) * b + shift noise N m M in
  2 * b * sqrt (nugget noise / INR k + fval sf2 * (gap p d (/ INR r) lam * gap p d (/ INR r) lam))
  + zeta
  + 2 * (7 / 10 ^ 6 * W + 2 / 10 ^ 12 * (1 + (M + centre m M)) + 11 / 10 ^ 7 * b / sqrt (var_floor sf2 noise N))
  + 2 * (centre m M + fval sf2 * shift noise N m M).
Lemma any_gp_loss alpha b sf2 noise p N d m M lam r k zeta : fval alpha <= b -> any_loss alpha sf2 noise p N d m M lam r k zeta <= gp_loss b sf2 noise p N d m M lam r k zeta.
Proof.
  intros Hb. unfold any_loss, gp_loss. cbv zeta. set (s1 := sqrt (INR N / nugget noise)). set (s2 := sqrt (nugget noise / INR k + _)). set (s3 := sqrt (var_floor sf2 noise N)).
  assert (0 <= s1) by apply sqrt_pos. assert (0 <= s2) by apply sqrt_pos. assert (S3 : 0 <= s3) by apply sqrt_pos.
  assert (I3 : 0 <= / s3) by (destruct S3 as [S3|<-]; [left; now apply Rinv_0_lt_compat|rewrite Rinv_0; lra]).
  assert (2 * fval alpha * s2 <= 2 * b * s2) by (apply Rmult_le_compat_r; lra).
  assert (s1 * fval alpha <= s1 * b) by (apply Rmult_le_compat_l; lra).
  assert (11 / 10 ^ 7 * fval alpha / s3 <= 11 / 10 ^ 7 * b / s3) by (apply Rmult_le_compat_r; [exact I3|lra]). lra.
Qed.
Lemma weight_mono delta d i j : 0 < delta <= 1 -> (1 <= i <= j)%Z -> gp_weight delta d i <= gp_weight delta d j.
Proof.
  intros Hd Hij. unfold gp_weight. apply sqrt_le_1_alt. apply Rmult_le_compat_l; [lra|]. pose proof pi_bounds as Pb. assert (Pp : 0 < PI ^ 2) by (apply pow_lt; lra).
  assert (I3 : 0 < / (3 * delta)) by (apply Rinv_0_lt_compat; lra).
  destruct (Z.eq_dec i j) as [->|N]; [lra|]. left. apply ln_increasing; [apply Rmult_lt_0_compat; auto; apply Rmult_lt_0_compat; auto; apply exp_pos|].
  apply Rmult_lt_compat_r; auto. apply Rmult_lt_compat_r; auto. unfold Rpower. apply exp_increasing. apply Rmult_lt_compat_l; [pose proof (pos_INR d); lra|].
  apply ln_increasing; [apply IZR_lt; lia|apply IZR_lt; lia].
Qed.

Section Runs.
  Context {W E T : Type}.
  Variables (fexp : F -> F) (mk d : nat) (par : T -> hyper) (m : nat) (mf : meanf) (M lam : R).
  Notation vec := F64.vec.
  Notation mdl := (T * fgp)%type.
  Notation sf2 t := (hy_sf2 (par t)).
  Notation noise t := (hy_noise (par t)).
  Notation kp t := (hy_p (par t)).
  (** std::pow, std::log and Params::acqui_gpucb::delta() *)
  Variables (fpow : F -> F -> F) (flog : F -> F) (delta : F).
  Notation beta c := (gp_ucb_beta_F fpow flog delta (Z.of_nat d) c).
  Variable sfun : W -> vec -> (vec + E) * W.
  Variable m_fresh : mdl.
  Variable m_compute : W -> mdl -> list vec -> list vec -> mdl * W.
  Variable m_add : W -> mdl -> vec -> vec -> mdl * W.
  Variable m_hp : W -> mdl -> mdl * W.
  Variable acq : W -> mdl -> Z -> vec * W.
  Variable init_n : nat.
  Variable init_pt : nat -> W -> vec * W.
  Variable hp_period : Z.
  Notation run := (run_ops sfun m_fresh m_compute m_add m_hp acq init_n init_pt hp_period).
  Notation life t := (gp_life fexp mk (sf2 t) (noise t) (kp t) m mf).
  (** the next sample: in the first iteration of a call of optimize() any point of the box, in later ones a point
      within [zeta] of the maximum of the computed GP-UCB *)
  Definition runs_gpucb (zeta : R) : Prop :=
    forall w g c xs ys, life (fst g) xs (firsts ys) (snd g) -> data d M xs ys ->
      box d (fst (acq w g c)) /\
      ((1 <= c <= Z.of_nat (length xs))%Z -> exists f, computes_ucb fexp mk d (sf2 (fst g)) (noise (fst g)) (kp (fst g)) m (beta c) (snd g) f /\
         forall v, box d v -> fval (f v) <= fval (f (fst (acq w g c))) + zeta).

  (** After more than [k * r^d] iterations that were not the first of their call, [best_sample()] is a global
      maximum of the objective up to [Lo]. *)
  Theorem C82_converges : forall O (Lam : T -> R) del eps zeta Lo cs os g0 w s r k,
    (forall t, gp_setting fexp mk d (sf2 t) (noise t) (kp t) m mf M lam) -> fixed mf -> 0 <= eps ->
    libm_pow fpow -> libm_log (fun x y => y = flog x) (/ 2 ^ 50) -> fvalid delta -> ffin delta -> / 2 ^ 20 <= fval delta <= 1 -> (d <= 64)%nat ->
    (forall t, exists h, norm_le d (sf2 t) (kp t) h (Lam t) /\ forall v, point d v -> Rabs (O v - objective (sf2 t) (kp t) (prior mf []) h v) <= del) ->
    runs_hgp fexp mk d par m mf M m_fresh m_compute m_add m_hp -> runs_gpucb zeta ->
    objective_ok d sfun (measured d M eps O) -> (forall i w, point d (fst (init_pt i w))) -> List.Forall (op_ok d (measured d M eps O)) os ->
    run cs os (new_bo g0 w) = Some s -> (length (samples s) <= 1000)%nat ->
    (forall t, Lam t + sqrt (INR (length (samples s)) / nugget (noise t)) * (eps + del) + 2 / 10 ^ 9 <= gp_weight (fval delta) d 1 /\
       gp_loss (gp_weight (fval delta) d (Z.of_nat (length (samples s))) + 2 / 10 ^ 9) (sf2 t) (noise t) (kp t) (length (samples s)) d m M lam r k zeta <= Lo) ->
    (1 <= r)%nat -> (1 <= k)%nat -> (Z.of_nat (k * r ^ d) + calls (trace s) < iters (trace s))%Z ->
    exists b, best_sample (fun y => nth 0 y f0) s = Some b /\ In b (samples s) /\
      forall w, box d w -> O w <= O b + Lo + 2 * eps + 2 * del.
  Proof.
    intros H Lam del eps zeta Lo cs os g0 w s r k HS Hfix He Hpow Hlog Vd Fd Rd Hd64 Hh HG HQ HO HI Hops Hrun Hlen Hal Hr Hk Hit.
    set (Ok := measured d M eps H) in *. assert (HOk : forall x y, Ok x y -> datum d M x y) by (intros x y O; apply O).
    destruct (run_hyper fexp mk d par m mf M sfun m_fresh m_compute m_add m_hp acq init_n init_pt hp_period Ok (fun g X c q => box d q /\ ((1 <= c <= Z.of_nat (length X))%Z ->
      exists f, computes_ucb fexp mk d (sf2 (fst g)) (noise (fst g)) (kp (fst g)) m (beta c) (snd g) f /\ forall v, box d v -> fval (f v) <= fval (f q) + zeta))
      cs os g0 w s HOk HG) as ((DL & HD) & HS2); auto.
    { intros w1 g c xs ys HL Hd. destruct (HQ w1 g c xs ys HL Hd) as (B1 & B2). split; [now apply box_point|]. auto. }
    specialize (HD Hlen).
    destruct (run_later sfun m_fresh m_compute m_add m_hp acq init_n init_pt hp_period cs os g0 w s Hrun) as ((CA & CB & CC & CD) & Cnt).
    set (L := later (trace s)) in *. set (pk := map (fun xs : list vec => last xs []) L).
    (* every completed iteration but the first ones *)
    assert (Pick : forall xs0, In xs0 L -> exists X Y g c q, xs0 = X ++ [q] /\ (1 <= c <= Z.of_nat (length X))%Z /\ (length X <= length (samples s))%nat /\ List.Forall2 Ok X Y /\
      life (fst g) X (firsts Y) (snd g) /\ box d q /\
      (exists f, computes_ucb fexp mk d (sf2 (fst g)) (noise (fst g)) (kp (fst g)) m (beta c) (snd g) f /\ forall v, box d v -> fval (f v) <= fval (f q) + zeta)).
    { intros xs0 Hin. destruct (CA xs0 Hin) as (rr & Er). destruct (CD xs0 Hin) as (X & Y & g & c & q & -> & Ha & Hc).
      assert (Lx : (length X <= length (samples s))%nat) by (rewrite Er, !app_length; lia).
      destruct (HS2 X Y g c q Ha (Nat.le_trans _ _ _ Lx Hlen)) as (F1 & F2 & _ & F3 & F4).
      exists X, Y, g, c, q. auto 10. }
    assert (Bp : forall q, In q pk -> box d q).
    { intros q Hq. apply in_map_iff in Hq. destruct Hq as (xs0 & <- & Hq). destruct (Pick xs0 Hq) as (X & Y & g & c & q & -> & _ & _ & _ & _ & Gq & _). now rewrite last_last. }
    assert (Hl : (k * r ^ d < length pk)%nat).
    { unfold pk. rewrite map_length. apply Nat2Z.inj_lt. lia. }
    destruct (revisit_key (key r) pk (r ^ d) k) as (l1 & q & l2 & El & Hocc); auto.
    { intros q Hq. destruct (Bp q Hq) as (<- & _). now apply key_lt. }
    assert (B1 : forall v, In v l1 -> box d v) by (intros v Hv; apply Bp; rewrite El; apply in_or_app; now left).
    unfold pk in El. destruct (map_eq_app _ _ _ _ El) as (L1 & LL & ES & El1 & El2). destruct LL as [|xs0 L2]; [discriminate|]. cbn [map] in El2. injection El2 as Eq _.
    assert (Hin : In xs0 L) by (rewrite ES; apply in_elt).
    destruct (Pick xs0 Hin) as (X & Y & g & c & q' & -> & Rc & Lx & FX & Lf & Bq & f & Hf & Hmax). rewrite last_last in Eq. subst q'.
    set (inb := fun v : vec => (length v =? d)%nat && forallb (fun a => if Rle_dec 0 (fval a) then if Rle_dec (fval a) 1 then true else false else false) v).
    set (b := fun v : vec => inb v && (key r v =? key r q)%nat).
    assert (Ko : (k <= length (filter b X))%nat).
    { apply Nat.le_trans with (1 := Hocc). apply Nat.le_trans with (length (filter b l1)).
      - apply Nat.eq_le_incl. f_equal. apply filter_ext_in. intros v Hv. unfold b. replace (inb v) with true; [reflexivity|]. symmetry.
        destruct (B1 v Hv) as (V1 & V2). unfold inb. rewrite V1, Nat.eqb_refl. apply forallb_forall. intros a Ia. destruct (V2 a Ia) as (_ & _ & A1 & A2).
        destruct (Rle_dec 0 (fval a)); [|contradiction]. destruct (Rle_dec (fval a) 1); [reflexivity|contradiction].
      - apply occ_filter. intros v. pose proof (CC L1 _ L2 ES v) as Oc. rewrite removelast_last in Oc. rewrite <- El1. exact Oc. }
    assert (Xn : X <> []) by (intros ->; cbn in Ko; lia).
    assert (Fdd : List.Forall2 (datum d M) X Y) by (clear - FX HOk; induction FX; constructor; auto).
    destruct (datum_points d M X Y Fdd) as (Px & Py).
    assert (Ln : (0 < length X <= 1000)%nat) by (split; [destruct X; [congruence|cbn; lia]|exact (Nat.le_trans _ _ _ Lx Hlen)]).
    assert (Hobs : forall i, (i < length X)%nat -> Rabs (fval (nth i (firsts Y) f0) - H (ptsf X i)) <= eps).
    { assert (Q : forall dd i, (i < length X)%nat -> Rabs (fval (nth i (firsts Y) f0) - H (nth i X dd)) <= eps); [|intros i Hi; now apply Q].
      clear - FX. induction FX as [|x y X Y O _ IH]; intros dd i Hi; [cbn in Hi; lia|]. destruct i as [|i]; cbn [firsts map nth]; [apply O|]. apply IH. cbn in Hi. lia. }
    assert (Nb : forall x, In x X -> b x = true -> near_pt (/ INR r) x q).
    { intros x Ix Hb. unfold b, inb in Hb. apply andb_prop in Hb. destruct Hb as (Hb & Hkq). apply andb_prop in Hb. destruct Hb as (L1' & Fb).
      apply Nat.eqb_eq in L1', Hkq. rewrite forallb_forall in Fb. rewrite List.Forall_forall in Px. destruct (Px x Ix) as (_ & Px2).
      apply key_near with d; auto. split; auto. intros a Ia. destruct (Px2 a Ia) as (A1 & A2 & _). specialize (Fb a Ia).
      destruct (Rle_dec 0 (fval a)); [|discriminate]. destruct (Rle_dec (fval a) 1); [|discriminate]. auto. }
    set (t := fst g) in *. destruct (Hh t) as (h & Hno & Hap). destruct (Hal t) as (Hal1 & Hal2).
    assert (D0 : 0 <= del) by (apply Rle_trans with (2 := Hap q (box_point d q Bq)); apply Rabs_pos).
    assert (Hobs' : forall i, (i < length X)%nat -> Rabs (fval (nth i (firsts Y) f0) - objective (sf2 t) (kp t) (prior mf []) h (ptsf X i)) <= eps + del).
    { intros i Hi. pose proof (Hobs i Hi) as O1. assert (Pi : point d (ptsf X i)) by (rewrite List.Forall_forall in Px; apply Px; unfold ptsf; now apply nth_In).
      pose proof (Hap _ Pi) as O2. apply Rabs_le_inv in O1, O2. apply Rabs_le. lra. }
    (* the weight *)
    assert (Cl : (c <= Z.of_nat (length (samples s)))%Z) by (apply Z.le_trans with (1 := proj2 Rc); apply inj_le; exact Lx).
    assert (C3 : (c <= 1000)%Z) by (apply Z.le_trans with (1 := Cl); change 1000%Z with (Z.of_nat 1000); apply inj_le; exact Hlen).
    assert (C1 : (1 <= c)%Z) by apply Rc.
    destruct (C82_weight fpow flog delta d c Hpow Hlog Vd Fd Rd Hd64 ltac:(lia)) as (Vb & Fb & Eb & Wb1 & Wb2).
    assert (P20 : 0 < / 2 ^ 20) by (apply Rinv_0_lt_compat, pow_lt; lra).
    pose proof (weight_mono (fval delta) d 1 c ltac:(lra) ltac:(lia)) as M1. pose proof (weight_mono (fval delta) d c (Z.of_nat (length (samples s))) ltac:(lra) (conj C1 Cl)) as M2.
    apply Rabs_le_inv in Eb. pose proof (sqrt_pos 2) as Q2.
    assert (HA : dbl (2 ^ 20) (beta c)). { split; auto. split; auto. apply Rabs_le. lra. }
    assert (Hal3 : Lam t + sqrt (INR (length (samples s)) / nugget (noise t)) * (eps + del) <= fval (beta c)) by lra.
    pose proof (any_regret fexp mk d (sf2 t) (noise t) (kp t) m mf M lam (HS t) X (firsts Y) (snd g) Lf Ln Px Py Hfix h (Lam t) (eps + del) (beta c) (length (samples s)) Hno ltac:(lra) Hobs' Lx HA Hal3
      f q b r k zeta Hf Bq Hmax Hr Nb (conj Hk Ko)) as Rg.
    pose proof (any_gp_loss (beta c) (gp_weight (fval delta) d (Z.of_nat (length (samples s))) + 2 / 10 ^ 9) (sf2 t) (noise t) (kp t) (length (samples s)) d m M lam r k zeta ltac:(lra)) as Lg.
    (* the best sample *)
    assert (Iq : In q (samples s)). { destruct (CA _ Hin) as (rr & ->). apply in_or_app. left. apply in_elt. }
    assert (Fo : List.Forall (fun y => dbl M (nth 0 y f0)) (observations s)).
    { clear - HD HOk. induction HD as [|x y X Y O _ IH]; constructor; auto. destruct (HOk _ _ O) as (_ & o & -> & Do). exact Do. }
    destruct (In_nth_error _ _ Iq) as (iq & Eiq).
    assert (Pair : forall i x, nth_error (samples s) i = Some x -> exists y, nth_error (observations s) i = Some y /\ Ok x y).
    { clear - HD. induction HD as [|x0 y0 X Y O _ IH]; intros i x Hi; [destruct i; discriminate|]. destruct i as [|i]; cbn in *; [injection Hi as <-; eauto|auto]. }
    destruct (Pair iq q Eiq) as (yq & Eyq & Oq).
    destruct (C08_incumbent (fun y => nth 0 y f0) s DL) as (i & o & bb & Eo & Ebb & _ & Bs & Max & _).
    { intros Z. rewrite Z in Eyq. destruct iq; discriminate. }
    { rewrite Forall_map. apply List.Forall_impl with (2 := Fo). intros y (_ & Fy & _). unfold notnan. destruct (nth 0 y f0); try reflexivity; discriminate. }
    exists bb. split; [exact Bs|]. split; [now apply nth_error_In with i|]. intros v Hv.
    destruct (Pair i bb Ebb) as (ob & Eob & Ob). assert (ob = o) as -> by congruence.
    pose proof (Max yq (nth_error_In _ _ Eyq)) as Le. rewrite List.Forall_forall in Fo.
    destruct (Fo _ (nth_error_In _ _ Eo)) as (V1 & F1 & _). destruct (Fo _ (nth_error_In _ _ Eyq)) as (V2 & F2 & _).
    apply flt_R_false in Le; auto. destruct Ob as (_ & Ob). destruct Oq as (_ & Oq). apply Rabs_le_inv in Ob, Oq. specialize (Rg v Hv).
    pose proof (Hap v (box_point d v Hv)) as T1. pose proof (Hap q (box_point d q Bq)) as T2. apply Rabs_le_inv in T1, T2. lra.
  Qed.
End Runs.

(** ** The first iteration of a call with the default inner optimizer (without NLOpt and libcmaes) *)
(** The weight of iteration 0 is not a number (C41), so the grid search finds no value to return: what it
    returns is uninitialised memory, or it has passed uninitialised memory to the acquisition function. *)
Theorem C82_grid_first_refuted : forall fpow flog delta d f grid,
  (forall y, flt f0 y = true -> fpow f0 y = f0) -> flog f0 = fninf -> flt f0 (fmul delta (fofZ 3)) = true -> (Z.of_nat d <= 2 ^ 53)%Z ->
  (forall v, exists mu sigma_sq, ucb_of (gp_ucb_beta_F fpow flog delta (Z.of_nat d) 0) mu sigma_sq (f v)) ->
  forall x, grid_search f grid d <> GVec x.
Proof.
  intros fpow flog delta d f grid Hp Hl Hd Hdim Hf x Hx. destruct (C15_grid_search_best f grid d x Hx) as (_ & H & _).
  destruct (C41_nan_refuted fpow flog delta (Z.of_nat d) Hp Hl Hd ltac:(lia)) as (B & _). destruct (Hf x) as (mu & sg & Hu). rewrite B in Hu.
  assert (E : f x = fnan). { destruct Hu as [->| ->]; unfold fnan; [|destruct mu, (fsqrt sg); reflexivity]. unfold fmul, fadd. cbn. destruct mu as [[|]|[|]| |[|] mm ee]; reflexivity. }
  rewrite E in H. discriminate.
Qed.

(** ** Concrete instances *)
(** the nearest doubles to the power and to the logarithm; at 0 what the C standard requires (annex F) *)
Definition best_powF (x y : F) : F := if feq x f0 then f0 else of_R (rnd (Rpower (fval x) (fval y))).
Definition best_logF (x : F) : F := if feq x f0 then fninf else of_R (rnd (ln (fval x))).
Definition tenth : F := fdiv f1 (fofZ 10).
Lemma tenth_val : fvalid tenth /\ ffin tenth /\ 99 / 1000 <= fval tenth <= 101 / 1000.
Proof. split; [reflexivity|]. split; [reflexivity|]. cbv -[IZR F2R bpow Rdiv Rle]. unfold F2R. simpl. lra. Qed.
Lemma nonzero x : fvalid x -> ffin x -> 0 < fval x -> feq x f0 = false.
Proof.
  intros V Fx P. destruct x as [s|s| |s m e]; try discriminate; [|destruct s; reflexivity].
  exfalso. destruct s; cbn in P; lra.
Qed.
Example C82_libm_example : libm_pow best_powF /\ libm_log (fun x y => y = best_logF x) (/ 2 ^ 50) /\
  (forall y, flt f0 y = true -> best_powF f0 y = f0) /\ best_logF f0 = fninf.
Proof.
  split; [|split; [|split; [reflexivity|reflexivity]]].
  - intros x y V Fx _ _ P B. unfold best_powF. rewrite nonzero by (auto; lra). set (v := Rpower (fval x) (fval y)) in *. assert (Pv : 0 < v) by apply exp_pos.
    destruct (of_R_val (rnd v)) as (A1 & A2).
    + apply generic_format_round; typeclasses eauto.
    + apply Rle_lt_trans with (bp 1000); [apply rnd_abs; [lia|]|apply bpow_lt; lia]. rewrite Rabs_pos_eq by lra.
      replace (bp 1000) with (2 ^ 1000); [exact B|]. change 1000%Z with (Z.of_nat (Z.to_nat 1000)). rewrite bpow_powerRZ, <- pow_powerRZ. f_equal.
    + split; [apply fofZe_valid|]. split; auto. rewrite A2. apply Rle_trans with (1 := rnd_error _). rewrite (Rabs_pos_eq v) by lra.
      assert (U : uu <= / 2 ^ 50) by (change uu with (bp (- Z.of_nat 53)); rewrite bp_inv; lra).
      assert (Z : e0 <= / 2 ^ 1074).
      { apply Rle_trans with (bp (- Z.of_nat 1074)); [|rewrite bp_inv; apply Rle_refl]. unfold e0. apply bpow_le. lia. }
      assert (uu * v <= / 2 ^ 50 * v) by (apply Rmult_le_compat_r; lra). lra.
  - intros x y -> V Fx P. unfold best_logF. rewrite nonzero by auto. exact (C71_libm_example x _ eq_refl V Fx P).
Qed.

(** an exact maximiser of the computed GP-UCB over the doubles of the box; in the first iteration any point *)
Definition ex_beta (c : Z) : F := gp_ucb_beta_F best_powF best_logF tenth 2 c.
Definition ex_gucb p (c : Z) (g : bool * fgp) : fpt -> F :=
  let sf2 := hy_sf2 (ex_par p (fst g)) in
  fun v => fadd (muF best_exp sf2 ex_noise p (snd g) v) (fmul (ex_beta c) (fsqrt (sigmaF best_exp sf2 ex_noise p (snd g) v))).
Definition ex_ginner p (g : bool * fgp) (c : Z) : F64.vec := argmax (ex_gucb p c g) [f0; f0] (unit_box 2).

Lemma tenth_range : / 2 ^ 20 <= fval tenth <= 1.
Proof. destruct tenth_val as (_ & _ & T). assert (/ 2 ^ 20 <= 99 / 1000) by (apply Rmult_le_reg_l with (2 ^ 20); [lra|]; rewrite Rinv_r; lra). lra. Qed.
Lemma ex_g_inner p mf : In p [PExp f1; PMatern3 f1; PMatern5 f1; PArd [f1; fofZe 1 (-1)]] -> In mf [MNull; MConst fhalf; MData] ->
  runs_gpucb (W := unit) best_exp 4 2 (ex_par p) ex_m mf 1 best_powF best_logF tenth (fun _ g c => (ex_ginner p g c, tt)) 0.
Proof.
  intros Hp Hmf. destruct f0_ok as (V0 & F0 & E0). destruct tenth_val as (Vt & Ft & _).
  intros w g c xs ys HL Hd. destruct (ex_h_facts p mf Hp Hmf _ _ _ _ HL Hd) as (A1 & A2 & A3 & A4 & P2 & HK). rewrite A1 in A3. cbn [fst].
  assert (Bx : forall v, In v ([f0; f0] :: unit_box 2) -> box 2 v).
  { intros v [<-|Hv]; [|now apply in_unit_box]. split; [reflexivity|]. intros a [<-|[<-|[]]]; rewrite E0; (split; [exact V0|]; split; [exact F0|lra]). }
  split; [apply Bx, argmax_in|]. intros Hc. assert (Lx : (length xs <= 1000)%nat) by apply Hd. assert (Lx' := inj_le _ _ Lx). change (Z.of_nat 1000) with 1000%Z in Lx'.
  assert (Hc2 : (1 <= c <= 1000)%Z) by (split; [apply Hc|apply Z.le_trans with (2 := Lx'), Hc]).
  assert (Hln : (0 < length xs <= 1000)%nat) by (split; [destruct xs; [exfalso; cbn in Hc; lia|cbn; lia]|exact Lx]).
  exists (ex_gucb p c g). set (t := fst g) in *.
  assert (Cu : computes_ucb best_exp 4 2 (hy_sf2 (ex_par p t)) ex_noise p ex_m (ex_beta c) (snd g) (ex_gucb p c g)).
  { intros v Pv. eexists _, _. split; [exact (ex_h_query p mf Hp Hmf _ _ _ _ v HL Hd Pv)|]. left. reflexivity. }
  split; [exact Cu|]. intros v Hv. rewrite Rplus_0_r. apply (argmax_max (ex_gucb p c g) (unit_box 2) [f0; f0]); [|right; now apply in_unit_box].
  intros u Hu. pose proof (box_point 2 u (Bx u Hu)) as Pu.
  destruct (step_facts best_exp 4 2 _ _ _ ex_m mf 1 (1 / 2) 4 7 (ex_h_setting p mf Hp Hmf t) xs (firsts ys) (snd g) HL Hln A3 P2) as (HU & Hm & HGp & _ & _ & Hr & Dm & _).
  destruct (C82_weight best_powF best_logF tenth 2 c (proj1 C82_libm_example) (proj1 (proj2 C82_libm_example)) Vt Ft tenth_range ltac:(lia) ltac:(lia)) as (Vb & Fb & Eb & Wb1 & Wb2).
  change (gp_ucb_beta_F best_powF best_logF tenth (Z.of_nat 2) c) with (ex_beta c) in *. apply Rabs_le_inv in Eb.
  assert (S2 : 1 <= sqrt 2) by (rewrite <- sqrt_1 at 1; apply sqrt_le_1_alt; lra).
  assert (HA : dbl (2 ^ 20) (ex_beta c)). { split; auto. split; auto. apply Rabs_le. lra. }
  destruct (C73_ucb _ _ _ _ _ _ _ _ _ _ _ _ _ HU Hm HGp Hr HA ltac:(lra)) as (B & _ & HC).
  unfold computes_ucb, gp_query in Cu. rewrite A1 in Cu. destruct (Cu u Pu) as (mu & sg & Qu & Uu). destruct (HC u (fg_mean (snd g)) mu sg _ Pu Dm Qu Uu) as (R1 & R2 & _). auto.
Qed.

(** 900 iterations in one call, the hyper-parameters changing after each *)
Example C82_example : forall p mf, In p [PExp f1; PMatern3 f1; PMatern5 f1; PArd [f1; fofZe 1 (-1)]] -> In mf [MNull; MConst fhalf] ->
  let O := objective f1 p (prior mf []) ex_h in let n := Z.to_nat 900 in let Lam := fun t : bool => if t then 1 / 2 else 3 / 4 in
  (forall t, gp_setting best_exp 4 2 (hy_sf2 (ex_par p t)) (hy_noise (ex_par p t)) (hy_p (ex_par p t)) ex_m mf 1 (1 / 2)) /\ fixed mf /\
  libm_pow best_powF /\ libm_log (fun x y => y = best_logF x) (/ 2 ^ 50) /\ fvalid tenth /\ ffin tenth /\ / 2 ^ 20 <= fval tenth <= 1 /\
  (forall t, exists h, norm_le 2 (hy_sf2 (ex_par p t)) (hy_p (ex_par p t)) h (Lam t) /\
     forall v, point 2 v -> Rabs (O v - objective (hy_sf2 (ex_par p t)) (hy_p (ex_par p t)) (prior mf []) h v) <= 0) /\
  runs_hgp (W := unit) best_exp 4 2 (ex_par p) ex_m mf 1 (true, ex_empty) (ex_hcomp p mf) (ex_hadd p mf) (ex_hp p) /\
  runs_gpucb (W := unit) best_exp 4 2 (ex_par p) ex_m mf 1 best_powF best_logF tenth (fun _ g c => (ex_ginner p g c, tt)) 0 /\
  objective_ok 2 (ex_obj2 p mf) (measured 2 1 (/ 2 ^ 50) O) /\ point 2 [fhalf; fhalf] /\
  exists s, ex_hrun p mf (ex_obj2 p mf) (fun _ g c => (ex_ginner p g c, tt)) [max_iterations (Z.of_nat n)] [OpOptimize true (S n)] (new_bo (true, ex_empty) tt) = Some s /\ (length (samples s) <= 1000)%nat /\
     (forall t, Lam t + sqrt (INR (length (samples s)) / nugget (hy_noise (ex_par p t))) * (/ 2 ^ 50 + 0) + 2 / 10 ^ 9 <= gp_weight (fval tenth) 2 1) /\
     (Z.of_nat (2 * 21 ^ 2) + calls (trace s) < iters (trace s))%Z.
Proof.
  intros p mf Hp Hmf O n Lam. assert (Hmf' : In mf [MNull; MConst fhalf; MData]) by (destruct Hmf as [<-|[<-|[]]]; cbn; auto).
  destruct (C81_converges_example p mf Hp Hmf) as (H1 & H2 & _ & H4 & H5 & _ & H7 & H8 & _). destruct tenth_val as (Vt & Ft & _).
  split; [exact H1|]. split; [exact H2|]. split; [apply C82_libm_example|]. split; [apply C82_libm_example|]. split; [exact Vt|]. split; [exact Ft|]. split; [apply tenth_range|].
  split; [exact H4|]. split; [exact H5|]. split; [now apply ex_g_inner|]. split; [exact H7|]. split; [exact H8|].
  destruct (ex_hrun_done p mf (ex_val p mf) (ex_ginner p) n) as (s & Hr & Hi & Hcl & Hl & _).
  { intros x. destruct (ex_val_ok p mf x) as ((_ & Fx & _) & _). destruct (ex_val p mf x); try discriminate; reflexivity. }
  exists s. split; [exact Hr|]. rewrite Hl, Hi. unfold n. split; [lia|]. split; [|change (Z.of_nat (2 * 21 ^ 2)) with 882%Z; rewrite Z2Nat.id; lia].
  assert (En : 99 / 10000 <= fval ex_noise <= 101 / 10000) by (cbv -[IZR F2R bpow Rdiv Rle]; unfold F2R; simpl; lra).
  assert (Nu : 99 / 10000 <= nugget ex_noise <= 102 / 10000) by (unfold nugget; lra).
  intros t. cbn [ex_par hy_noise]. rewrite Rplus_0_r. assert (Sq : sqrt (INR (S (Z.to_nat 900)) / nugget ex_noise) <= 1000).
  { rewrite <- (sqrt_square 1000) by lra. apply sqrt_le_1_alt. replace (INR (S (Z.to_nat 900))) with 901 by (rewrite INR_IZR_INZ; apply IZR_eq; reflexivity).
    apply Rmult_le_reg_r with (nugget ex_noise); [lra|]. unfold Rdiv. rewrite Rmult_assoc, Rinv_l, Rmult_1_r by lra. lra. }
  assert (I50 : 0 < / 2 ^ 50 <= / 10000) by (split; [apply Rinv_0_lt_compat, pow_lt; lra|apply Rinv_le_contravar; lra]).
  assert (sqrt (INR (S (Z.to_nat 900)) / nugget ex_noise) * / 2 ^ 50 <= 1000 * / 10000) by (apply Rmult_le_compat; [apply sqrt_pos|lra|exact Sq|lra]).
  destruct (C82_weight best_powF best_logF tenth 2 1 (proj1 C82_libm_example) (proj1 (proj2 C82_libm_example)) Vt Ft tenth_range ltac:(lia) ltac:(lia)) as (_ & _ & _ & Wb1 & _).
  assert (S2 : 1 <= sqrt 2) by (rewrite <- sqrt_1 at 1; apply sqrt_le_1_alt; lra). unfold Lam. destruct t; lra.
Qed.

(** the size of the loss in dimension 1, for observations up to 3: less than 1/2 after 900 iterations, while the
    weight of iteration 1 allows objectives of norm 5/2, whose values differ by more *)
Lemma exp_pow x n : exp (INR n * x) = exp x ^ n.
Proof. induction n as [|n IH]; [cbn; rewrite Rmult_0_l; apply exp_0|]. rewrite S_INR, Rmult_plus_distr_r, Rmult_1_l, exp_plus, IH. cbn [pow]. ring. Qed.
Example C82_loss_example : 5 / 2 + 2 / 10 ^ 9 <= gp_weight (fval tenth) 1 1 /\ (19 * 45 + 1 < 900)%nat /\
  gp_loss (gp_weight (fval tenth) 1 901 + 2 / 10 ^ 9) f1 ex_noise (PExp f1) (Z.to_nat 901) 1 ex_m 3 1 45 19 0 <= 1 / 2.
Proof.
  destruct tenth_val as (_ & _ & T). pose proof pi_bounds as Pb. assert (E1 : fval f1 = 1) by (cbv -[IZR F2R bpow]; unfold F2R; simpl; lra).
  assert (In1 : 990 / 100 <= / fval tenth <= 1011 / 100) by (split; [apply Rle_trans with (/ (101 / 1000)); [lra|apply Rinv_le_contravar; lra]|apply Rle_trans with (/ (99 / 1000)); [apply Rinv_le_contravar; lra|lra]]).
  assert (Sq : 961 / 100 <= PI ^ 2 <= 1024 / 100) by (split; [replace (961 / 100) with ((31 / 10) ^ 2) by lra|replace (1024 / 100) with ((32 / 10) ^ 2) by lra]; apply pow_incr; lra).
  assert (Fr : forall a, 1 <= a -> a * 31 <= a * PI ^ 2 / (3 * fval tenth) <= a * 346 / 10).
  { intros a Ha. unfold Rdiv. rewrite Rinv_mult. assert (95 <= PI ^ 2 * / fval tenth <= 1036 / 10).
    { split; [apply Rle_trans with (961 / 100 * (990 / 100)); [lra|apply Rmult_le_compat; lra]|apply Rle_trans with (1024 / 100 * (1011 / 100)); [apply Rmult_le_compat; lra|lra]]. }
    assert (a * 95 <= a * (PI ^ 2 * / fval tenth) <= a * (1036 / 10)) by (split; apply Rmult_le_compat_l; lra). lra. }
  split; [|split; [lia|]].
  - unfold gp_weight. rewrite <- (sqrt_square (5 / 2 + 2 / 10 ^ 9)) by lra. apply sqrt_le_1_alt.
    replace (Rpower 1 (INR 1 / 2 + 2)) with 1 by (unfold Rpower; rewrite ln_1, Rmult_0_r, exp_0; reflexivity).
    assert (Ln : 313 / 100 <= ln (1 * PI ^ 2 / (3 * fval tenth))).
    { rewrite <- (ln_exp (313 / 100)). assert (A : exp (313 / 100) < 1 * PI ^ 2 / (3 * fval tenth)); [|left; apply ln_increasing; [apply exp_pos|exact A]].
      apply Rlt_le_trans with 31; [|specialize (Fr 1 ltac:(lra)); lra]. apply Rle_lt_trans with (exp (101 / 32)); [destruct (Req_dec (313 / 100) (101 / 32)); left; apply exp_increasing; lra|].
      replace (101 / 32) with (- (INR 101 * - / 32)) by (replace (INR 101) with 101 by (rewrite INR_IZR_INZ; reflexivity); lra). rewrite exp_Ropp, exp_pow.
      assert (Dn : 31 / 32 <= exp (- / 32)) by (apply Rle_trans with (2 := exp_ineq1_le (- / 32)); lra).
      apply Rle_lt_trans with (/ (31 / 32) ^ 101); [apply Rinv_le_contravar; [apply pow_lt; lra|apply pow_incr; lra]|]. rewrite <- (Rinv_inv 31). apply Rinv_lt_contravar; [apply Rmult_lt_0_compat; [lra|apply pow_lt; lra]|lra]. }
    lra.
  - assert (Wt : 0 <= gp_weight (fval tenth) 1 901 <= 649 / 100).
    { split; [apply sqrt_pos|]. unfold gp_weight. rewrite <- (sqrt_square (649 / 100)) by lra. apply sqrt_le_1_alt.
      assert (Rp : 1 <= Rpower 901 (INR 1 / 2 + 2) <= 31 * 811801).
      { replace (INR 1 / 2 + 2) with (/ 2 + INR 2) by (cbn; lra). rewrite Rpower_plus, Rpower_sqrt, Rpower_pow by lra.
        assert (1 <= sqrt 901 <= 31) by (split; [rewrite <- sqrt_1|rewrite <- (sqrt_square 31) by lra]; apply sqrt_le_1_alt; lra). replace (901 ^ 2) with 811801 by lra. lra. }
      assert (Ln : ln (Rpower 901 (INR 1 / 2 + 2) * PI ^ 2 / (3 * fval tenth)) <= 21).
      { destruct (Fr _ (proj1 Rp)) as (Fr1 & Fr2). set (a := Rpower 901 (INR 1 / 2 + 2)) in *. rewrite <- (ln_exp 21). left. apply ln_increasing; [lra|].
        apply Rle_lt_trans with (1 := Fr2). apply Rle_lt_trans with (31 * 811801 * 346 / 10); [lra|].
        replace 21 with (INR 672 * / 32) by (rewrite INR_IZR_INZ; change (Z.of_nat 672) with 672%Z; lra). rewrite exp_pow.
        assert (Ex : 33 / 32 <= exp (/ 32)) by (pose proof (exp_ineq1_le (/ 32)); lra).
        apply Rlt_le_trans with ((33 / 32) ^ 672); [|apply pow_incr; lra]. replace 672%nat with (21 * 32)%nat by reflexivity. rewrite pow_mult.
        apply Rlt_le_trans with ((1908 / 1000) ^ 32); [lra|apply pow_incr; lra]. }
      lra. }
    unfold gp_loss. set (b := gp_weight (fval tenth) 1 901 + 2 / 10 ^ 9) in *. assert (Hb : 0 <= b <= 65 / 10) by (unfold b; lra). clearbody b. rewrite E1. cbv zeta.
    assert (En : 99 / 10000 <= fval ex_noise <= 101 / 10000) by (cbv -[IZR F2R bpow Rdiv Rle]; unfold F2R; simpl; lra).
    assert (Nu : 99 / 10000 <= nugget ex_noise <= 102 / 10000) by (unfold nugget; lra).
    assert (N6 : INR (Z.to_nat 901) = 901) by (rewrite INR_IZR_INZ; apply IZR_eq; reflexivity).
    assert (Im : INR ex_m = 2000) by (unfold ex_m; rewrite INR_IZR_INZ; apply IZR_eq; reflexivity).
    assert (Ce : 0 <= centre ex_m 3 <= 3 / 10 ^ 12).
    { unfold centre. rewrite Im. assert (I1 : 0 < / 2 ^ 1075 <= / 2 ^ 60) by (split; [apply Rinv_0_lt_compat, pow_lt; lra|apply Rinv_le_contravar; [apply pow_lt; lra|apply Rle_pow; [lra|lia]]]). lra. }
    assert (Q : 901 / nugget ex_noise <= 92000). { apply Rmult_le_reg_r with (nugget ex_noise); [lra|]. unfold Rdiv. rewrite Rmult_assoc, Rinv_l, Rmult_1_r by lra. lra. }
    assert (Q0 : 0 <= 901 / nugget ex_noise) by (apply Rmult_le_pos; [lra|left; apply Rinv_0_lt_compat; lra]).
    assert (Sh : 0 <= shift ex_noise (Z.to_nat 901) ex_m 3 <= 3 / 10 ^ 7).
    { unfold shift. rewrite N6. split; [apply Rmult_le_pos; lra|]. apply Rle_trans with (92000 * (3 / 10 ^ 12)); [apply Rmult_le_compat; lra|lra]. }
    rewrite N6 in *. set (sh := shift _ _ _ _) in *. set (ce := centre _ _) in *.
    assert (S1 : sqrt (901 / nugget ex_noise) <= 304) by (rewrite <- (sqrt_square 304) by lra; apply sqrt_le_1_alt; lra).
    assert (S3 : gap (PExp f1) 1 (/ INR 45) 1 * gap (PExp f1) 1 (/ INR 45) 1 <= 5 / 10000).
    { unfold gap. cbn [slope]. replace (1 * INR 1) with 1 by (cbn; ring). rewrite sqrt_1. replace (INR 45) with 45 by (rewrite INR_IZR_INZ; reflexivity). lra. }
    set (gg := gap (PExp f1) 1 (/ INR 45) 1 * gap (PExp f1) 1 (/ INR 45) 1) in *.
    assert (S2 : sqrt (nugget ex_noise / INR 19 + 1 * gg) <= 33 / 1000).
    { replace (INR 19) with 19 by (rewrite INR_IZR_INZ; reflexivity). rewrite <- (sqrt_square (33 / 1000)) by lra. apply sqrt_le_1_alt. lra. }
    assert (S4 : 3 / 1000 <= sqrt (var_floor f1 ex_noise (Z.to_nat 901))).
    { rewrite <- (sqrt_square (3 / 1000)) by lra. apply sqrt_le_1_alt. unfold var_floor. rewrite N6, E1. apply Rmult_le_reg_r with (nugget ex_noise + 901 * 1); [lra|].
      unfold Rdiv. rewrite (Rmult_assoc (1 * nugget ex_noise)), Rinv_l, Rmult_1_r by lra. lra. }
    assert (S5 : 11 / 10 ^ 7 * b / sqrt (var_floor f1 ex_noise (Z.to_nat 901)) <= 11 / 10 ^ 7 * (65 / 10) * 334).
    { unfold Rdiv at 1. apply Rmult_le_compat; [lra|left; apply Rinv_0_lt_compat; lra|lra|]. apply Rle_trans with (/ (3 / 1000)); [apply Rinv_le_contravar; lra|lra]. }
    assert (S6 : sqrt (901 / nugget ex_noise) * b <= 304 * (65 / 10)) by (apply Rmult_le_compat; [apply sqrt_pos|lra|exact S1|lra]).
    assert (S7 : b * sqrt (nugget ex_noise / INR 19 + 1 * gg) <= 65 / 10 * (33 / 1000)) by (apply Rmult_le_compat; [lra|apply sqrt_pos|lra|exact S2]).
    lra.
Qed.
