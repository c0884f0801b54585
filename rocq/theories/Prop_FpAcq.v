(** C73: UCB and EI in double precision, on the GP of C70. *)
From Coq Require Import ZArith List Bool Lia Permutation Reals Lra Machin.
From Coq Require Import Floats.SpecFloat.
From Flocq Require Import Core.
From Verif Require Import F64 F64R AdamFloat OptFloat FpModel FpErr LinAlgModel LinAlg FpAlg FpChol FpSolve FpGp FpFin Prop_Fp.
From Verif Require Import KernelModel KernelFacts FpKerModel FpKer FpKer2 Prop_FpKer Prop_FpLik FpLikModel FpLik FpAcqModel.
From Verif Require Import AcquiModel Prop_EI FpAcq.
Import ListNotations.
Open Scope R_scope.

(** ** Specification *)
(** what is assumed of std::erfc: finite, with a small absolute error *)
Definition libm_erfc (ferfc : F -> F) (del : R) : Prop :=
  forall erfc, is_erfc erfc -> forall x, fvalid x -> ffin x ->
    fvalid (ferfc x) /\ ffin (ferfc x) /\ Rabs (fval (ferfc x) - erfc (fval x)) <= del.
(** what is assumed of std::pow(x, 2.0) (or of the product the compiler puts in its place): not
    negative, and finite with a small relative error when there is no overflow *)
Definition libm_pow2 (fpow2 : F -> F) : Prop :=
  forall x, fvalid x -> ffin x -> Rabs (fval x) <= 2 ^ 500 ->
    fvalid (fpow2 x) /\ ffin (fpow2 x) /\ 0 <= fval (fpow2 x) /\
    Rabs (fval (fpow2 x) - fval x * fval x) <= / 2 ^ 52 * (fval x * fval x) + / 2 ^ 1074.

(** a GP with the samples [pts 0 .. pts (n-1)] (what [pts n] is does not matter): the kernel values [kf],
    the factor [L] of their matrix, built at once or sample by sample, and the column [x] of [_alpha] for
    the differences [y] between the observations and the mean function *)
Definition gp_of (fexp : F -> F) (mk : nat) (sf2 noise : F) (p : kpar) (n : nat) (pts : nat -> fpt) (m : nat) (L : fmat) (y x : fvec) : Prop :=
  exists kf A, (forall i j, (i < n)%nat -> (j < n)%nat -> computes fexp mk sf2 noise p (pts i) (pts j) (i =? j)%nat (kf i j)) /\
    built m kf n A L /\ alpha_of m n L y x.
(** the doubles [mu(v)] may return (gp.hpp:173-181, 613-616, 626-632); [mv] = the mean function at [v] *)
Definition mean_at (fexp : F -> F) (mk : nat) (sf2 noise : F) (p : kpar) (n : nat) (pts : nat -> fpt) (m : nat) (x : fvec) (mv : F) (v : fpt) (mu : F) : Prop :=
  exists kq, (forall i, (i < n)%nat -> computes fexp mk sf2 noise p (pts i) v false (kq i)) /\ mu_of m n kq x mv mu.
(** the doubles [query(v)] may return (gp.hpp:158-168, 613-632) *)
Definition query_at (fexp : F -> F) (mk : nat) (sf2 noise : F) (p : kpar) (n : nat) (pts : nat -> fpt) (m : nat) (L : fmat) (x : fvec) (mv : F) (v : fpt) (mu sigma_sq : F) : Prop :=
  exists kq kvv, (forall i, (i < n)%nat -> computes fexp mk sf2 noise p (pts i) v false (kq i)) /\
    computes fexp mk sf2 noise p v v false kvv /\ mu_of m n kq x mv mu /\ sigma_of m n L kq kvv sigma_sq.
(** the exact posterior, from the inverse [B] of the exact kernel matrix with noise *)
Definition weight (n : nat) (B : nat -> nat -> R) (y : fvec) (i : nat) : R := rsum n (fun j => B i j * fval (y j)).
Definition post_mean (sf2 : F) (p : kpar) (n : nat) (pts : nat -> fpt) (B : nat -> nat -> R) (y : fvec) (mv : F) (v : fpt) : R :=
  fval mv + rsum n (fun i => exact sf2 p (pts i) v * weight n B y i).
Definition post_var (sf2 : F) (p : kpar) (n : nat) (pts : nat -> fpt) (B : nat -> nat -> R) (v : fpt) : R :=
  exact sf2 p v v - rsum n (fun i => exact sf2 p (pts i) v * rsum n (fun j => B i j * exact sf2 p (pts j) v)).
(** the sum of the magnitudes of the exact weights *)
Definition weights (n : nat) (B : nat -> nat -> R) (y : fvec) : R := rsum n (fun i => Rabs (weight n B y i)).

(** ** One evaluation of EI *)
Lemma sub_ok a b : fvalid a -> ffin a -> fvalid b -> ffin b -> Rabs (fval a - fval b) <= bp 1000 ->
  fvalid (fsub a b) /\ ffin (fsub a b) /\ Rabs (fval (fsub a b) - (fval a - fval b)) <= uu * Rabs (fval a - fval b) + e0.
Proof.
  intros Va Fa Vb Fb B. split; [now apply fsub_valid|].
  destruct (fsub_correct a b) as [F1 F2]; auto.
  - apply Rle_lt_trans with (bp 1000); [apply rnd_abs; [lia|auto]|apply bpow_lt; lia].
  - split; auto. rewrite F2. apply rnd_error.
Qed.
Lemma add_ok a b : fvalid a -> ffin a -> fvalid b -> ffin b -> Rabs (fval a + fval b) <= bp 1000 ->
  fvalid (fadd a b) /\ ffin (fadd a b) /\ Rabs (fval (fadd a b) - (fval a + fval b)) <= uu * Rabs (fval a + fval b) + e0.
Proof.
  intros Va Fa Vb Fb B. split; [now apply fadd_valid|].
  destruct (fadd_correct a b) as [F1 F2]; auto.
  - apply Rle_lt_trans with (bp 1000); [apply rnd_abs; [lia|auto]|apply bpow_lt; lia].
  - split; auto. rewrite F2. apply rnd_error.
Qed.
Lemma fma_ok a b c : fvalid a -> ffin a -> fvalid b -> ffin b -> fvalid c -> ffin c -> Rabs (fval a * fval b + fval c) <= bp 1000 ->
  fvalid (ffma a b c) /\ ffin (ffma a b c) /\ Rabs (fval (ffma a b c) - (fval a * fval b + fval c)) <= uu * Rabs (fval a * fval b + fval c) + e0.
Proof.
  intros Va Fa Vb Fb Vc Fc B. split; [now apply ffma_valid|].
  destruct (ffma_correct a b c) as [F1 F2]; auto.
  - apply Rle_lt_trans with (bp 1000); [apply rnd_abs; [lia|auto]|apply bpow_lt; lia].
  - split; auto. rewrite F2. apply rnd_error.
Qed.
(** [c + a * b] in either way; the result, of magnitude at most [M + N] *)
Lemma mul_add_ok a b c r M N : fvalid a -> ffin a -> fvalid b -> ffin b -> fvalid c -> ffin c ->
  Rabs (fval a * fval b) <= M -> Rabs (fval c) <= N -> M <= bp 900 -> N <= bp 900 -> mul_add a b c r ->
  fvalid r /\ ffin r /\ Rabs (fval r - (fval c + fval a * fval b)) <= 5 / 10 ^ 16 * (M + N) + / 10 ^ 39.
Proof.
  intros Va Fa Vb Fb Vc Fc BM BN M9 N9 H. pose proof (Rabs_pos (fval a * fval b)) as M0. pose proof (Rabs_pos (fval c)) as N0.
  assert (B10 : 4 * bp 900 <= bp 1000). { change 4 with (bp 2). rewrite <- bpow_plus. apply bp_le. lia. }
  assert (P9 : 1 <= bp 900) by (change 1 with (bp 0); apply bp_le; lia).
  destruct H as [->| ->].
  - destruct (mul_ok a b) as (V1 & F1 & E1); auto; [lra|]. apply (step_err _ _ M) in E1; auto. set (ab := fval a * fval b) in *.
    set (p := fval (fmul a b)) in *.
    assert (Bp : Rabs p <= M + (2 / 10 ^ 16 * M + / 10 ^ 40)).
    { replace p with ((p - ab) + ab) by ring. apply Rle_trans with (1 := Rabs_triang _ _). lra. }
    destruct (add_ok c (fmul a b)) as (V2 & F2 & E2); auto.
    { apply Rle_trans with (1 := Rabs_triang _ _). fold p. lra. }
    split; auto. split; auto. fold p in E2.
    apply (step_err _ _ (N + (M + (2 / 10 ^ 16 * M + / 10 ^ 40)))) in E2; [|apply Rle_trans with (1 := Rabs_triang _ _); lra].
    replace (fval (fadd c (fmul a b)) - (fval c + ab)) with ((fval (fadd c (fmul a b)) - (fval c + p)) + (p - ab)) by ring.
    apply Rle_trans with (1 := Rabs_triang _ _). lra.
  - destruct (fma_ok a b c) as (V1 & F1 & E1); auto; [apply Rle_trans with (1 := Rabs_triang _ _); lra|].
    split; auto. split; auto. rewrite (Rplus_comm (fval c)).
    apply (step_err _ _ (M + N)) in E1; [lra|]. apply Rle_trans with (1 := Rabs_triang _ _). lra.
Qed.

Lemma pi16 : 31415926535897932 / 10 ^ 16 <= PI <= 31415926535897933 / 10 ^ 16.
Proof.
  pose proof (PI_2_3_7_ineq 8) as [A B]. change (S (2 * 8))%nat with 17%nat in A. change (2 * 8)%nat with 16%nat in B.
  unfold sum_f_R0, tg_alt, PI_2_3_7_tg, Ratan_seq in A, B. cbn [Nat.mul Nat.add INR pow] in A, B.
  split; lra.
Qed.
(** the computed sqrt(2 pi) *)
Lemma s2pi_dub : dub 4 3 (fsqrt (fmul ftwo fpi)) (sqrt (2 * PI)).
Proof.
  pose proof pi16 as P. pose proof s2pi as S. pose proof uu_pos as U.
  assert (E : fval (fmul ftwo fpi) = 2 * (7074237752028440 / 2251799813685248)) by (cbv -[IZR F2R bpow Rdiv]; unfold F2R; simpl; lra).
  assert (Uv : uu = / 9007199254740992) by (change uu with (bp (- Z.of_nat 53)); rewrite bp_inv; f_equal; ring).
  assert (A : apx 1 (-500 + -500) (3 + 3) (fmul ftwo fpi) (2 * PI)).
  { split; [reflexivity|]. split; [reflexivity|]. split.
    - unfold near. rewrite E, (Rabs_pos_eq (2 * PI)) by lra. pose proof (bp_pos (-500 + -500)).
      apply Rle_trans with (1 * uu * (2 * PI)); [|lra]. rewrite Uv. apply Rabs_le. lra.
    - rewrite Rabs_pos_eq by lra. rewrite bpow_plus. change (bp 3) with 8. lra. }
  destruct (fsqrt_apx 1 (-500) 3 _ _ ltac:(change 1 with (bp 0) at 2; split; [lra|apply bp_le; lia]) A ltac:(lra) ltac:(rewrite E; lra) ltac:(lia)) as ((V & Fi & N & _) & _).
  split; auto. split; auto. split.
  - change (bp 3) with 8. split; [|lra]. apply Rle_trans with (bp 0); [apply bp_le; lia|change (bp 0) with 1; lra].
  - unfold near in *. rewrite (Rabs_pos_eq (sqrt (2 * PI))) in * by lra.
    assert (bp (-500 + 3) <= uu * 1) by (rewrite Rmult_1_r; unfold uu; apply bp_le; lia). nra.
Qed.
Lemma apx_opp a e p x' x : apx a e p x' x -> apx a e p (fopp x') (- x).
Proof.
  intros (V & Fi & N & B). split; [now apply fopp_valid|]. split; [now apply fin_opp|]. unfold near in *. rewrite fopp_val.
  replace (- fval x' - - x) with (- (fval x' - x)) by ring. rewrite !Rabs_Ropp. auto.
Qed.

Lemma exp_pert z P : fvalid P -> ffin P -> 0 <= fval P -> near 10 (bp (-600)) (fval P) (z * z) -> z * z <= bp 626 ->
  forall fexp, libm_exp fexp (/ 2 ^ 52) -> let e := fexp (fmul mhalf P) in
  fvalid e /\ ffin e /\ Rabs (fval e - exp (- (1 / 2) * z ^ 2)) <= 56 * uu.
Proof.
  intros VP FP P0 NP Bz fexp He e. pose proof uu_pos as U.
  assert (Z0 : 0 <= z * z) by nra.
  assert (AP : apx 10 (-600) 626 P (z * z)). { split; auto. split; auto. split; auto. now rewrite Rabs_pos_eq. }
  assert (B42 : 16 <= bp 42) by (rewrite (bp_pow 42 : bp 42 = _); lra).
  assert (B52 : 16 <= bp 52) by (rewrite (bp_pow 52 : bp 52 = _); lra).
  pose proof (apx_mul 0 10 (-1000) (-600) 0 626 (-300) mhalf (- (1 / 2)) P (z * z) ltac:(lra) ltac:(lra) ltac:(lra) mhalf_apx AP
    ltac:(lia) ltac:(lia) ltac:(lia) ltac:(lia) ltac:(lia) ltac:(lia) ltac:(lia)) as (Vm & Fm & Nm & _).
  assert (Am : fval (fmul mhalf P) <= 0).
  { destruct (fmul_correct mhalf P) as [_ ->]; auto; try reflexivity.
    - apply Rle_lt_trans with (bp 700); [|apply bpow_lt; lia]. apply rnd_abs; [lia|].
      replace (fval mhalf) with (- (1 / 2)) by (cbv -[IZR F2R bpow Rdiv]; unfold F2R; simpl; lra).
      rewrite Rabs_mult, Rabs_Ropp, (Rabs_pos_eq (1 / 2)) by lra.
      pose proof (apx_bound 10 (-600) 626 P (z * z) ltac:(lra) ltac:(lia) ltac:(lia) AP) as B. assert (bp (626 + 2) <= bp 700) by (apply bp_le; lia). pose proof (Rabs_pos (fval P)). lra.
    - replace (fval mhalf) with (- (1 / 2)) by (cbv -[IZR F2R bpow Rdiv]; unfold F2R; simpl; lra).
      replace 0 with (rnd 0) by (apply round_0; typeclasses eauto). apply rnd_le. lra. }
  destruct (He _ Vm Fm Am) as (Ve & Fe & Ee). split; auto. split; auto. fold e in Ee.
  set (a := fval (fmul mhalf P)) in *.
  assert (Pt : Rabs (exp (- (- a)) - exp (- (1 / 2 * (z * z)))) <= 4 * (13 * uu) + 2 * bp (-300)).
  { apply (g1_pert (1 / 2 * (z * z)) (- a)); try lra.
    - unfold near in Nm. replace (- a - 1 / 2 * (z * z)) with (- (a - - (1 / 2) * (z * z))) by ring. rewrite Rabs_Ropp.
      apply Rle_trans with (1 := Nm). rewrite Rabs_mult, Rabs_Ropp, (Rabs_pos_eq (1 / 2)), (Rabs_pos_eq (z * z)) by lra. lra.
    - split; [lra|]. pose proof uu16. lra.
    - left. apply bp_pos. }
  rewrite Ropp_involutive in Pt. replace (- (1 / 2 * (z * z))) with (- (1 / 2) * z ^ 2) in Pt by ring.
  assert (Ea : 0 < exp a <= 1). { split; [apply exp_pos|]. replace a with (- (- a)) by ring. apply xexp. lra. }
  assert (U52 : / 2 ^ 52 = 2 * uu) by (change uu with (bp (- Z.of_nat 53)); rewrite bp_inv; lra).
  assert (T1 : / 2 ^ 1074 <= uu / 2). { rewrite <- (bp_inv 1074). change uu with (bp (-54 + 1)). rewrite bpow_plus. change (bp 1) with 2. replace (bp (-54) * 2 / 2) with (bp (-54)) by field. apply bp_le. lia. }
  assert (T2 : 2 * bp (-300) <= uu / 2). { change uu with (bp (-55 + 2)). rewrite bpow_plus. change (bp 2) with 4. assert (bp (-300) <= bp (-55)) by (apply bp_le; lia). lra. }
  replace (fval e - exp (- (1 / 2) * z ^ 2)) with ((fval e - exp a) + (exp a - exp (- (1 / 2) * z ^ 2))) by ring.
  apply Rle_trans with (1 := Rabs_triang _ _). rewrite U52 in Ee. assert (2 * uu * exp a <= 2 * uu * 1) by (apply Rmult_le_compat_l; lra). lra.
Qed.

Lemma ei_line_ok fexp ferfc fpow2 jitter mu fm sigma r :
  libm_exp fexp (/ 2 ^ 52) -> libm_erfc ferfc (/ 2 ^ 50) -> libm_pow2 fpow2 ->
  fvalid mu -> ffin mu -> Rabs (fval mu) <= bp 250 -> fvalid fm -> ffin fm -> Rabs (fval fm) <= bp 250 ->
  fvalid jitter -> ffin jitter -> Rabs (fval jitter) <= bp 250 ->
  fvalid sigma -> ffin sigma -> bp (-10) <= fval sigma <= 2 ->
  ei_line fexp ferfc fpow2 jitter mu fm sigma r ->
  fvalid r /\ ffin r /\
  Rabs (fval r - ei_value erfc0 (fval mu - fval fm - fval jitter) (fval sigma))
  <= 2 / 10 ^ 14 * (1 + Rabs (fval mu) + Rabs (fval fm) + Rabs (fval jitter)).
Proof.
  intros He Hc Hq Vm Fm Bm Vf Ff Bf Vj Fj Bj Vs Fs Bs H. unfold ei_line in H. cbv zeta in H.
  pose proof uu16 as [U1 U2]. pose proof (bp_pos 250) as P250.
  set (T := Rabs (fval mu) + Rabs (fval fm) + Rabs (fval jitter)).
  assert (T3 : T <= bp 252) by (change 252%Z with (250 + 2)%Z; rewrite bpow_plus; change (bp 2) with 4; unfold T; lra).
  assert (T0 : 0 <= T) by (unfold T; pose proof (Rabs_pos (fval mu)); pose proof (Rabs_pos (fval fm)); pose proof (Rabs_pos (fval jitter)); lra).
  assert (B1000 : bp 253 = 2 * bp 252) by (change 253%Z with (252 + 1)%Z; rewrite bpow_plus; change (bp 1) with 2; ring).
  assert (P252 : 1 <= bp 252) by (change 1 with (bp 0); apply bp_le; lia).
  assert (B253 : bp 253 <= bp 1000) by (apply bp_le; lia).
  (* X *)
  assert (A1 : Rabs (fval mu - fval fm) <= Rabs (fval mu) + Rabs (fval fm)).
  { apply Rle_trans with (1 := Rabs_triang _ _). rewrite Rabs_Ropp. lra. }
  destruct (sub_ok mu fm) as (V1 & F1 & E1); auto; [unfold T in *; pose proof (Rabs_pos (fval jitter)); lra|].
  assert (A1' : Rabs (fval mu - fval fm) <= T) by (unfold T; pose proof (Rabs_pos (fval jitter)); lra).
  apply (step_err _ _ T) in E1; auto. set (d := fsub mu fm) in *.
  assert (A2 : Rabs (fval d - fval jitter) <= T + (2 / 10 ^ 16 * T + / 10 ^ 40)).
  { replace (fval d - fval jitter) with ((fval d - (fval mu - fval fm)) + ((fval mu - fval fm) - fval jitter)) by ring.
    apply Rle_trans with (1 := Rabs_triang _ _). assert (Rabs (fval mu - fval fm - fval jitter) <= T); [|lra].
    apply Rle_trans with (1 := Rabs_triang _ _). rewrite Rabs_Ropp. unfold T. lra. }
  assert (A2' : Rabs (fval d - fval jitter) <= bp 253) by lra.
  destruct (sub_ok d jitter) as (V2 & F2 & E2); auto; [lra|].
  apply (step_err _ _ _) with (2 := A2) in E2. set (X := fsub d jitter) in *. set (X0 := fval mu - fval fm - fval jitter).
  assert (EX : Rabs (fval X - X0) <= 5 / 10 ^ 16 * T + / 10 ^ 38).
  { replace (fval X - X0) with ((fval X - (fval d - fval jitter)) + (fval d - (fval mu - fval fm))) by (unfold X0; ring).
    apply Rle_trans with (1 := Rabs_triang _ _). lra. }
  assert (BX : Rabs (fval X) <= 2 * T + / 10 ^ 37).
  { replace (fval X) with ((fval X - (fval d - fval jitter)) + (fval d - fval jitter)) by ring. apply Rle_trans with (1 := Rabs_triang _ _). lra. }
  assert (BX' : Rabs (fval X) <= bp 254). { change 254%Z with (253 + 1)%Z. rewrite bpow_plus. change (bp 1) with 2. lra. }
  (* Z *)
  assert (B42 : 100 <= bp 42) by (rewrite (bp_pow 42 : bp 42 = _); lra).
  assert (AX : apx 0 (-1000) 254 X (fval X)) by (apply apx_exact; auto).
  assert (DS : dub 0 10 sigma (fval sigma)).
  { split; auto. split; auto. split; [rewrite (bp_pow 10 : bp 10 = _); change (- (10))%Z with (-10)%Z; lra|]. unfold near. replace (fval sigma - fval sigma) with 0 by ring. rewrite Rabs_R0. lra. }
  pose proof (apx_div 0 0 (-1000) 254 10 (-980) X (fval X) sigma (fval sigma) ltac:(lra) ltac:(lra) AX DS ltac:(lia) ltac:(lia) ltac:(lia) ltac:(lia) ltac:(lia)) as AZ.
  change (254 + 10)%Z with 264%Z in AZ. replace (0 + 2 * 0 + 3) with 3 in AZ by ring. set (Z := fdiv X sigma) in *. set (z := fval X / fval sigma) in *.
  assert (AZ' := AZ). destruct AZ' as (VZ & FZ & NZ & BZ). unfold near in NZ.
  (* pow *)
  assert (BZ2 : Rabs (fval Z) <= bp 266). { apply (apx_bound 3 (-980) 264 Z z); auto; try lia; lra. }
  assert (Zz : Rabs (fval Z) <= 2 ^ 500). { rewrite <- (bp_pow 500). apply Rle_trans with (1 := BZ2). apply bp_le. lia. }
  destruct (Hq Z VZ FZ Zz) as (VP & FP & P0 & EP). set (P := fpow2 Z) in *.
  assert (U52 : / 2 ^ 52 = 2 * uu) by (change uu with (bp (- Z.of_nat 53)); rewrite bp_inv; lra).
  assert (z2 : z * z = Rabs z * Rabs z) by (rewrite <- Rabs_mult, Rabs_pos_eq; [ring|nra]).
  assert (NP : near 10 (bp (-600)) (fval P) (z * z)).
  { unfold near. rewrite (Rabs_pos_eq (z * z)) by nra. set (v := fval Z) in *. pose proof (Rabs_pos z) as Z0. set (h := bp (-980)) in *.
    assert (h0 : 0 < h) by apply bp_pos.
    assert (D1 : Rabs (v * v - z * z) <= (3 * uu * Rabs z + h) * (3 * Rabs z + h)).
    { replace (v * v - z * z) with ((v - z) * ((v - z) + 2 * z)) by ring. rewrite Rabs_mult. apply Rmult_le_compat; try apply Rabs_pos; auto.
      apply Rle_trans with (1 := Rabs_triang _ _). rewrite (Rabs_mult 2), (Rabs_pos_eq 2) by lra. assert (3 * uu * Rabs z <= 1 * Rabs z) by (apply Rmult_le_compat_r; lra). lra. }
    assert (D1' : Rabs (v * v - z * z) <= (2 + 1 / 1000000) * (3 * uu) * (z * z) + 8 * (h * bp 264)).
    { replace (v * v - z * z) with ((v - z) * ((v - z) + 2 * z)) by ring. rewrite Rabs_mult.
      apply Rle_trans with ((3 * uu * Rabs z + h) * ((2 + 1 / 1000000) * Rabs z + h)).
      - apply Rmult_le_compat; try apply Rabs_pos; auto.
        apply Rle_trans with (1 := Rabs_triang _ _). rewrite (Rabs_mult 2), (Rabs_pos_eq 2) by lra.
        assert (3 * uu * Rabs z <= 1 / 1000000 * Rabs z) by (apply Rmult_le_compat_r; lra). lra.
      - rewrite z2. assert (h * Rabs z <= h * bp 264) by (apply Rmult_le_compat_l; lra).
        assert (H1 : h <= bp 264) by (unfold h; apply bp_le; lia). assert (h * h <= h * bp 264) by (apply Rmult_le_compat_l; lra).
        assert (3 * uu * (h * Rabs z) <= 1 * (h * Rabs z)) by (apply Rmult_le_compat_r; [apply Rmult_le_pos; lra|lra]).
        replace ((3 * uu * Rabs z + h) * ((2 + 1 / 1000000) * Rabs z + h)) with ((2 + 1 / 1000000) * (3 * uu) * (Rabs z * Rabs z) + 3 * uu * (h * Rabs z) + (2 + 1 / 1000000) * (h * Rabs z) + h * h) by ring.
        assert (0 <= h * bp 264) by (apply Rmult_le_pos; lra). lra. }
    assert (D2 : Rabs (v * v - z * z) <= 7 * uu * (z * z) + bp (-713)).
    { apply Rle_trans with (1 := D1'). change 8 with (bp 3). unfold h. rewrite <- !bpow_plus. change (3 + (-980 + 264))%Z with (-713)%Z.
      apply Rplus_le_compat_r. apply Rmult_le_compat_r; [nra|lra]. }
    rewrite U52, <- (bp_inv 1074) in EP.
    assert (vv : v * v <= 9 / 8 * (z * z) + bp (-713)).
    { apply Rabs_le_inv in D2. assert (7 * uu * (z * z) <= 1 / 8 * (z * z)) by (apply Rmult_le_compat_r; [nra|lra]). lra. }
    replace (fval P - z * z) with ((fval P - v * v) + (v * v - z * z)) by ring.
    apply Rle_trans with (1 := Rabs_triang _ _). assert (2 * uu * (v * v) <= 2 * uu * (9 / 8 * (z * z) + bp (-713))) by (apply Rmult_le_compat_l; lra).
    assert (B6 : bp (- Z.of_nat 1074) + 2 * bp (-713) <= bp (-600)).
    { assert (bp (- Z.of_nat 1074) <= bp (-602)) by (apply bp_le; lia). assert (bp (-713) <= bp (-602)) by (apply bp_le; lia).
      change (-600)%Z with (-602 + 2)%Z. rewrite bpow_plus. change (bp 2) with 4. pose proof (bp_pos (-602)). lra. }
    assert (2 * uu * bp (-713) <= 1 * bp (-713)) by (apply Rmult_le_compat_r; [left; apply bp_pos|lra]).
    assert (0 <= uu * (z * z)) by (apply Rmult_le_pos; [lra|nra]). lra. }
  assert (Bzz : z * z <= bp 626).
  { rewrite z2. apply Rle_trans with (bp 264 * bp 264); [apply Rmult_le_compat; try apply Rabs_pos; auto|]. rewrite <- bpow_plus. apply bp_le. lia. }
  destruct (exp_pert z P VP FP P0 NP Bzz fexp He) as (Vx & Fx & Ex). set (x := fexp (fmul mhalf P)) in *.
  pose proof (exp_neg_sq z) as Xz. set (ez := exp (- (1 / 2) * z ^ 2)) in *.
  (* phi *)
  assert (Bx : Rabs (fval x) <= bp 1). { change (bp 1) with 2. replace (fval x) with ((fval x - ez) + ez) by ring. apply Rle_trans with (1 := Rabs_triang _ _). rewrite (Rabs_pos_eq ez) by lra. lra. }
  pose proof (apx_div 0 4 (-1000) 1 3 (-980) x (fval x) _ _ ltac:(lra) ltac:(lra) (apx_exact (-1000) 1 x Vx Fx Bx) s2pi_dub ltac:(lia) ltac:(lia) ltac:(lia) ltac:(lia) ltac:(lia)) as (Vp & Fp & Np & _).
  set (p := fdiv x (fsqrt (fmul ftwo fpi))) in *. pose proof s2pi as S2.
  assert (I2 : 0 < / sqrt (2 * PI) <= / 2) by (split; [apply Rinv_0_lt_compat; lra|apply Rinv_le_contravar; lra]).
  assert (Ep : Rabs (fval p - phi z) <= 45 * uu).
  { unfold near in Np. replace (fval p - phi z) with ((fval p - fval x / sqrt (2 * PI)) + (fval x - ez) * / sqrt (2 * PI)) by (unfold phi; fold ez; field; lra).
    apply Rle_trans with (1 := Rabs_triang _ _).
    assert (Q1 : Rabs ((fval x - ez) * / sqrt (2 * PI)) <= 56 * uu * / 2).
    { rewrite Rabs_mult, (Rabs_pos_eq (/ _)) by lra. apply Rmult_le_compat; try apply Rabs_pos; lra. }
    assert (Q2 : Rabs (fval x / sqrt (2 * PI)) <= 101 / 100 * / 2).
    { unfold Rdiv. rewrite Rabs_mult, (Rabs_pos_eq (/ _)) by lra. apply Rmult_le_compat; try apply Rabs_pos; try lra.
      replace (fval x) with ((fval x - ez) + ez) by ring. apply Rle_trans with (1 := Rabs_triang _ _). rewrite (Rabs_pos_eq ez) by lra. lra. }
    assert (Q3 : (0 + 2 * 4 + 3) * uu * Rabs (fval x / sqrt (2 * PI)) <= 11 * uu * (101 / 100 * / 2)) by (replace (0 + 2 * 4 + 3) with 11 by ring; apply Rmult_le_compat_l; lra).
    assert (Q4 : bp (-980) <= uu) by (unfold uu; apply bp_le; lia). lra. }
  (* Phi *)
  assert (D2 : dub 3 3 (fsqrt ftwo) (sqrt 2)) by (apply (fsqrt_dub 2); lia).
  pose proof (apx_div 3 3 (-980) 264 3 (-900) (fopp Z) (- z) _ _ ltac:(lra) ltac:(lra) (apx_opp _ _ _ _ _ AZ) D2 ltac:(lia) ltac:(lia) ltac:(lia) ltac:(lia) ltac:(lia)) as (Vw & Fw & Nw & _).
  set (w := fdiv (fopp Z) (fsqrt ftwo)) in *. unfold near in Nw. replace (3 + 2 * 3 + 3) with 12 in Nw by ring.
  destruct (Hc erfc0 erfc0_ok w Vw Fw) as (Vc & Fc & Ec). set (cc := ferfc w) in *.
  assert (Ec' : Rabs (fval cc - erfc0 (- z / sqrt 2)) <= 82 * uu).
  { pose proof (erfc_pert (- z / sqrt 2) (fval w) (12 * uu) (bp (-900)) Nw ltac:(lra) ltac:(left; apply bp_pos)) as Q.
    replace (fval cc - erfc0 (- z / sqrt 2)) with ((fval cc - erfc0 (fval w)) + (erfc0 (fval w) - erfc0 (- z / sqrt 2))) by ring.
    apply Rle_trans with (1 := Rabs_triang _ _). assert (/ 2 ^ 50 = 8 * uu) by (change uu with (bp (- Z.of_nat 53)); rewrite bp_inv; lra).
    assert (6 * bp (-900) <= uu). { change uu with (bp (-56 + 3)). rewrite bpow_plus. change (bp 3) with 8. assert (bp (-900) <= bp (-56)) by (apply bp_le; lia). pose proof (bp_pos (-56)). lra. }
    lra. }
  pose proof (erfc0_bounds (- z / sqrt 2)) as C2.
  destruct half_val as (Vh & Fh & Eh).
  assert (Bc : Rabs (1 / 2 * fval cc) <= 101 / 100).
  { apply Rabs_le_inv in Ec'. apply Rabs_le. lra. }
  destruct (mul_ok fhalf cc) as (VQ & FQ & EQ); auto.
  { rewrite Eh. apply Rle_trans with (1 := Bc). apply Rle_trans with (bp 1); [change (bp 1) with 2; lra|apply bp_le; lia]. }
  rewrite Eh in EQ. set (Q := fmul fhalf cc) in *.
  assert (EQ' : Rabs (fval Q - Phi z) <= 43 * uu).
  { replace (fval Q - Phi z) with ((fval Q - 1 / 2 * fval cc) + 1 / 2 * (fval cc - erfc0 (- z / sqrt 2))) by (unfold Phi; ring).
    apply Rle_trans with (1 := Rabs_triang _ _). rewrite (Rabs_mult (1 / 2) (_ - _)), (Rabs_pos_eq (1 / 2)) by lra.
    assert (e0 <= / 2 * uu). { change uu with (bp (-54 + 1)). rewrite bpow_plus. change (bp 1) with 2. assert (e0 <= bp (-54)) by (unfold e0; apply bp_le; lia). lra. }
    assert (uu * Rabs (1 / 2 * fval cc) <= uu * (101 / 100)) by (apply Rmult_le_compat_l; lra). lra. }
  pose proof (Phi_bounds z) as PB. pose proof (phi_bounds z) as pB.
  (* the last expression *)
  assert (BQ : Rabs (fval Q) <= 101 / 100). { apply Rabs_le_inv in EQ'. apply Rabs_le. lra. }
  assert (Bp : Rabs (fval p) <= 51 / 100). { apply Rabs_le_inv in Ep. apply Rabs_le. lra. }
  assert (BXQ : Rabs (fval X * fval Q) <= (2 * T + / 10 ^ 37) * (101 / 100)) by (rewrite Rabs_mult; apply Rmult_le_compat; try apply Rabs_pos; auto).
  assert (S0 : 0 < bp (-10)) by apply bp_pos.
  assert (Bsp : Rabs (fval sigma * fval p) <= 2 * (51 / 100)) by (rewrite Rabs_mult, (Rabs_pos_eq (fval sigma)) by lra; apply Rmult_le_compat; try apply Rabs_pos; lra).
  assert (B900 : bp 253 * 8 <= bp 900). { change 8 with (bp 3). rewrite <- bpow_plus. apply bp_le. lia. }
  assert (P253 : 1 <= bp 253) by (change 1 with (bp 0); apply bp_le; lia).
  assert (B9 : bp 900 <= bp 1000) by (apply bp_le; lia).
  assert (R : fvalid r /\ ffin r /\ Rabs (fval r - (fval X * fval Q + fval sigma * fval p)) <= 12 / 10 ^ 16 * (3 * T + 2) + / 10 ^ 38).
  { destruct (mul_ok X Q) as (V3 & F3 & E3); auto; [lra|]. apply (step_err _ _ _) with (2 := BXQ) in E3.
    destruct (mul_ok sigma p) as (V4 & F4 & E4); auto; [lra|]. apply (step_err _ _ _) with (2 := Bsp) in E4.
    assert (B3 : Rabs (fval (fmul X Q)) <= 3 * T + 1).
    { replace (fval (fmul X Q)) with ((fval (fmul X Q) - fval X * fval Q) + fval X * fval Q) by ring. apply Rle_trans with (1 := Rabs_triang _ _). lra. }
    assert (B4 : Rabs (fval (fmul sigma p)) <= 11 / 10).
    { replace (fval (fmul sigma p)) with ((fval (fmul sigma p) - fval sigma * fval p) + fval sigma * fval p) by ring. apply Rle_trans with (1 := Rabs_triang _ _). lra. }
    assert (G : forall a b c r, fvalid a -> ffin a -> fvalid b -> ffin b -> fvalid c -> ffin c -> mul_add a b c r ->
      forall M N v, Rabs (fval a * fval b) <= M -> Rabs (fval c) <= N -> M + N <= 4 * T + 3 -> 0 <= M -> 0 <= N -> Rabs (fval c - v) <= 2 / 10 ^ 16 * (3 * T + 2) + / 10 ^ 40 ->
      fvalid r /\ ffin r /\ Rabs (fval r - (v + fval a * fval b)) <= 12 / 10 ^ 16 * (3 * T + 2) + / 10 ^ 38).
    { intros a b c r' Va Fa Vb Fb Vc' Fc' Hr M N v BM BN BMN M0 N0 Ev.
      destruct (mul_add_ok a b c r' M N Va Fa Vb Fb Vc' Fc' BM BN ltac:(lra) ltac:(lra) Hr) as (Vr & Fr & Er). split; auto. split; auto.
      replace (fval r' - (v + fval a * fval b)) with ((fval r' - (fval c + fval a * fval b)) + (fval c - v)) by ring.
      apply Rle_trans with (1 := Rabs_triang _ _). lra. }
    destruct H as [->|[->| ->]].
    - rewrite Rplus_comm. destruct (add_ok (fmul X Q) (fmul sigma p)) as (V5 & F5 & E5); auto; [apply Rle_trans with (1 := Rabs_triang _ _); lra|].
      apply (step_err _ _ (3 * T + 1 + 11 / 10)) in E5; [|apply Rle_trans with (1 := Rabs_triang _ _); lra].
      split; auto. split; auto.
      replace (fval (fadd (fmul X Q) (fmul sigma p)) - (fval sigma * fval p + fval X * fval Q))
        with ((fval (fadd (fmul X Q) (fmul sigma p)) - (fval (fmul X Q) + fval (fmul sigma p))) + (fval (fmul X Q) - fval X * fval Q) + (fval (fmul sigma p) - fval sigma * fval p)) by ring.
      apply Rle_trans with (1 := Rabs_triang _ _). pose proof (Rabs_triang (fval (fadd (fmul X Q) (fmul sigma p)) - (fval (fmul X Q) + fval (fmul sigma p))) (fval (fmul X Q) - fval X * fval Q)). lra.
    - rewrite Rplus_comm. apply (G X Q (fmul sigma p) _) with (M := (2 * T + / 10 ^ 37) * (101 / 100)) (N := 11 / 10); auto; [right; reflexivity|lra|lra|lra|lra].
    - apply (G sigma p (fmul X Q) _) with (M := 2 * (51 / 100)) (N := 3 * T + 1); auto; [right; reflexivity|lra|lra|lra|lra]. }
  destruct R as (Vr & Fr & Er). split; auto. split; auto.
  assert (Sp : 0 < fval sigma) by lra.
  assert (E3 : Rabs (fval X * fval Q + fval sigma * fval p - ei_value erfc0 (fval X) (fval sigma)) <= (2 * T + / 10 ^ 37) * (43 * uu) + 2 * (45 * uu)).
  { rewrite ei0_eq. fold z. replace (fval X * fval Q + fval sigma * fval p - (fval X * Phi z + fval sigma * phi z)) with (fval X * (fval Q - Phi z) + fval sigma * (fval p - phi z)) by ring.
    apply Rle_trans with (1 := Rabs_triang _ _). rewrite !Rabs_mult, (Rabs_pos_eq (fval sigma)) by lra.
    apply Rplus_le_compat; apply Rmult_le_compat; try apply Rabs_pos; try lra; auto. }
  pose proof (ei_lipschitz X0 (fval X) (fval sigma) (fval sigma) Sp Sp) as E4. replace (fval sigma - fval sigma) with 0 in E4 by ring. rewrite Rabs_R0 in E4.
  assert (U12 : uu <= 12 / 10 ^ 17) by (change uu with (bp (- Z.of_nat 53)); rewrite bp_inv; lra).
  assert (E5 : (2 * T + / 10 ^ 37) * (43 * uu) <= (2 * T + / 10 ^ 37) * (43 * (12 / 10 ^ 17))) by (apply Rmult_le_compat_l; lra).
  replace (fval r - ei_value erfc0 X0 (fval sigma))
    with ((fval r - (fval X * fval Q + fval sigma * fval p)) + ((fval X * fval Q + fval sigma * fval p - ei_value erfc0 (fval X) (fval sigma)) + (ei_value erfc0 (fval X) (fval sigma) - ei_value erfc0 X0 (fval sigma)))) by ring.
  apply Rle_trans with (1 := Rabs_triang _ _).
  match goal with |- _ + Rabs (?a + ?b) <= _ => pose proof (Rabs_triang a b) end.
  replace (1 + Rabs (fval mu) + Rabs (fval fm) + Rabs (fval jitter)) with (1 + T) by (unfold T; ring). lra.
Qed.

(** ** Predictions *)
Lemma weights_bound fexp mk d sf2 noise p n pts B y : usual fexp mk d sf2 noise p n pts ->
  is_inv n (noisy (K_of sf2 p pts) (nugget noise)) B -> (forall i, (i < n)%nat -> dbl (2 ^ 200) (y i)) -> 0 <= weights n B y <= bp 217.
Proof.
  intros (He & Hmk & Hd & Hn & Hs & Hs1 & Hp & Hpts & Vn & Fn & Bn) Bi Hy. split; [apply rsum_nonneg; intros; apply Rabs_pos|].
  set (K := K_of sf2 p pts) in *. set (ng := nugget noise) in *. assert (Ng : 99 / 10000 <= ng) by (unfold ng, nugget; lra).
  assert (Pp : psd n K) by (apply exact_psd with d; auto; intros i Hi; apply Hpts; lia).
  pose proof (le1000 n ltac:(lia)) as N1. pose proof (pos_INR n) as N0. assert (Y0 : 0 < 2 ^ 200) by (apply pow_lt; lra).
  pose proof (forward n (noisy K ng) ng (fun _ => 0) (weight n B y) (2 ^ 200) ltac:(lra) (noisy_eig n K ng Pp) ltac:(lra)) as Q.
  assert (Q' : rsum n (fun i => Rabs (0 - weight n B y i)) <= INR n * 2 ^ 200 / ng).
  { apply Q. intros i Hi. change (weight n B y) with (mvec n B (fun j => fval (y j))). rewrite (inv_mvec n _ B _ Bi i Hi).
    replace (mvec n (noisy K ng) (fun _ => 0) i) with 0 by (unfold mvec; symmetry; apply rsum_0; intros; ring). rewrite Rminus_0_r. apply Hy. exact Hi. }
  unfold weights. rewrite (rsum_ext n _ (fun i => Rabs (0 - weight n B y i))) by (intros; unfold Rminus; now rewrite Rplus_0_l, Rabs_Ropp).
  apply Rle_trans with (1 := Q'). rewrite (bp_pow 217 : bp 217 = _). replace 217%nat with (17 + 200)%nat by reflexivity. rewrite pow_add.
  set (t := 2 ^ 200) in *. clearbody t.
  assert (I : 0 < / ng <= 10000 / 99).
  { split; [apply Rinv_0_lt_compat; lra|]. replace (10000 / 99) with (/ (99 / 10000)) by field. apply Rinv_le_contravar; lra. }
  apply Rle_trans with (1000 * t * (10000 / 99)); [|lra].
  unfold Rdiv at 1. apply Rmult_le_compat; try lra; [apply Rmult_le_pos; lra|]. apply Rmult_le_compat_r; lra.
Qed.

Section Predictions.
  Variables (fexp : F -> F) (mk d : nat) (sf2 noise : F) (p : kpar) (n : nat) (pts : nat -> fpt) (m : nat) (L : fmat) (y x : fvec) (B : nat -> nat -> R).
  Hypothesis HU : usual fexp mk d sf2 noise p n pts.
  Hypothesis Hm : INR m <= 3000.
  Hypothesis HG : gp_of fexp mk sf2 noise p n pts m L y x.
  Hypothesis Hy : forall i, (i < n)%nat -> dbl (2 ^ 200) (y i).
  Hypothesis HB : is_inv n (noisy (K_of sf2 p pts) (nugget noise)) B.

  Lemma values_at kf v kq kvv :
    (forall i j, (i < n)%nat -> (j < n)%nat -> computes fexp mk sf2 noise p (pts i) (pts j) (i =? j)%nat (kf i j)) ->
    (forall i, (i < n)%nat -> computes fexp mk sf2 noise p (pts i) v false (kq i)) -> computes fexp mk sf2 noise p v v false kvv ->
    kernel_values fexp mk sf2 noise p n (at_ pts n v) kf kq kvv.
  Proof.
    intros H1 H2 H3. split; [|split].
    - intros i j Hi Hj. rewrite !at_lt by auto. auto.
    - intros i Hi. rewrite at_lt, at_n by auto. auto.
    - now rewrite at_n.
  Qed.
  Lemma inv_at v C : is_inv n (noisy (K_of sf2 p (at_ pts n v)) (nugget noise)) C -> meq n n C B.
  Proof. intros H. apply (inv_unique n _ C B (is_inv_ext n _ _ C (noisy_at sf2 p pts n v (nugget noise)) H) HB). Qed.
  Lemma mean_as v C mv : is_inv n (noisy (K_of sf2 p (at_ pts n v)) (nugget noise)) C ->
    fval mv + rsum n (fun i => K_of sf2 p (at_ pts n v) i n * rsum n (fun j => C i j * fval (y j))) = post_mean sf2 p n pts B y mv v
    /\ rsum n (fun i => Rabs (rsum n (fun j => C i j * fval (y j)))) = weights n B y.
  Proof.
    intros H. pose proof (inv_at v C H) as M.
    assert (W : forall i, (i < n)%nat -> rsum n (fun j => C i j * fval (y j)) = weight n B y i) by (intros i Hi; apply rsum_ext; intros j Hj; now rewrite M).
    split.
    - unfold post_mean. f_equal. apply rsum_ext. intros i Hi. rewrite W by auto. unfold K_of. now rewrite at_lt, at_n.
    - apply rsum_ext. intros i Hi. now rewrite W.
  Qed.

  (** the value of the kernel at a sample and itself can be computed *)
  Lemma self_value kf i : (forall i j, (i < n)%nat -> (j < n)%nat -> computes fexp mk sf2 noise p (pts i) (pts j) (i =? j)%nat (kf i j)) -> (i < n)%nat ->
    exists kvv, computes fexp mk sf2 noise p (pts i) (pts i) false kvv.
  Proof.
    intros H Hi. destruct (H i i Hi Hi) as (k & Hk & _). exists (fadd (fmul (fst k) (snd k)) f0), k. split; [exact Hk|]. left. reflexivity.
  Qed.

  Definition merr (mv : F) : R := 6 / 1000000 * weights n B y + 1 / 10 ^ 12 * (1 + Rabs (fval mv)).
  Lemma mean_at_ok v kvv mv mu : point d v -> computes fexp mk sf2 noise p v v false kvv -> dbl (2 ^ 200) mv -> mean_at fexp mk sf2 noise p n pts m x mv v mu ->
    fvalid mu /\ ffin mu /\ Rabs (fval mu - post_mean sf2 p n pts B y mv v) <= merr mv.
  Proof.
    intros Hv Hk Hmv (kq & Hq & Hmu). destruct HG as (kf & A & H1 & H2 & H3).
    pose proof (values_at kf v kq kvv H1 Hq Hk) as KV. pose proof (usual_at _ _ _ _ _ _ _ _ v HU Hv) as HU'.
    destruct (C70_mean _ _ _ _ _ _ _ _ _ _ _ m A L y x mv mu HU' KV Hm H2 Hy Hmv H3 Hmu) as (_ & Fm & C & HC & E). cbv zeta beta in E.
    destruct (mean_as v C mv HC) as (E1 & E2). rewrite E1, E2 in E. split; [|split; auto].
    destruct (alpha_usual _ _ _ _ _ _ _ _ _ _ _ m A L y x C HU' KV Hm H2 Hy H3 HC) as (Vx & _).
    destruct (usual_values _ _ _ _ _ _ _ _ _ _ _ HU' KV) as (_ & _ & _ & Vq & _).
    apply (dot_valid m false mv 0 n kq x mu (proj1 Hmv)); auto. intros i Hi. split; [apply Vq; lia|apply Vx; lia].
  Qed.
  Lemma query_at_ok v mv mu sg : point d v -> dbl (2 ^ 200) mv -> query_at fexp mk sf2 noise p n pts m L x mv v mu sg ->
    fvalid mu /\ ffin mu /\ Rabs (fval mu - post_mean sf2 p n pts B y mv v) <= merr mv /\
    fvalid sg /\ ffin sg /\ 0 <= fval sg /\ Rabs (fval sg - post_var sf2 p n pts B v) <= 1 / 1000000.
  Proof.
    intros Hv Hmv (kq & kvv & Hq & Hk & Hmu & Hs).
    destruct (mean_at_ok v kvv mv mu Hv Hk Hmv) as (V1 & F1 & E1); [exists kq; auto|]. split; auto. split; auto. split; auto.
    destruct HG as (kf & A & H1 & H2 & H3).
    pose proof (values_at kf v kq kvv H1 Hq Hk) as KV. pose proof (usual_at _ _ _ _ _ _ _ _ v HU Hv) as HU'.
    destruct (C70_variance _ _ _ _ _ _ _ _ _ _ _ m A L sg HU' KV Hm H2 Hs) as (C & HC & Fs & P & _ & E). cbv zeta beta in E.
    pose proof (C70_factor _ _ _ _ _ _ _ _ _ _ _ m HU' KV Hm) as (_ & _ & HF). destruct (HF A L H2) as (FL & _).
    destruct (usual_values _ _ _ _ _ _ _ _ _ _ _ HU' KV) as (_ & _ & _ & Vq & Vk & _).
    split.
    { destruct Hs as (z & res & Hz & Hr & ->). destruct (fle res feps); [reflexivity|].
      apply (dot_valid m true kvv 0 n z z res (proj1 Vk)); auto. intros i Hi.
      assert (fvalid (z i)); [|auto]. apply (fsolve_valid m n L kq z); auto; [intros j Hj; now apply Vq|intros i' j Hij; now apply FL|lia]. }
    split; auto. split; auto.
    replace (post_var sf2 p n pts B v) with (K_of sf2 p (at_ pts n v) n n - rsum n (fun i => K_of sf2 p (at_ pts n v) i n * rsum n (fun j => C i j * K_of sf2 p (at_ pts n v) j n))); auto.
    unfold post_var, K_of. rewrite at_n. f_equal. apply rsum_ext. intros i Hi. rewrite at_lt by auto. f_equal. apply rsum_ext. intros j Hj. rewrite at_lt by auto.
    now rewrite (inv_at v C HC).
  Qed.
  (** the exact variance: bounds *)
  Lemma post_var_bounds v : point d v ->
    fval sf2 * nugget noise <= post_var sf2 p n pts B v * (nugget noise + INR n * fval sf2) /\ post_var sf2 p n pts B v <= fval sf2.
  Proof.
    intros Hv. destruct HU as (He & Hmk & Hd & Hn & Hs & Hs1 & Hp & Hpts & Vn & Fn & Bn). pose proof (param_pos sf2 Hs) as Sp.
    assert (Ng : 0 < nugget noise) by (unfold nugget; lra).
    set (K := K_of sf2 p (at_ pts n v)). assert (Kn : K n n = fval sf2) by (unfold K, K_of; rewrite at_n; now apply exact_diag with d).
    assert (Pt : forall i, (i <= n)%nat -> point d (at_ pts n v i)) by (intros i Hi; unfold at_; destruct (i <? n)%nat; auto).
    assert (Bi : is_inv n (noisy K (nugget noise)) B).
    { apply is_inv_ext with (2 := HB). intros i j Hi Hj. symmetry. now apply noisy_at. }
    assert (Pp : psd (S n) K) by (apply exact_psd with d; auto; intros i Hi; apply Pt; lia).
    assert (E : post_var sf2 p n pts B v = K n n - rsum n (fun i => K i n * rsum n (fun j => B i j * K j n))).
    { unfold K, post_var, K_of. rewrite at_n. f_equal. apply rsum_ext. intros i Hi. rewrite at_lt by auto. f_equal. apply rsum_ext. intros j Hj. now rewrite at_lt. }
    split.
    - rewrite E, <- Kn at 1. rewrite <- Kn. apply variance_floor; auto; try lra.
      + intros i j Hi Hj. apply exact_sym with d; apply Pt; lia.
      + intros i Hi. rewrite Kn. pose proof (exact_bounds d sf2 p _ _ Hs Hp (Pt i ltac:(lia)) (Pt n (le_n _))) as EB. rewrite Rabs_pos_eq; apply EB.
    - rewrite E, Kn.
      assert (0 <= rsum n (fun i => K i n * rsum n (fun j => B i j * K j n))); [|lra].
      set (w := mvec n B (fun j => K j n)). change (rsum n (fun i => K i n * rsum n (fun j => B i j * K j n))) with (rsum n (fun i => K i n * w i)).
      assert (Q : quad n (noisy K (nugget noise)) w = rsum n (fun i => K i n * w i)).
      { rewrite quad_mvec. apply rsum_ext. intros i Hi. unfold w. rewrite (inv_mvec n _ B _ Bi i Hi). ring. }
      rewrite <- Q. apply Rle_trans with (2 := noisy_eig n K _ (psd_minor n K Pp) w). apply Rmult_le_pos; [lra|apply ssq_nonneg].
  Qed.
  Lemma post_var_pos v : point d v -> 0 < post_var sf2 p n pts B v.
  Proof.
    intros Hv. destruct (post_var_bounds v Hv) as (A & _). destruct HU as (_ & _ & _ & _ & Hs & _ & _ & _ & _ & _ & Bn). pose proof (param_pos sf2 Hs) as Sp.
    pose proof (pos_INR n) as N0. assert (0 < nugget noise) by (unfold nugget; lra).
    assert (P : 0 < fval sf2 * nugget noise) by (apply Rmult_lt_0_compat; lra).
    assert (0 <= INR n * fval sf2) by (apply Rmult_le_pos; lra).
    apply Rnot_le_lt. intros Q. assert (post_var sf2 p n pts B v * (nugget noise + INR n * fval sf2) <= 0); [|lra].
    assert (0 <= - post_var sf2 p n pts B v * (nugget noise + INR n * fval sf2)) by (apply Rmult_le_pos; lra). lra.
  Qed.
  Lemma post_mean_bound v mv : point d v -> Rabs (post_mean sf2 p n pts B y mv v) <= Rabs (fval mv) + weights n B y.
  Proof.
    intros Hv. destruct HU as (He & Hmk & Hd & Hn & Hs & Hs1 & Hp & Hpts & _). unfold post_mean. apply Rle_trans with (1 := Rabs_triang _ _). apply Rplus_le_compat_l.
    apply Rle_trans with (1 := rsum_abs _ _). apply rsum_le. intros i Hi. rewrite Rabs_mult.
    pose proof (exact_bounds d sf2 p _ _ Hs Hp (Hpts i ltac:(lia)) Hv) as EB. rewrite (Rabs_pos_eq (exact _ _ _ _)) by apply EB.
    rewrite <- (Rmult_1_l (Rabs (weight n B y i))) at 2. apply Rmult_le_compat_r; [apply Rabs_pos|lra].
  Qed.
End Predictions.

(** ** The square root of the variance *)
Lemma uu16 : 0 < uu <= 12 / 10 ^ 17.
Proof. split; [apply uu_pos|]. unfold uu. change (-53)%Z with (Z.opp 53). rewrite bpow_opp. replace (bpow radix2 53) with 9007199254740992 by (simpl; lra). lra. Qed.
Lemma e016 : 0 < e0 <= 1 / 10 ^ 17.
Proof. split; [apply e0_pos|]. pose proof uu16. assert (e0 <= bp (-60)) by (unfold e0; apply bp_le; lia). replace (bp (-60)) with (bp (-53) * bp (-7)) in H0 by (rewrite <- bpow_plus; reflexivity).
  change (bp (-53)) with uu in H0. replace (bp (-7)) with (/ 128) in H0 by (change (-7)%Z with (Z.opp 7); rewrite bpow_opp; simpl; lra). lra. Qed.
Lemma sqrt_diff a b : 0 <= a -> 0 < b -> Rabs (sqrt a - sqrt b) <= Rabs (a - b) / sqrt b.
Proof.
  intros Ha Hb. pose proof (sqrt_lt_R0 b Hb) as Sb. pose proof (sqrt_pos a) as Sa.
  apply Rmult_le_reg_r with (sqrt b); auto. unfold Rdiv. rewrite Rmult_assoc, Rinv_l, Rmult_1_r by lra.
  replace (a - b) with ((sqrt a - sqrt b) * (sqrt a + sqrt b)) by (ring_simplify; rewrite !pow2_sqrt by lra; ring).
  rewrite Rabs_mult. apply Rmult_le_compat_l; [apply Rabs_pos|]. rewrite Rabs_pos_eq by lra. lra.
Qed.
Lemma sd_ok sg V : fvalid sg -> ffin sg -> 0 <= fval sg -> 0 < V <= 1 -> Rabs (fval sg - V) <= 1 / 1000000 ->
  fvalid (fsqrt sg) /\ ffin (fsqrt sg) /\ 0 <= fval (fsqrt sg) <= 2 /\ 0 < sqrt V <= 1 /\ Rabs (fval (fsqrt sg) - sqrt V) <= 1 / 1000000 / sqrt V + 4 / 10 ^ 16.
Proof.
  intros Vs Fs P HV E. destruct (fsqrt_correct sg Vs Fs P) as (F1 & F2). pose proof uu16 as U. pose proof e016 as U0.
  split; [now apply fsqrt_valid|]. split; auto.
  assert (S1 : 0 <= sqrt (fval sg) <= 15 / 10).
  { split; [apply sqrt_pos|]. replace (15 / 10) with (sqrt (15 / 10 * (15 / 10))) by (apply sqrt_square; lra). apply sqrt_le_1_alt. apply Rabs_le_inv in E; lra. }
  pose proof (rnd_error (sqrt (fval sg))) as Er. rewrite (Rabs_pos_eq (sqrt (fval sg))) in Er by lra. rewrite <- F2 in Er.
  assert (Er' : Rabs (fval (fsqrt sg) - sqrt (fval sg)) <= 3 / 10 ^ 16).
  { apply Rle_trans with (1 := Er). apply Rle_trans with (12 / 10 ^ 17 * (15 / 10) + 1 / 10 ^ 17); [|lra]. apply Rplus_le_compat; [|lra]. apply Rmult_le_compat; lra. }
  pose proof (sqrt_diff (fval sg) V P (proj1 HV)) as D.
  assert (SV : 0 < sqrt V <= 1) by (split; [apply sqrt_lt_R0; lra|rewrite <- sqrt_1; apply sqrt_le_1_alt; lra]).
  split; [|split; auto].
  - split; [rewrite F2; apply rnd_nonneg, sqrt_pos|]. apply Rabs_le_inv in Er'. lra.
  - assert (D' : Rabs (fval sg - V) / sqrt V <= 1 / 1000000 / sqrt V) by (apply Rmult_le_compat_r; [left; apply Rinv_0_lt_compat; lra|lra]).
    replace (fval (fsqrt sg) - sqrt V) with ((fval (fsqrt sg) - sqrt (fval sg)) + (sqrt (fval sg) - sqrt V)) by ring.
    apply Rle_trans with (1 := Rabs_triang _ _). lra.
Qed.

Lemma inv_exists fexp mk d sf2 noise p n pts : usual fexp mk d sf2 noise p n pts -> exists B, is_inv n (noisy (K_of sf2 p pts) (nugget noise)) B.
Proof.
  intros (He & Hmk & Hd & Hn & Hs & Hs1 & Hp & Hpts & Vn & Fn & Bn). apply eig_inv with (nugget noise); [unfold nugget; lra| |].
  - apply noisy_symm. intros i j Hi Hj. apply exact_sym with d; apply Hpts; lia.
  - apply noisy_eig. apply exact_psd with d; auto. intros i Hi. apply Hpts; lia.
Qed.

(** the exact posterior variance stays away from 0 (so its square root, and a division by it, can be
    computed accurately), and does not exceed the signal variance *)
Theorem C73_variance_floor : forall fexp mk d sf2 noise p n pts, usual fexp mk d sf2 noise p n pts ->
  exists B, is_inv n (noisy (K_of sf2 p pts) (nugget noise)) B /\
  forall v, point d v ->
    fval sf2 * nugget noise / (nugget noise + INR n * fval sf2) <= post_var sf2 p n pts B v <= fval sf2.
Proof.
  intros fexp mk d sf2 noise p n pts HU. destruct (inv_exists _ _ _ _ _ _ _ _ HU) as (B & HB). exists B. split; auto. intros v Hv.
  destruct (post_var_bounds fexp mk d sf2 noise p n pts B HU HB v Hv) as (A1 & A2). split; auto.
  destruct HU as (_ & _ & _ & _ & Hs & _ & _ & _ & _ & _ & Bn). pose proof (param_pos sf2 Hs) as Sp. pose proof (pos_INR n) as N0.
  assert (0 < nugget noise) by (unfold nugget; lra). assert (0 <= INR n * fval sf2) by (apply Rmult_le_pos; lra).
  apply Rmult_le_reg_r with (nugget noise + INR n * fval sf2); [lra|]. unfold Rdiv. rewrite Rmult_assoc, Rinv_l, Rmult_1_r by lra. exact A1.
Qed.

(** the error bound of UCB at one point *)
Definition ucb_bound (alpha mv : F) (W V : R) : R :=
  7 / 10 ^ 6 * W + 2 / 10 ^ 12 * (1 + Rabs (fval mv)) + 11 / 10 ^ 7 * fval alpha / sqrt V.

Theorem C73_ucb : forall fexp mk d sf2 noise p n pts m L y x alpha,
  usual fexp mk d sf2 noise p n pts -> INR m <= 3000 -> gp_of fexp mk sf2 noise p n pts m L y x ->
  (forall i, (i < n)%nat -> dbl (2 ^ 200) (y i)) -> dbl (2 ^ 20) alpha -> 0 <= fval alpha ->
  exists B, is_inv n (noisy (K_of sf2 p pts) (nugget noise)) B /\
  forall v mv mu sigma_sq u, point d v -> dbl (2 ^ 200) mv ->
    query_at fexp mk sf2 noise p n pts m L x mv v mu sigma_sq -> ucb_of alpha mu sigma_sq u ->
    let V := post_var sf2 p n pts B v in
    fvalid u /\ ffin u /\ 0 < V /\
    Rabs (fval u - (post_mean sf2 p n pts B y mv v + fval alpha * sqrt V)) <= ucb_bound alpha mv (weights n B y) V.
Proof.
  intros fexp mk d sf2 noise p n pts m L y x alpha HU Hm HG Hy (Va & Fa & Ba) Pa.
  destruct (inv_exists _ _ _ _ _ _ _ _ HU) as (B & HB). exists B. split; auto.
  intros v mv mu sg u Hv Hmv HQ Hu V.
  destruct (query_at_ok _ _ _ _ _ _ _ _ _ _ _ _ B HU Hm HG Hy HB v mv mu sg Hv Hmv HQ) as (V1 & F1 & E1 & V2 & F2 & P2 & E2). fold V in E2.
  pose proof (post_var_pos _ _ _ _ _ _ _ _ B HU HB v Hv) as PV. pose proof (proj2 (post_var_bounds _ _ _ _ _ _ _ _ B HU HB v Hv)) as PV1. fold V in PV, PV1.
  pose proof (post_mean_bound _ _ _ _ _ _ _ _ y B HU v mv Hv) as PM. pose proof (weights_bound _ _ _ _ _ _ _ _ B y HU HB Hy) as WB.
  assert (S1 : fval sf2 <= 1) by apply HU.
  destruct (sd_ok sg V V2 F2 P2 ltac:(lra) E2) as (Vs & Fs & Bs & SV & Es). set (s := fsqrt sg) in *. set (W := weights n B y) in *. set (M := post_mean sf2 p n pts B y mv v) in *.
  unfold merr in E1. fold W in E1. set (a := fval alpha) in *. rewrite Rabs_pos_eq in Ba by auto. set (A := Rabs (fval mv)) in *. assert (A0 : 0 <= A) by apply Rabs_pos.
  assert (BA : A <= 2 ^ 200) by apply Hmv.
  assert (Mu : Rabs (fval mu) <= 2 * A + 2 * W + 1).
  { replace (fval mu) with ((fval mu - M) + M) by ring. apply Rle_trans with (1 := Rabs_triang _ _). lra. }
  assert (As : 0 <= a * fval s <= 2 * a) by (split; [apply Rmult_le_pos; lra|rewrite (Rmult_comm 2); apply Rmult_le_compat_l; lra]).
  assert (B9 : 2 ^ 20 * 2 + 2 * 2 ^ 200 + 2 * bp 217 + 1 <= bp 900).
  { rewrite (bp_pow 217 : bp 217 = _), (bp_pow 900 : bp 900 = _). assert (1 <= 2 ^ 217) by (apply pow_R1_Rle; lra).
    assert (2 ^ 200 <= 2 ^ 217) by (apply Rle_pow; [lra|lia]). assert (2 ^ 20 <= 2 ^ 217) by (apply Rle_pow; [lra|lia]).
    apply Rle_trans with (2 ^ 3 * 2 ^ 217); [lra|]. rewrite <- pow_add. apply Rle_pow; [lra|lia]. }
  pose proof (bp_pos 217) as P217. pose proof (pow_lt 2 200 ltac:(lra)) as P200. pose proof (pow_lt 2 20 ltac:(lra)) as P20.
  destruct (mul_add_ok alpha s mu u (2 * a) (2 * A + 2 * W + 1) Va Fa Vs Fs V1 F1) as (Vu & Fu & Eu); auto.
  { fold a. rewrite Rabs_pos_eq by lra. lra. }
  { lra. }
  { lra. }
  fold a in Eu. split; auto. split; auto. split; auto.
  set (I := / sqrt V). assert (I1 : 1 <= I) by (unfold I; rewrite <- Rinv_1; apply Rinv_le_contravar; lra).
  replace (1 / 1000000 / sqrt V) with (1 / 1000000 * I) in Es by reflexivity.
  assert (AI : a <= a * I) by (rewrite <- (Rmult_1_r a) at 1; apply Rmult_le_compat_l; lra).
  assert (D : Rabs (a * fval s - a * sqrt V) <= 1 / 1000000 * (a * I) + 4 / 10 ^ 16 * a).
  { rewrite <- Rmult_minus_distr_l, Rabs_mult, (Rabs_pos_eq a) by auto. apply Rle_trans with (1 := Rmult_le_compat_l _ _ _ Pa Es). lra. }
  unfold ucb_bound. fold a A. replace (11 / 10 ^ 7 * a / sqrt V) with (11 / 10 ^ 7 * (a * I)) by (unfold I; field; lra).
  replace (fval u - (M + a * sqrt V)) with ((fval u - (fval mu + a * fval s)) + (fval mu - M) + (a * fval s - a * sqrt V)) by ring.
  apply Rle_trans with (1 := Rabs_triang _ _). pose proof (Rabs_triang (fval u - (fval mu + a * fval s)) (fval mu - M)). lra.
Qed.

(** the point the optimizer picks on the computed values is as good, for the exact UCB, as any other
    point it compared it with, up to the two bounds *)
Theorem C73_ucb_choice : forall fexp mk d sf2 noise p n pts m L y x alpha,
  usual fexp mk d sf2 noise p n pts -> INR m <= 3000 -> gp_of fexp mk sf2 noise p n pts m L y x ->
  (forall i, (i < n)%nat -> dbl (2 ^ 200) (y i)) -> dbl (2 ^ 20) alpha -> 0 <= fval alpha ->
  exists B, is_inv n (noisy (K_of sf2 p pts) (nugget noise)) B /\
  let U := fun v mv => post_mean sf2 p n pts B y mv v + fval alpha * sqrt (post_var sf2 p n pts B v) in
  let bound := fun v mv => ucb_bound alpha mv (weights n B y) (post_var sf2 p n pts B v) in
  forall v w mv mw mu_v mu_w s_v s_w u_v u_w, point d v -> point d w -> dbl (2 ^ 200) mv -> dbl (2 ^ 200) mw ->
    query_at fexp mk sf2 noise p n pts m L x mv v mu_v s_v -> ucb_of alpha mu_v s_v u_v ->
    query_at fexp mk sf2 noise p n pts m L x mw w mu_w s_w -> ucb_of alpha mu_w s_w u_w ->
    (fle u_w u_v = true \/ flt u_v u_w = false) -> U w mw <= U v mv + bound v mv + bound w mw.
Proof.
  intros fexp mk d sf2 noise p n pts m L y x alpha HU Hm HG Hy Ha Pa.
  destruct (C73_ucb _ _ _ _ _ _ _ _ _ _ _ _ _ HU Hm HG Hy Ha Pa) as (B & HB & H). exists B. split; auto. intros U bound v w mv mw mu_v mu_w s_v s_w u_v u_w Pv Pw Dv Dw Qv Uv Qw Uw C.
  destruct (H v mv mu_v s_v u_v Pv Dv Qv Uv) as (V1 & F1 & _ & E1). destruct (H w mw mu_w s_w u_w Pw Dw Qw Uw) as (V2 & F2 & _ & E2).
  assert (Le : fval u_w <= fval u_v) by (destruct C as [C|C]; [apply fle_R in C; auto|apply flt_R_false in C; auto]).
  fold (U v mv) in E1. fold (U w mw) in E2. fold (bound v mv) in E1. fold (bound w mw) in E2. apply Rabs_le_inv in E1, E2. lra.
Qed.

(** ** The incumbent *)
Lemma max_elem_ok l : l <> [] -> (forall x, In x l -> fvalid x /\ ffin x) -> exists f, max_elem l = Some f /\ In f l /\ forall x, In x l -> fval x <= fval f.
Proof.
  destruct l as [|a l]; [congruence|]. intros _ H. exists (fold_left (fun a b => if flt a b then b else a) l a). split; [reflexivity|].
  revert a H. induction l as [|b l IH]; intros a H; cbn [fold_left].
  - split; [now left|]. intros x [<-|[]]. lra.
  - destruct (H a) as (Va & Fa); [now left|]. destruct (H b) as (Vb & Fb); [right; now left|].
    destruct (flt a b) eqn:E.
    + apply flt_R in E; auto. destruct (IH b) as (I1 & I2); [intros x Hx; apply H; now right|]. split; [now right|].
      intros x [<-|Hx]; auto. apply Rle_trans with (fval b); [lra|]. apply I2. now left.
    + apply flt_R_false in E; auto. destruct (IH a) as (I1 & I2); [intros x [<-|Hx]; apply H; [now left|right; now right]|].
      split; [destruct I1 as [<-|I1]; [now left|right; now right]|]. intros x [<-|[<-|Hx]]; [apply I2; now left| |apply I2; now right].
      apply Rle_trans with (fval a); [lra|]. apply I2. now left.
Qed.
Lemma best_exists l : l <> [] -> exists f, is_best l f.
Proof. intros H. destruct (max_element_done l H) as (f & Hf). exists f. now apply max_element_best. Qed.
Lemma max_near (rs : list F) (es : list R) D : rs <> [] -> List.Forall2 (fun r e => fvalid r /\ ffin r /\ Rabs (fval r - e) <= D) rs es ->
  exists fm f, max_elem rs = Some fm /\ fvalid fm /\ ffin fm /\ In fm rs /\ is_best es f /\ Rabs (fval fm - f) <= D.
Proof.
  intros N H.
  assert (L : forall r, In r rs -> exists e, In e es /\ fvalid r /\ ffin r /\ Rabs (fval r - e) <= D).
  { clear N. induction H as [|r e rs es H0 H IH]; intros r' Hr; [destruct Hr|]. destruct Hr as [<-|Hr]; [exists e; split; [now left|auto]|].
    destruct (IH r' Hr) as (e' & I1 & I2). exists e'. split; [now right|auto]. }
  assert (Rr : forall e, In e es -> exists r, In r rs /\ Rabs (fval r - e) <= D).
  { clear N L. induction H as [|r e rs es H0 H IH]; intros e' He; [destruct He|]. destruct He as [<-|He]; [exists r; split; [now left|apply H0]|].
    destruct (IH e' He) as (r' & I1 & I2). exists r'. split; [now right|auto]. }
  destruct (max_elem_ok rs N) as (fm & M1 & M2 & M3); [intros r Hr; destruct (L r Hr) as (e & _ & V & Fi & _); auto|].
  destruct (best_exists es) as (f & Hf); [intros ->; inversion H; subst; congruence|].
  exists fm, f. split; auto. destruct (L fm M2) as (e & He & Vf & Ff & Ef). split; auto. split; auto. split; auto. split; auto.
  destruct Hf as (If & Bf). rewrite List.Forall_forall in Bf. destruct (Rr f If) as (r & Hr & Er). specialize (Bf e He). specialize (M3 r Hr).
  apply Rabs_le_inv in Ef, Er. apply Rabs_le. lra.
Qed.

(** ** EI *)
Lemma cutoff_val : fvalid cutoff /\ ffin cutoff /\ fval cutoff <= bp (-10).
Proof.
  split; [reflexivity|]. split; [reflexivity|]. apply Rle_trans with (1 / 1000000000).
  - cbv -[IZR F2R bpow Rle Rdiv]; unfold F2R; simpl; lra.
  - change (-10)%Z with (Z.opp 10). rewrite bpow_opp. simpl. lra.
Qed.
Lemma floor_num sf2 eta n V : 1 / 100 <= sf2 <= 1 -> 99 / 10000 <= eta -> 0 <= n <= 1000 -> 0 < V ->
  sf2 * eta <= V * (eta + n * sf2) -> 9 / 1000000 <= V.
Proof.
  intros Hs He Hn HV H. apply Rnot_lt_le. intros Q.
  assert (V * eta <= 9 / 1000000 * eta) by (apply Rmult_le_compat_r; lra).
  assert (n * sf2 <= 1000 * sf2) by (apply Rmult_le_compat_r; lra). assert (0 <= n * sf2) by (apply Rmult_le_pos; lra).
  assert (V * (n * sf2) <= 9 / 1000000 * (1000 * sf2)) by (apply Rmult_le_compat; lra).
  assert (99 / 10000 * sf2 <= eta * sf2) by (apply Rmult_le_compat_r; lra).
  assert (1 / 100 * eta <= sf2 * eta) by (apply Rmult_le_compat_r; lra). lra.
Qed.

(** the error bound of EI at one point; [Mv] bounds the mean function at the point and at the samples *)
Definition ei_bound (jitter : F) (Mv W V : R) : R :=
  13 / 10 ^ 6 * W + 3 / 10 ^ 12 * (1 + Mv) + 2 / 10 ^ 14 * Rabs (fval jitter) + 6 / 10 ^ 7 / sqrt V.

Theorem C73_ei : forall fexp ferfc fpow2 jitter mk d sf2 noise p n pts m L y x mvf rewards Mv,
  usual fexp mk d sf2 noise p n pts -> 1 / 100 <= fval sf2 -> INR m <= 3000 -> gp_of fexp mk sf2 noise p n pts m L y x ->
  (forall i, (i < n)%nat -> dbl (2 ^ 200) (y i)) ->
  libm_erfc ferfc (/ 2 ^ 50) -> libm_pow2 fpow2 -> dbl (2 ^ 200) jitter ->
  Mv <= 2 ^ 200 -> (forall i, (i < n)%nat -> dbl Mv (mvf (pts i))) ->
  List.Forall2 (fun i r => mean_at fexp mk sf2 noise p n pts m x (mvf (pts i)) (pts i) r) (seq 0 n) rewards ->
  exists B, is_inv n (noisy (K_of sf2 p pts) (nugget noise)) B /\
  exists f, is_best (map (fun i => post_mean sf2 p n pts B y (mvf (pts i)) (pts i)) (seq 0 n)) f /\
  forall v mu sigma_sq r, point d v -> dbl Mv (mvf v) ->
    query_at fexp mk sf2 noise p n pts m L x (mvf v) v mu sigma_sq -> ei_of fexp ferfc fpow2 jitter rewards mu sigma_sq r ->
    let V := post_var sf2 p n pts B v in
    fvalid r /\ ffin r /\ 9 / 1000000 <= V /\
    exists ev, expected_improvement (post_mean sf2 p n pts B y (mvf v) v) (sqrt V) (f + fval jitter) ev /\
      Rabs (fval r - ev) <= ei_bound jitter Mv (weights n B y) V.
Proof.
  intros fexp ferfc fpow2 jitter mk d sf2 noise p n pts m L y x mvf rewards Mv HU S100 Hm HG Hy Hc Hq (Vj & Fj & Bj) HM Hmv HR.
  destruct (inv_exists _ _ _ _ _ _ _ _ HU) as (B & HB). exists B. split; auto.
  pose proof (weights_bound _ _ _ _ _ _ _ _ B y HU HB Hy) as WB. set (W := weights n B y) in *.
  destruct HU as (He & Hmk & Hd & Hn & Hs & Hs1 & Hp & Hpts & Vn & Fn & Bn) eqn:EU. clear EU.
  set (D := 6 / 1000000 * W + 1 / 10 ^ 12 * (1 + Mv)).
  assert (up : forall a, dbl Mv a -> dbl (2 ^ 200) a) by (intros a (H1 & H2 & H3); split; auto; split; auto; lra).
  assert (merr_le : forall a, dbl Mv a -> merr n y B a <= D) by (intros a (H1 & H2 & H3); unfold merr, D, W; lra).
  assert (Dn : forall i r, (i < n)%nat -> mean_at fexp mk sf2 noise p n pts m x (mvf (pts i)) (pts i) r ->
    fvalid r /\ ffin r /\ Rabs (fval r - post_mean sf2 p n pts B y (mvf (pts i)) (pts i)) <= D).
  { intros i r Hi Hr. pose proof HG as HG'. destruct HG' as (kf & A & H1 & _). destruct (self_value fexp mk sf2 noise p n pts kf i H1 Hi) as (kvv & Hk).
    destruct (mean_at_ok _ _ _ _ _ _ _ _ _ _ _ _ B HU Hm HG Hy HB (pts i) kvv (mvf (pts i)) r (Hpts i ltac:(lia)) Hk (up _ (Hmv i Hi)) Hr) as (Q1 & Q2 & Q3).
    split; auto. split; auto. apply Rle_trans with (1 := Q3). auto. }
  assert (Fa : List.Forall2 (fun r e => fvalid r /\ ffin r /\ Rabs (fval r - e) <= D) rewards (map (fun i => post_mean sf2 p n pts B y (mvf (pts i)) (pts i)) (seq 0 n))).
  { assert (G : forall l, (forall i, In i l -> (i < n)%nat) -> forall rs, List.Forall2 (fun i r => mean_at fexp mk sf2 noise p n pts m x (mvf (pts i)) (pts i) r) l rs ->
      List.Forall2 (fun r e => fvalid r /\ ffin r /\ Rabs (fval r - e) <= D) rs (map (fun i => post_mean sf2 p n pts B y (mvf (pts i)) (pts i)) l)).
    { intros l Hl rs H. induction H; cbn [map]; constructor; [apply Dn; auto; apply Hl; now left|]. apply IHForall2. intros i Hi. apply Hl. now right. }
    apply G; auto. intros i Hi. apply in_seq in Hi. lia. }
  assert (Rn : rewards <> []).
  { intros ->. inversion HR as [E|]; subst. destruct n; [lia|discriminate]. }
  destruct (max_near rewards _ D Rn Fa) as (fm & f & Mx & Vf & Ff & If & Bf & Ef).
  exists f. split; auto. intros v mu sg r Hv Dv HQ Hr V.
  destruct (query_at_ok _ _ _ _ _ _ _ _ _ _ _ _ B HU Hm HG Hy HB v (mvf v) mu sg Hv (up _ Dv) HQ) as (V1 & F1 & E1 & V2 & F2 & P2 & E2). fold V in E2.
  pose proof (merr_le _ Dv) as E1'.
  pose proof (post_var_pos _ _ _ _ _ _ _ _ B HU HB v Hv) as PV. destruct (post_var_bounds _ _ _ _ _ _ _ _ B HU HB v Hv) as (PV0 & PV1). fold V in PV, PV0, PV1.
  pose proof (post_mean_bound _ _ _ _ _ _ _ _ y B HU v (mvf v) Hv) as PM. fold W in PM.
  set (M := post_mean sf2 p n pts B y (mvf v) v) in *.
  assert (V9 : 9 / 1000000 <= V).
  { apply (floor_num (fval sf2) (nugget noise) (INR n)); auto; [unfold nugget; lra|]. split; [apply pos_INR|apply le1000; lia]. }
  destruct (sd_ok sg V V2 F2 P2 ltac:(lra) E2) as (Vs & Fs & Bs & SV & Es).
  assert (Sl : bp (-10) <= fval (fsqrt sg)).
  { destruct (fsqrt_correct sg V2 F2 P2) as (_ & ->). rewrite <- rnd_bp by lia. apply rnd_le.
    change (-10)%Z with (-5 + -5)%Z. rewrite bpow_plus, <- (sqrt_square (bp (-5) * bp (-5))) by (apply Rmult_le_pos; apply bpow_ge_0).
    apply sqrt_le_1_alt. apply Rle_trans with (8 / 1000000); [|apply Rabs_le_inv in E2; lra].
    change (-5)%Z with (Z.opp 5). rewrite bpow_opp. simpl. lra. }
  set (s := fsqrt sg) in *. destruct cutoff_val as (Vc & Fc & Bc).
  unfold ei_of in Hr. cbv zeta in Hr. fold s in Hr. rewrite (proj2 (flt_R_false s cutoff Vs Vc Fs Fc) ltac:(lra)) in Hr.
  destruct rewards as [|r0 rs]; [congruence|]. cbn [length Nat.ltb Nat.leb orb] in Hr. destruct Hr as (fm' & Mx' & Hr). rewrite Mx in Mx'. assert (fm' = fm) by congruence. subst fm'.
  assert (Mv0 : 0 <= Mv) by (destruct Dv as (_ & _ & Q); pose proof (Rabs_pos (fval (mvf v))); lra).
  assert (BD : 0 <= D) by (unfold D; lra).
  assert (Bmv : Rabs (fval (mvf v)) <= Mv) by apply Dv.
  assert (Bf' : Rabs f <= Mv + W).
  { destruct Bf as (If' & _). apply in_map_iff in If'. destruct If' as (i & <- & Hi). apply in_seq in Hi.
    apply Rle_trans with (1 := post_mean_bound _ _ _ _ _ _ _ _ y B HU (pts i) (mvf (pts i)) (Hpts i ltac:(lia))). fold W. destruct (Hmv i ltac:(lia)) as (_ & _ & Q). lra. }
  assert (Bmu : Rabs (fval mu) <= Mv + W + D). { replace (fval mu) with ((fval mu - M) + M) by ring. apply Rle_trans with (1 := Rabs_triang _ _). lra. }
  assert (Bfm : Rabs (fval fm) <= Mv + W + D). { replace (fval fm) with ((fval fm - f) + f) by ring. apply Rle_trans with (1 := Rabs_triang _ _). lra. }
  assert (B25 : 2 * 2 ^ 200 + 2 * bp 217 + 1 <= bp 250).
  { rewrite (bp_pow 217 : bp 217 = _), (bp_pow 250 : bp 250 = _). assert (1 <= 2 ^ 217) by (apply pow_R1_Rle; lra).
    assert (2 ^ 200 <= 2 ^ 217) by (apply Rle_pow; [lra|lia]).
    apply Rle_trans with (2 ^ 3 * 2 ^ 217); [lra|]. rewrite <- pow_add. apply Rle_pow; [lra|lia]. }
  pose proof (bp_pos 217) as P217. pose proof (pow_lt 2 200 ltac:(lra)) as P200.
  assert (BDs : Mv + W + D <= bp 250) by (unfold D; lra).
  destruct (ei_line_ok fexp ferfc fpow2 jitter mu fm s r He Hc Hq V1 F1 ltac:(lra) Vf Ff ltac:(lra) Vj Fj ltac:(lra) Vs Fs (conj Sl (proj2 Bs)) Hr) as (Vr & Fr & Er).
  split; auto. split; auto. split; auto.
  exists (ei_value erfc0 (M - (f + fval jitter)) (sqrt V)). split; [apply ei_is_expectation; [lra|apply erfc0_ok]|].
  set (j := fval jitter) in *.
  pose proof (ei_lipschitz (M - (f + j)) (fval mu - fval fm - j) (sqrt V) (fval s) ltac:(lra) ltac:(pose proof (bp_pos (-10)); lra)) as Li.
  assert (X : Rabs (fval mu - fval fm - j - (M - (f + j))) <= 2 * D).
  { replace (fval mu - fval fm - j - (M - (f + j))) with ((fval mu - M) + - (fval fm - f)) by ring. apply Rle_trans with (1 := Rabs_triang _ _). rewrite Rabs_Ropp. lra. }
  unfold ei_bound. fold j. set (I := / sqrt V) in *. replace (6 / 10 ^ 7 / sqrt V) with (6 / 10 ^ 7 * I) by reflexivity. replace (1 / 1000000 / sqrt V) with (1 / 1000000 * I) in Es by reflexivity.
  assert (I1 : 1 <= I) by (unfold I; rewrite <- Rinv_1; apply Rinv_le_contravar; lra).
  set (e1 := ei_value erfc0 (M - (f + j)) (sqrt V)) in *. set (e2 := ei_value erfc0 (fval mu - fval fm - j) (fval s)) in *.
  replace (fval r - e1) with ((fval r - e2) + (e2 - e1)) by ring. apply Rle_trans with (1 := Rabs_triang _ _).
  pose proof (Rabs_pos j). unfold D in *. lra.
Qed.

Theorem C73_ei_choice : forall fexp ferfc fpow2 jitter mk d sf2 noise p n pts m L y x mvf rewards Mv,
  usual fexp mk d sf2 noise p n pts -> 1 / 100 <= fval sf2 -> INR m <= 3000 -> gp_of fexp mk sf2 noise p n pts m L y x ->
  (forall i, (i < n)%nat -> dbl (2 ^ 200) (y i)) ->
  libm_erfc ferfc (/ 2 ^ 50) -> libm_pow2 fpow2 -> dbl (2 ^ 200) jitter ->
  Mv <= 2 ^ 200 -> (forall i, (i < n)%nat -> dbl Mv (mvf (pts i))) ->
  List.Forall2 (fun i r => mean_at fexp mk sf2 noise p n pts m x (mvf (pts i)) (pts i) r) (seq 0 n) rewards ->
  exists B, is_inv n (noisy (K_of sf2 p pts) (nugget noise)) B /\
  exists f, is_best (map (fun i => post_mean sf2 p n pts B y (mvf (pts i)) (pts i)) (seq 0 n)) f /\
  let improvement := fun v => expected_improvement (post_mean sf2 p n pts B y (mvf v) v) (sqrt (post_var sf2 p n pts B v)) (f + fval jitter) in
  let bound := fun v => ei_bound jitter Mv (weights n B y) (post_var sf2 p n pts B v) in
  forall v w mu_v mu_w s_v s_w r_v r_w, point d v -> point d w -> dbl Mv (mvf v) -> dbl Mv (mvf w) ->
    query_at fexp mk sf2 noise p n pts m L x (mvf v) v mu_v s_v -> ei_of fexp ferfc fpow2 jitter rewards mu_v s_v r_v ->
    query_at fexp mk sf2 noise p n pts m L x (mvf w) w mu_w s_w -> ei_of fexp ferfc fpow2 jitter rewards mu_w s_w r_w ->
    (fle r_w r_v = true \/ flt r_v r_w = false) ->
    exists e_v e_w, improvement v e_v /\ improvement w e_w /\ e_w <= e_v + bound v + bound w.
Proof.
  intros fexp ferfc fpow2 jitter mk d sf2 noise p n pts m L y x mvf rewards Mv HU S100 Hm HG Hy Hc Hq Hj HM Hmv HR.
  destruct (C73_ei _ _ _ _ _ _ _ _ _ _ _ _ _ _ _ _ _ _ HU S100 Hm HG Hy Hc Hq Hj HM Hmv HR) as (B & HB & f & Hf & H).
  exists B. split; auto. exists f. split; auto. intros imp bound v w mu_v mu_w s_v s_w r_v r_w Pv Pw Dv Dw Qv Ev Qw Ew C.
  destruct (H v mu_v s_v r_v Pv Dv Qv Ev) as (V1 & F1 & _ & e1 & X1 & E1). destruct (H w mu_w s_w r_w Pw Dw Qw Ew) as (V2 & F2 & _ & e2 & X2 & E2).
  assert (Le : fval r_w <= fval r_v) by (destruct C as [C|C]; [apply fle_R in C; auto|apply flt_R_false in C; auto]).
  exists e1, e2. split; auto. split; auto. fold (bound v) in E1. fold (bound w) in E2. apply Rabs_le_inv in E1, E2. lra.
Qed.

(** ** Examples *)
(** correctly rounded functions meet the contracts *)
Definition best_erfc (x : F) : F := of_R (rnd (erfc0 (fval x))).
Definition best_pow2 (x : F) : F := of_R (rnd (fval x * fval x)).
Example C73_libm_example : libm_erfc best_erfc (/ 2 ^ 50) /\ libm_pow2 best_pow2.
Proof.
  assert (U : uu <= / 2 ^ 53) by (change uu with (bp (- Z.of_nat 53)); rewrite bp_inv; lra). pose proof uu_pos as U0.
  split.
  - intros erfc He x V Fx. rewrite (erfc_unique erfc _ He). pose proof (erfc0_bounds (fval x)) as B.
    assert (Ba : Rabs (erfc0 (fval x)) <= bp 1) by (rewrite Rabs_pos_eq by lra; change (bp 1) with 2; lra).
    destruct (of_R_val (rnd (erfc0 (fval x)))) as (A1 & A2).
    + apply generic_format_round; typeclasses eauto.
    + apply Rle_lt_trans with (bp 1); [apply rnd_abs; [lia|auto]|]. apply bpow_lt. lia.
    + split; [apply fofZe_valid|]. split; auto. unfold best_erfc. rewrite A2. apply Rle_trans with (1 := rnd_error _).
      rewrite Rabs_pos_eq by lra. assert (Z : e0 <= / 2 ^ 53). { rewrite <- (bp_inv 53). apply bp_le. lia. }
      apply Rle_trans with (/ 2 ^ 53 * 2 + / 2 ^ 53); [|lra]. apply Rplus_le_compat; auto. apply Rmult_le_compat; lra.
  - intros x V Fx B. assert (P : 0 <= fval x * fval x) by apply Rle_0_sqr.
    assert (Ba : Rabs (fval x * fval x) <= bp 1000).
    { rewrite Rabs_mult, (bp_pow 1000 : bp 1000 = _). change 1000%nat with (500 + 500)%nat. rewrite pow_add. apply Rmult_le_compat; auto; apply Rabs_pos. }
    destruct (of_R_val (rnd (fval x * fval x))) as (A1 & A2).
    + apply generic_format_round; typeclasses eauto.
    + apply Rle_lt_trans with (bp 1000); [apply rnd_abs; [lia|auto]|]. apply bpow_lt. lia.
    + split; [apply fofZe_valid|]. split; auto. unfold best_pow2. rewrite A2. split; [now apply rnd_nonneg|]. apply Rle_trans with (1 := rnd_error _).
      rewrite Rabs_pos_eq by lra. assert (Z : e0 <= / 2 ^ 1074). { rewrite <- (bp_inv 1074). apply bp_le. lia. }
      apply Rplus_le_compat; auto. apply Rmult_le_compat_r; lra.
Qed.

(** with any of the kernels: two samples (observations 1 and -1, mean function 1/2), the point
    (1/2, 1), alpha = 1, jitter = 0: the hypotheses hold and the code computes values *)
Lemma mean_exists fexp mk sf2 noise p n pts m x mv v d : usual fexp mk d sf2 noise p n pts -> point d v -> (2 * d <= mk)%nat -> (S n <= m)%nat ->
  exists mu, mean_at fexp mk sf2 noise p n pts m x mv v mu.
Proof.
  intros HU Hv H1 H2. exists (feval (line ((false, TNum mv) :: map (fun q => (false, TMul (fst q) (snd q))) (prods 0 n (fun i => kval fexp sf2 noise p (pts i) v false) x)))).
  exists (fun i => kval fexp sf2 noise p (pts i) v false). destruct HU as (_ & _ & _ & _ & _ & _ & Hp & Hpts & _). split.
  - intros i Hi. apply kval_ok with d; auto. apply Hpts. lia.
  - apply line_ok. cbn [length]. now rewrite map_length, prods_length.
Qed.
Lemma fsolve2_exists m L b : (1 <= m)%nat -> exists z, fsolve m 2 L b z.
Proof.
  intros Hm. set (z0 := fdiv (feval (chain (b 0%nat) [])) (L 0%nat 0%nat)).
  exists (fun i => match i with 0%nat => z0 | _ => fdiv (feval (chain (b 1%nat) [(L 1%nat 0%nat, z0)])) (L 1%nat 1%nat) end).
  intros i Hi. destruct i as [|[|i]]; try lia; eexists; (split; [apply chain_ok; rewrite ?prods_length; lia|left; reflexivity]).
Qed.
Example C73_example : forall p, In p [PExp f1; PMatern3 f1; PMatern5 f1; PArd [f1; fofZe 1 (-1)]] ->
  exists L y x rewards mu sigma_sq u r,
  usual best_exp 4 2 f1 ex_noise p 2 ex_pts /\ 1 / 100 <= fval f1 /\ gp_of best_exp 4 f1 ex_noise p 2 ex_pts 4 L y x /\
  (forall i, (i < 2)%nat -> dbl (2 ^ 200) (y i)) /\ fval (y 0%nat) = 1 /\ fval (y 1%nat) = -1 /\ dbl (2 ^ 20) f1 /\ 0 <= fval f1 /\ dbl (2 ^ 200) f0 /\
  dbl 1 fhalf /\ point 2 (ex_pts 2) /\
  List.Forall2 (fun i r => mean_at best_exp 4 f1 ex_noise p 2 ex_pts 4 x fhalf (ex_pts i) r) (seq 0 2) rewards /\
  query_at best_exp 4 f1 ex_noise p 2 ex_pts 4 L x fhalf (ex_pts 2) mu sigma_sq /\
  ucb_of f1 mu sigma_sq u /\ ei_of best_exp best_erfc best_pow2 f0 rewards mu sigma_sq r.
Proof.
  intros p Hp. destruct (C71_example p Hp) as (kf & kq & kvv & A & L & x & _ & HU & HK & HB & Hy & Hx & _).
  assert (E1 : fval f1 = 1) by (cbv -[IZR F2R bpow]; unfold F2R; simpl; lra). destruct half_val as (Vh & Fh & Eh). destruct f0_ok as (V0 & F0 & E0).
  assert (Pt : forall i, (i <= 2)%nat -> point 2 (ex_pts i)) by (intros i Hi; now apply HU).
  assert (Mn : forall i, (i <= 2)%nat -> exists mu, mean_at best_exp 4 f1 ex_noise p 2 ex_pts 4 (x 0%nat) fhalf (ex_pts i) mu).
  { intros i Hi. apply mean_exists with 2%nat; auto. }
  destruct (Mn 0%nat ltac:(lia)) as (r0 & H0). destruct (Mn 1%nat ltac:(lia)) as (r1 & H1).
  destruct HK as (K1 & K2 & K3). destruct (fsolve2_exists 4 L kq ltac:(lia)) as (z & Hz).
  set (res := feval (line ((false, TNum kvv) :: map (fun q => (true, TMul (fst q) (snd q))) (prods 0 2 z z)))).
  set (mu := feval (line ((false, TNum fhalf) :: map (fun q => (false, TMul (fst q) (snd q))) (prods 0 2 kq (x 0%nat))))).
  set (sg := if fle res feps then f0 else res).
  set (fm := fold_left (fun a b => if flt a b then b else a) [r1] r0).
  set (X := fsub (fsub mu fm) f0). set (Z := fdiv X (fsqrt sg)).
  exists L, (ex_y 0), (x 0%nat), [r0; r1], mu, sg, (fadd mu (fmul f1 (fsqrt sg))).
  exists (if flt (fsqrt sg) cutoff then f0 else
    fadd (fmul X (fmul fhalf (best_erfc (fdiv (fopp Z) (fsqrt ftwo))))) (fmul (fsqrt sg) (fdiv (best_exp (fmul mhalf (best_pow2 Z))) (fsqrt (fmul ftwo fpi))))).
  assert (P2 : 1 <= 2 ^ 200) by (apply pow_R1_Rle; lra). assert (P1 : 1 <= 2 ^ 20) by (apply pow_R1_Rle; lra).
  split; auto. split; [lra|]. split; [exists kf, A; split; [exact K1|split; auto]|]. split; [intros; apply Hy; lia|].
  split; [exact E1|]. split; [cbn [ex_y]; rewrite fopp_val, E1; lra|].
  split; [split; [reflexivity|split; [reflexivity|rewrite E1, Rabs_pos_eq; lra]]|]. split; [lra|].
  split; [split; auto; split; auto; rewrite E0, Rabs_R0; lra|]. split; [split; auto; split; auto; rewrite Eh, Rabs_pos_eq; lra|]. split; [apply Pt; lia|].
  split; [repeat constructor; auto|]. split; [|split].
  - exists kq, kvv. split; [exact K2|]. split; [exact K3|]. split; [apply line_ok; cbn; lia|]. exists z, res. split; auto. split; [apply line_ok; cbn; lia|reflexivity].
  - left. reflexivity.
  - unfold ei_of. cbv zeta. cbn [length Nat.ltb Nat.leb]. rewrite orb_false_r. destruct (flt (fsqrt sg) cutoff); [reflexivity|].
    exists fm. split; [reflexivity|]. left. reflexivity.
Qed.
