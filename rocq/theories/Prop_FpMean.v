(** C76: the mean functions in double precision, and the posterior mean of the raw observations. *)
From Coq Require Import ZArith List Bool Lia Permutation Reals Lra.
From Coq Require Import Floats.SpecFloat.
From Flocq Require Import Core.
From Verif Require Import F64 F64R AdamFloat OptFloat FpModel FpErr LinAlgModel LinAlg FpAlg FpChol FpSolve FpGp FpFin Prop_Fp.
From Verif Require Import KernelModel KernelFacts FpKerModel FpKer FpKer2 Prop_FpKer Prop_FpLik FpLikModel FpLik FpAcqModel.
From Verif Require Import AcquiModel Prop_EI FpAcq Prop_FpAcq FpMeanModel FpLife FpImpl.
Import ListNotations.
Open Scope R_scope.

(** ** Specification *)
(** the mean functions over the real numbers *)
Definition total (l : list F) : R := fold_right (fun o s => fval o + s) 0 l.
Definition prior (mf : meanf) (ys : list F) : R :=
  match mf with MNull => 0 | MConst c => fval c | MData => total ys / INR (length ys) end.
(** the posterior mean of a GP with prior mean [a], from the observations themselves *)
Definition raw_weight (n : nat) (B : nat -> nat -> R) (ys : list F) (a : R) (i : nat) : R :=
  rsum n (fun j => B i j * (fval (nth j ys f0) - a)).
Definition raw_mean (sf2 : F) (p : kpar) (n : nat) (pts : nat -> fpt) (B : nat -> nat -> R) (ys : list F) (a : R) (v : fpt) : R :=
  a + rsum n (fun i => exact sf2 p (pts i) v * raw_weight n B ys a i).
Definition raw_weights (n : nat) (B : nat -> nat -> R) (ys : list F) (a : R) : R := rsum n (fun i => Rabs (raw_weight n B ys a i)).

(** what the rounding of the mean and of the differences costs, for data of magnitude [M] *)
Definition centre (m : nat) (M : R) : R := (2 * INR m + 6) * (M * / 2 ^ 53 + / 2 ^ 1075).
Definition const_ok (M : R) (mf : meanf) : Prop := match mf with MConst c => dbl M c | _ => True end.

Lemma centre_eq m M : centre m M = (2 * INR m + 6) * (uu * M + e0).
Proof. unfold centre. rewrite (bp_inv 53 : uu = _), (bp_inv 1075 : e0 = _). ring. Qed.

Lemma data_terms ys M : 0 <= M -> List.Forall (dbl M) ys ->
  let ts := map (fun o => (false, TNum o)) ys in
  List.Forall tvalid ts /\ List.Forall tfin ts /\ tsum ts = total ys /\ tabs ts <= INR (length ys) * M.
Proof.
  intros HM. induction 1 as [|o ys (V & Fi & B) _ (I1 & I2 & I3 & I4)]; cbv zeta.
  - split; [constructor|]. split; [constructor|]. split; [reflexivity|]. cbn. rewrite Rmult_0_l. apply Rle_refl.
  - cbn [map]. split; [constructor; auto|]. split; [constructor; auto|]. unfold tsum, tabs in *. cbn [fold_right map total length]. unfold tval at 1 3. cbn [fst snd].
    rewrite I3, Rmult_1_l, S_INR. split; [reflexivity|]. lra.
Qed.

(** the rounded mean and the rounded differences *)
Lemma eps_small m M : INR m <= 3000 -> 0 <= M <= 2 ^ 198 -> 0 <= INR m * uu <= / 10 ^ 12 /\ 0 <= INR m * e0 <= / 10 ^ 12.
Proof.
  intros Hm HM. pose proof (pos_INR m). rewrite (bp_inv 53 : uu = _), (bp_inv 1075 : e0 = _).
  assert (A : / 2 ^ 1075 <= / 2 ^ 53) by (apply Rinv_le_contravar; [apply pow_lt; lra|apply Rle_pow; [lra|lia]]).
  assert (0 < / 2 ^ 1075) by (apply Rinv_0_lt_compat, pow_lt; lra). set (e := / 2 ^ 1075) in *. clearbody e.
  assert (C : 3000 * / 2 ^ 53 <= / 10 ^ 12) by lra.
  repeat split; try (apply Rmult_le_pos; lra); apply Rle_trans with (2 := C); apply Rmult_le_compat; lra.
Qed.

Lemma mean_val_ok m mf ys mv M : INR m <= 3000 -> (0 < length ys <= 1000)%nat -> 0 <= M <= 2 ^ 198 -> List.Forall (dbl M) ys -> const_ok M mf ->
  mean_val m mf ys mv -> fvalid mv /\ ffin mv /\ Rabs (fval mv - prior mf ys) <= (2 * INR m + 2) * (uu * M + e0) /\ Rabs (prior mf ys) <= M.
Proof.
  intros Hm Hn HM HY HC Hv. pose proof (pos_INR m) as M0. pose proof uu_pos as U. pose proof e0_pos as E.
  assert (P0 : 0 <= (2 * INR m + 2) * (uu * M + e0)).
  { apply Rmult_le_pos; [lra|]. assert (0 <= uu * M) by (apply Rmult_le_pos; lra). lra. }
  destruct mf as [|c|]; cbn [mean_val prior const_ok] in *.
  - subst mv. destruct f0_ok as (V & Fi & Z). rewrite Z, Rminus_0_r, Rabs_R0. repeat split; auto; lra.
  - subst mv. destruct HC as (V & Fi & B). unfold Rminus. rewrite Rplus_opp_r, Rabs_R0. auto.
  - destruct Hv as (s & Hs & ->). destruct (data_terms ys M ltac:(lra) HY) as (T1 & T2 & T3 & T4).
    destruct (eps_small m M Hm HM) as (Su & Se).
    assert (Sm : small m) by (unfold small; apply Rle_trans with (1 := Hm); apply IZR_le; lia).
    set (n := length ys) in *. assert (N1 : 1 <= INR n) by (change 1 with (INR 1); apply le_INR; lia).
    assert (N2 : INR n <= 1000) by (replace 1000 with (INR 1000) by (simpl; lra); apply le_INR; lia).
    assert (TB : tabs (map (fun o => (false, TNum o)) ys) <= bp 208).
    { apply Rle_trans with (1 := T4). rewrite (bp_pow 208 : bp 208 = _). replace 208%nat with (10 + 198)%nat by reflexivity. rewrite pow_add.
      apply Rmult_le_compat; lra. }
    pose proof (sum_of_valid m _ s T1 Hs) as Vs.
    assert (Fs : ffin s) by (apply (sum_of_fin m _ s Sm T1 T2 Hs); apply Rle_trans with (1 := TB); apply bp_le; lia).
    pose proof (sum_of_error m _ s Sm T1 Hs Fs) as Er. rewrite T3 in Er.
    destruct (fofZ_correct (Z.of_nat n)) as [Fn En]; [rewrite Z.abs_eq; lia|]. rewrite <- INR_IZR_INZ in En.
    assert (I : 0 < / INR n <= 1) by (split; [apply Rinv_0_lt_compat; lra|rewrite <- Rinv_1; apply Rinv_le_contravar; lra]).
    assert (Pr : Rabs (total ys / INR n) <= M).
    { unfold Rdiv. rewrite Rabs_mult, (Rabs_pos_eq (/ INR n)) by lra. apply Rle_trans with (INR n * M * / INR n); [|right; field; lra].
      apply Rmult_le_compat_r; [lra|]. rewrite <- T3. apply Rle_trans with (2 := T4). apply tsum_abs. }
    assert (Q : Rabs (fval s / INR n - total ys / INR n) <= 2 * INR m * (uu * M + e0)).
    { replace (fval s / INR n - total ys / INR n) with ((fval s - total ys) * / INR n) by (field; lra). rewrite Rabs_mult, (Rabs_pos_eq (/ INR n)) by lra.
      apply Rle_trans with ((2 * INR m * uu * (INR n * M) + 2 * INR m * e0) * / INR n).
      - apply Rmult_le_compat_r; [lra|]. apply Rle_trans with (1 := Er). apply Rplus_le_compat_r. apply Rmult_le_compat_l; auto. apply Rmult_le_pos; [|lra]. apply Rmult_le_pos; lra.
      - replace ((2 * INR m * uu * (INR n * M) + 2 * INR m * e0) * / INR n) with (2 * INR m * uu * M + 2 * INR m * e0 * / INR n) by (field; lra).
        assert (2 * INR m * e0 * / INR n <= 2 * INR m * e0 * 1) by (apply Rmult_le_compat_l; [apply Rmult_le_pos; [apply Rmult_le_pos|]; lra|lra]). lra. }
    set (x := fval s / INR n) in *. set (a := total ys / INR n) in *.
    assert (X : Rabs x <= 2 * M + 1).
    { replace x with ((x - a) + a) by ring. apply Rle_trans with (1 := Rabs_triang _ _).
      assert (INR m * uu * M <= / 10 ^ 12 * M) by (apply Rmult_le_compat_r; lra). lra. }
    assert (B1 : 2 * 2 ^ 198 + 1 <= bp 1000).
    { rewrite (bp_pow 1000 : bp 1000 = _). assert (1 <= 2 ^ 198) by (apply pow_R1_Rle; lra). apply Rle_trans with (2 ^ 2 * 2 ^ 198); [lra|]. rewrite <- pow_add. apply Rle_pow; [lra|lia]. }
    destruct (fdiv_correct s (fofZ (Z.of_nat n))) as [Fd Ed]; auto; [apply fofZ_valid|rewrite En; lra| |].
    { rewrite En. fold x. apply Rle_lt_trans with (bp 1000); [apply rnd_abs; [lia|lra]|apply bpow_lt; lia]. }
    split; [apply fdiv_valid; auto; apply fofZ_valid|]. split; auto. split; auto. rewrite Ed, En. fold x.
    pose proof (rnd_error x) as R. replace (rnd x - a) with ((rnd x - x) + (x - a)) by ring. apply Rle_trans with (1 := Rabs_triang _ _).
    assert (X2 : Rabs x <= M + 2 * INR m * (uu * M + e0)).
    { replace x with ((x - a) + a) by ring. apply Rle_trans with (1 := Rabs_triang _ _). lra. }
    assert (uu * Rabs x <= uu * (2 * M) + e0); [|lra].
    apply Rle_trans with (uu * (M + 2 * INR m * (uu * M + e0))); [apply Rmult_le_compat_l; lra|].
    assert (INR m * uu * M <= / 10 ^ 12 * M) by (apply Rmult_le_compat_r; lra).
    replace (uu * (M + 2 * INR m * (uu * M + e0))) with (uu * (M + 2 * (INR m * uu * M)) + 2 * (INR m * uu) * e0) by ring.
    assert (2 * (INR m * uu) * e0 <= 1 * e0) by (apply Rmult_le_compat_r; lra). assert (uu * (M + 2 * (INR m * uu * M)) <= uu * (2 * M)) by (apply Rmult_le_compat_l; lra). lra.
Qed.

(** ** The mean function and the centred observations *)
Theorem C76_centred : forall m mf ys mv M,
  INR m <= 3000 -> (0 < length ys <= 1000)%nat -> 0 <= M <= 2 ^ 198 -> List.Forall (dbl M) ys -> const_ok M mf ->
  mean_val m mf ys mv ->
  dbl (2 ^ 199) mv /\ Rabs (fval mv - prior mf ys) <= centre m M /\
  forall i, (i < length ys)%nat -> dbl (2 ^ 200) (residual ys mv i) /\
    Rabs (fval (residual ys mv i) - (fval (nth i ys f0) - prior mf ys)) <= centre m M.
Proof.
  intros m mf ys mv M Hm Hn HM HY HC Hv. destruct (mean_val_ok m mf ys mv M Hm Hn HM HY HC Hv) as (V & Fi & E & P).
  pose proof (pos_INR m) as M0. pose proof uu_pos as U. pose proof e0_pos as Ep. destruct (eps_small m M Hm HM) as (Su & Se).
  rewrite centre_eq. set (a := prior mf ys) in *. assert (UM : 0 <= uu * M) by (apply Rmult_le_pos; lra).
  assert (U1 : uu <= / 10 ^ 12) by (rewrite (bp_inv 53 : uu = _); lra).
  assert (E1 : e0 <= / 10 ^ 12). { apply Rle_trans with (2 := U1). unfold e0, uu. apply bp_le. lia. }
  assert (D : (2 * INR m + 2) * (uu * M + e0) <= / 10 ^ 11 * M + / 10 ^ 11).
  { replace ((2 * INR m + 2) * (uu * M + e0)) with (2 * (INR m * uu) * M + 2 * (uu * M) + 2 * (INR m * e0) + 2 * e0) by ring.
    assert (2 * (INR m * uu) * M <= 2 * / 10 ^ 12 * M) by (apply Rmult_le_compat_r; lra). assert (uu * M <= / 10 ^ 12 * M) by (apply Rmult_le_compat_r; lra). lra. }
  assert (Bm : Rabs (fval mv) <= M + (/ 10 ^ 11 * M + / 10 ^ 11)).
  { replace (fval mv) with ((fval mv - a) + a) by ring. apply Rle_trans with (1 := Rabs_triang _ _). lra. }
  assert (P1 : 1 <= 2 ^ 198) by (apply pow_R1_Rle; lra).
  assert (P2 : 2 ^ 199 = 2 * 2 ^ 198) by reflexivity. assert (P3 : 2 ^ 200 = 4 * 2 ^ 198) by (change (2 ^ 200) with (2 * (2 * 2 ^ 198)); ring).
  assert (B1 : 4 * 2 ^ 198 <= bp 1000). { rewrite (bp_pow 1000 : bp 1000 = _), <- P3. apply Rle_pow; [lra|lia]. }
  split; [split; auto; split; auto; lra|]. split; [lra|]. intros i Hi. unfold residual.
  assert (Ho : dbl M (nth i ys f0)) by (rewrite List.Forall_forall in HY; apply HY, nth_In, Hi). destruct Ho as (Vo & Fo & Bo). set (o := nth i ys f0) in *.
  assert (X : Rabs (fval o - fval mv) <= 2 * M + (/ 10 ^ 11 * M + / 10 ^ 11)).
  { unfold Rminus. apply Rle_trans with (1 := Rabs_triang _ _). rewrite Rabs_Ropp. lra. }
  destruct (sub_ok o mv Vo Fo V Fi ltac:(lra)) as (Vd & Fd & Ed). set (r := fval (fsub o mv)) in *.
  assert (R1 : uu * Rabs (fval o - fval mv) <= 3 * (uu * M) + e0 + e0).
  { apply Rle_trans with (uu * (2 * M + (2 * INR m + 2) * (uu * M + e0))).
    - apply Rmult_le_compat_l; [lra|]. replace (fval o - fval mv) with ((fval o - a) + (a - fval mv)) by ring. apply Rle_trans with (1 := Rabs_triang _ _).
      rewrite (Rabs_minus_sym a). assert (Rabs (fval o - a) <= 2 * M). { unfold Rminus. apply Rle_trans with (1 := Rabs_triang _ _). rewrite Rabs_Ropp. lra. } lra.
    - replace (uu * (2 * M + (2 * INR m + 2) * (uu * M + e0))) with (2 * (uu * M) + 2 * (INR m * uu) * (uu * M) + 2 * uu * (uu * M) + (2 * (INR m * uu) + 2 * uu) * e0) by ring.
      assert (2 * (INR m * uu) * (uu * M) <= / 4 * (uu * M)) by (apply Rmult_le_compat_r; lra).
      assert (2 * uu * (uu * M) <= / 4 * (uu * M)) by (apply Rmult_le_compat_r; lra).
      assert ((2 * (INR m * uu) + 2 * uu) * e0 <= 1 * e0) by (apply Rmult_le_compat_r; lra). lra. }
  split.
  - split; auto. split; auto. fold r. replace r with ((r - (fval o - fval mv)) + (fval o - fval mv)) by ring. apply Rle_trans with (1 := Rabs_triang _ _).
    assert (uu * M <= / 10 ^ 12 * M) by (apply Rmult_le_compat_r; lra). lra.
  - replace (r - (fval o - a)) with ((r - (fval o - fval mv)) + (a - fval mv)) by ring. apply Rle_trans with (1 := Rabs_triang _ _). rewrite (Rabs_minus_sym a). lra.
Qed.

(** ** The posterior mean of the observations *)
Lemma raw_close fexp mk d sf2 noise p n pts B m mf ys mv M : usual fexp mk d sf2 noise p n pts -> is_inv n (noisy (K_of sf2 p pts) (nugget noise)) B ->
  INR m <= 3000 -> length ys = n -> 0 <= M <= 2 ^ 198 -> List.Forall (dbl M) ys -> const_ok M mf -> mean_val m mf ys mv ->
  let a := prior mf ys in let y := residual ys mv in let shift := INR n / nugget noise * centre m M in
  rsum n (fun i => Rabs (weight n B y i - raw_weight n B ys a i)) <= shift /\
  Rabs (weights n B y - raw_weights n B ys a) <= shift /\
  forall v, point d v -> Rabs (post_mean sf2 p n pts B y mv v - raw_mean sf2 p n pts B ys a v) <= centre m M + fval sf2 * shift.
Proof.
  intros HU Bi Hm Hl HM HY HC Hv a y shift.
  assert (Hn : (0 < n <= 1000)%nat) by apply HU.
  destruct (C76_centred m mf ys mv M Hm ltac:(lia) HM HY HC Hv) as (Dm & Em & Er). fold a in Em, Er.
  destruct HU as (He & Hmk & Hd & _ & Hs & Hs1 & Hp & Hpts & Vn & Fn & Bn). pose proof (param_pos sf2 Hs) as Sp.
  set (K := K_of sf2 p pts) in *. set (ng := nugget noise) in *. assert (Ng : 99 / 10000 <= ng) by (unfold ng, nugget; lra).
  assert (Pp : psd n K) by (apply exact_psd with d; auto; intros i Hi; apply Hpts; lia).
  assert (C0 : 0 <= centre m M) by (apply Rle_trans with (2 := Em); apply Rabs_pos).
  assert (W : rsum n (fun i => Rabs (weight n B y i - raw_weight n B ys a i)) <= shift).
  { unfold shift. replace (INR n / ng * centre m M) with (INR n * centre m M / ng) by (field; lra).
    apply (forward n (noisy K ng) ng (weight n B y) (raw_weight n B ys a) (centre m M) ltac:(lra) (noisy_eig n K ng Pp) C0).
    intros i Hi. change (weight n B y) with (mvec n B (fun j => fval (y j))). change (raw_weight n B ys a) with (mvec n B (fun j => fval (nth j ys f0) - a)).
    rewrite !(inv_mvec n _ B _ Bi i Hi). rewrite Rabs_minus_sym. apply Er. lia. }
  split; auto. split.
  - unfold weights, raw_weights. rewrite <- rsum_minus. apply Rle_trans with (1 := rsum_abs _ _). apply Rle_trans with (2 := W). apply rsum_le. intros i Hi. apply Rabs_triang_inv2.
  - intros v Pv. unfold post_mean, raw_mean.
    replace (fval mv + rsum n (fun i => exact sf2 p (pts i) v * weight n B y i) - (a + rsum n (fun i => exact sf2 p (pts i) v * raw_weight n B ys a i)))
      with ((fval mv - a) + rsum n (fun i => exact sf2 p (pts i) v * (weight n B y i - raw_weight n B ys a i))).
    2:{ rewrite (rsum_ext n (fun i => exact sf2 p (pts i) v * (weight n B y i - raw_weight n B ys a i)) (fun i => exact sf2 p (pts i) v * weight n B y i - exact sf2 p (pts i) v * raw_weight n B ys a i)) by (intros; ring).
        rewrite rsum_minus. ring. }
    apply Rle_trans with (1 := Rabs_triang _ _). apply Rplus_le_compat; auto. apply Rle_trans with (1 := rsum_abs _ _).
    apply Rle_trans with (fval sf2 * rsum n (fun i => Rabs (weight n B y i - raw_weight n B ys a i))); [|apply Rmult_le_compat_l; lra].
    rewrite <- rsum_scal_l. apply rsum_le. intros i Hi. rewrite Rabs_mult. apply Rmult_le_compat_r; [apply Rabs_pos|].
    pose proof (exact_bounds d sf2 p (pts i) v Hs Hp (Hpts i ltac:(lia)) Pv). rewrite Rabs_pos_eq; lra.
Qed.

(** The prediction of the code, all rounding included, against the posterior mean of the observations. *)
Theorem C76_prediction : forall fexp mk d sf2 noise p n pts m mf L ys mv x M,
  usual fexp mk d sf2 noise p n pts -> INR m <= 3000 -> length ys = n -> 0 <= M <= 2 ^ 198 -> List.Forall (dbl M) ys -> const_ok M mf ->
  mean_val m mf ys mv -> gp_of fexp mk sf2 noise p n pts m L (residual ys mv) x ->
  let a := prior mf ys in let shift := INR n / nugget noise * centre m M in
  exists B, is_inv n (noisy (K_of sf2 p pts) (nugget noise)) B /\
  forall v mu sigma_sq, point d v -> query_at fexp mk sf2 noise p n pts m L x mv v mu sigma_sq ->
    ffin mu /\ ffin sigma_sq /\ Rabs (fval sigma_sq - post_var sf2 p n pts B v) <= 1 / 1000000 /\
    Rabs (fval mu - raw_mean sf2 p n pts B ys a v) <= 7 / 1000000 * raw_weights n B ys a + 2 / 10 ^ 12 * (1 + M) + 2 * (shift + centre m M).
Proof.
  intros fexp mk d sf2 noise p n pts m mf L ys mv x M HU Hm Hl HM HY HC Hv HG a shift.
  assert (Hn : (0 < n <= 1000)%nat) by apply HU.
  destruct (C76_centred m mf ys mv M Hm ltac:(lia) HM HY HC Hv) as (Dm & Em & Er).
  destruct (inv_exists _ _ _ _ _ _ _ _ HU) as (B & HB). exists B. split; auto. intros v mu sg Pv Hmu.
  destruct (raw_close _ _ _ _ _ _ _ _ B _ _ _ _ M HU HB Hm Hl HM HY HC Hv) as (R1 & R2 & R3). fold a shift in R1, R2, R3. specialize (R3 v Pv).
  assert (Hy : forall i, (i < n)%nat -> dbl (2 ^ 200) (residual ys mv i)) by (intros i Hi; apply Er; lia).
  assert (Dm' : dbl (2 ^ 200) mv). { destruct Dm as (A & A' & A''). split; auto. split; auto. apply Rle_trans with (1 := A''). apply Rle_pow; [lra|lia]. }
  destruct (query_at_ok _ _ _ _ _ _ _ _ _ _ _ _ B HU Hm HG Hy HB v mv mu sg Pv Dm' Hmu) as (V1 & F1 & E1 & V2 & F2 & P2 & E2).
  split; auto. split; auto. split; auto. unfold merr in E1.
  destruct HU as (_ & _ & _ & _ & _ & Hs1 & _).
  replace (fval mu - raw_mean sf2 p n pts B ys a v) with ((fval mu - post_mean sf2 p n pts B (residual ys mv) mv v) + (post_mean sf2 p n pts B (residual ys mv) mv v - raw_mean sf2 p n pts B ys a v)) by ring.
  apply Rle_trans with (1 := Rabs_triang _ _).
  destruct (mean_val_ok m mf ys mv M Hm ltac:(lia) HM HY HC Hv) as (_ & _ & _ & Pa). fold a in Pa, Em.
  assert (Bm : Rabs (fval mv) <= M + centre m M). { replace (fval mv) with ((fval mv - a) + a) by ring. apply Rle_trans with (1 := Rabs_triang _ _). lra. }
  assert (C0 : 0 <= centre m M) by (apply Rle_trans with (2 := Em); apply Rabs_pos).
  assert (S0 : 0 <= shift) by (apply Rle_trans with (2 := R1); apply rsum_nonneg; intros; apply Rabs_pos).
  assert (W0 : 0 <= raw_weights n B ys a) by (apply rsum_nonneg; intros; apply Rabs_pos).
  assert (fval sf2 * shift <= 1 * shift) by (apply Rmult_le_compat_r; auto). apply Rabs_le_inv in R2. lra.
Qed.

(** The same for every GP that was computed from data or built up sample by sample, in any mixture. *)
Theorem C76_life : forall fexp mk d sf2 noise p m mf xs ys g M,
  regular fexp mk d sf2 noise p -> (2 * d <= mk)%nat -> INR m <= 3000 ->
  gp_life fexp mk sf2 noise p m mf xs ys g -> (0 < length xs <= 1000)%nat -> List.Forall (point d) xs ->
  0 <= M <= 2 ^ 198 -> List.Forall (dbl M) ys -> const_ok M mf ->
  let n := length xs in let a := prior mf ys in let shift := INR n / nugget noise * centre m M in
  exists B, is_inv n (noisy (K_of sf2 p (ptsf xs)) (nugget noise)) B /\
  forall v mu sigma_sq, point d v -> gp_query fexp mk sf2 noise p m g v mu sigma_sq ->
    ffin mu /\ ffin sigma_sq /\ Rabs (fval sigma_sq - post_var sf2 p n (ptsf xs) B v) <= 1 / 1000000 /\
    Rabs (fval mu - raw_mean sf2 p n (ptsf xs) B ys a v) <= 7 / 1000000 * raw_weights n B ys a + 2 / 10 ^ 12 * (1 + M) + 2 * (shift + centre m M).
Proof.
  intros fexp mk d sf2 noise p m mf xs ys g M HR Hmk Hm HL Hn Hx HM HY HC n a shift.
  assert (Hp : kpar_ok d p) by apply HR. pose proof (usual_of fexp mk d sf2 noise p xs HR Hx Hn) as HU.
  destruct (life_sound fexp mk d sf2 noise p m mf Hp Hmk xs ys g HR Hm HL ltac:(lia) Hx) as (E1 & E2 & E3 & HS).
  destruct (sound_gp _ _ _ _ _ _ _ _ HS ltac:(rewrite E1; lia)) as (HG & HV). unfold gp_query. rewrite E1, E2 in *.
  exact (C76_prediction fexp mk d sf2 noise p (length xs) (ptsf xs) m mf (fg_L g) ys (fg_mean g) (fg_a g) M HU Hm E3 HM HY HC HV HG).
Qed.

(** ** The hypotheses hold: the default parameters of the kernels, two samples added to a GP computed from
    one, each of the mean functions *)
Example C76_example : forall p mf, In p [PExp f1; PMatern3 f1; PMatern5 f1; PArd [f1; fofZe 1 (-1)]] -> In mf [MNull; MConst fhalf; MData] ->
  let xs := [[f0; f0]; [f1; f0]; [fhalf; f1]] in let ys := [f1; fhalf; f1] in
  regular best_exp 4 2 f1 ex_noise p /\ (2 * 2 <= 4)%nat /\ INR 4 <= 3000 /\ List.Forall (point 2) xs /\ List.Forall (dbl 1) ys /\ const_ok 1 mf /\
  exists g, gp_life best_exp 4 f1 ex_noise p 4 mf xs ys g /\
    (forall v, point 2 v -> exists mu sigma_sq, gp_query best_exp 4 f1 ex_noise p 4 g v mu sigma_sq) /\
    mean_val 4 mf ys (fg_mean g) /\ centre 4 1 <= 4 / 10 ^ 15.
Proof.
  intros p mf Hp Hmf xs ys. destruct (C70_example p Hp) as (HU & _).
  assert (E1 : fval f1 = 1) by (cbv -[IZR F2R bpow]; unfold F2R; simpl; lra). destruct half_val as (Vh & Fh & Eh). destruct f0_ok as (V0 & F0 & E0).
  assert (HR : regular best_exp 4 2 f1 ex_noise p).
  { destruct HU as (H1 & H2 & H3 & _ & H4 & H5 & H6 & _ & H7 & H8 & H9). exact (conj H1 (conj H2 (conj H3 (conj H4 (conj H5 (conj H6 (conj H7 (conj H8 H9)))))))). }
  assert (B100 : 1 <= 2 ^ 100) by (apply pow_R1_Rle; lra).
  assert (Co : forall a, In a [f0; f1; fhalf] -> fvalid a /\ ffin a /\ Rabs (fval a) <= 2 ^ 100).
  { intros a [<-|[<-|[<-|[]]]]; (split; [reflexivity|]; split; [reflexivity|]); rewrite ?E0, ?E1, ?Eh, Rabs_pos_eq; lra. }
  assert (Px : List.Forall (point 2) xs).
  { assert (PP : forall x, In x xs -> point 2 x).
    { intros x [<-|[<-|[<-|[]]]]; (split; [reflexivity|]); intros a Ha; apply Co; cbn [In] in *; tauto. }
    now apply List.Forall_forall. }
  assert (Py : List.Forall (dbl 1) ys).
  { apply List.Forall_forall. intros a [<-|[<-|[<-|[]]]]; (split; [reflexivity|]; split; [reflexivity|]); rewrite ?E1, ?Eh, Rabs_pos_eq; lra. }
  assert (HK : kpar_ok 2 p) by apply HR.
  split; auto. split; [lia|]. split; [simpl; lra|]. split; auto. split; auto. split.
  { destruct Hmf as [<-|[<-|[<-|[]]]]; cbn [const_ok]; auto. split; auto. split; auto. rewrite Eh, Rabs_pos_eq; lra. }
  set (g0 := computeF best_exp f1 ex_noise p mf [[f0; f0]] [f1]). set (g1 := addF best_exp f1 ex_noise p mf g0 [f1; f0] fhalf). set (g2 := addF best_exp f1 ex_noise p mf g1 [fhalf; f1] f1).
  inversion Px as [|? ? P1 T1]; subst. inversion T1 as [|? ? P2 T2]; subst. inversion T2 as [|? ? P3 _]; subst.
  assert (A0 : gp_compute best_exp 4 f1 ex_noise p 4 mf [[f0; f0]] [f1] g0) by (apply computeF_ok with 2%nat; auto; cbn; lia).
  assert (A1 : gp_add best_exp 4 f1 ex_noise p 4 mf g0 [f1; f0] fhalf g1) by (apply addF_ok with 2%nat; auto; cbn; auto; lia).
  assert (A2 : gp_add best_exp 4 f1 ex_noise p 4 mf g1 [fhalf; f1] f1 g2) by (apply addF_ok with 2%nat; auto; cbn; auto; lia).
  exists g2. split; [|split; [|split]].
  - change xs with (([[f0; f0]] ++ [[f1; f0]]) ++ [[fhalf; f1]]). change ys with (([f1] ++ [fhalf]) ++ [f1]).
    eapply life_add; [|exact A2]. eapply life_add; [|exact A1]. apply life_compute; auto; easy.
  - intros v Pv. eexists _, _. exact (queryF_ok best_exp 4 2 f1 ex_noise p 4 HK (le_n _) g2 v Px Pv (le_n _)).
  - apply A2.
  - unfold centre. assert (/ 2 ^ 1075 <= / 2 ^ 53) by (apply Rinv_le_contravar; [apply pow_lt; lra|apply Rle_pow; [lra|lia]]).
    set (e := / 2 ^ 1075) in *. clearbody e. simpl INR. lra.
Qed.
