(** Error analysis of the kernels in double precision (see FpKerModel). *)
From Coq Require Import Reals ZArith List Bool Lia Lra.
From Coquelicot Require Import Coquelicot.
From Coq Require Import Floats.SpecFloat.
From Flocq Require Import Core BinarySingleNaN.
From Verif Require Import F64 F64R AdamFloat FpModel FpErr FpChol FpKerModel.
Import ListNotations.
Open Scope R_scope.

(** * The functions of the distance *)
Lemma exp_ge1 x : 1 + x <= exp x.
Proof.
  destruct (Req_dec x 0) as [->|N]; [rewrite exp_0; lra|].
  pose proof (exp_ineq1 x N). lra.
Qed.
Lemma exp_sq s : 0 <= s -> s * s <= exp s.
Proof.
  intros H. pose proof (exp_ge1 (s / 2 - 1)) as A. assert (B : 2 <= exp 1) by (pose proof (exp_ge1 1); lra).
  assert (C : s <= exp (s / 2)).
  { replace (s / 2) with (1 + (s / 2 - 1)) by ring. rewrite exp_plus. pose proof (exp_pos (s / 2 - 1)). nra. }
  replace (exp s) with (exp (s / 2) * exp (s / 2)) by (rewrite <- exp_plus; f_equal; field).
  apply Rmult_le_compat; auto.
Qed.
Lemma exp_cub s : 0 <= s -> s * s * s <= 27 / 8 * exp s.
Proof.
  intros H. pose proof (exp_ge1 (s / 3 - 1)) as A. assert (B : 2 <= exp 1) by (pose proof (exp_ge1 1); lra).
  assert (C : 2 / 3 * s <= exp (s / 3)).
  { replace (s / 3) with (1 + (s / 3 - 1)) by ring. rewrite exp_plus. pose proof (exp_pos (s / 3 - 1)). nra. }
  replace (exp s) with (exp (s / 3) * exp (s / 3) * exp (s / 3)) by (rewrite <- !exp_plus; f_equal; field).
  assert (2 / 3 * s * (2 / 3 * s) * (2 / 3 * s) <= exp (s / 3) * exp (s / 3) * exp (s / 3)).
  { apply Rmult_le_compat; try lra; [apply Rmult_le_pos; lra|]. apply Rmult_le_compat; lra. }
  nra.
Qed.
Lemma exp_quad s : 0 <= s -> 1 + s + s * s / 3 <= exp s.
Proof.
  intros H. pose proof (exp_ge1 (s / 4)) as A.
  assert (B : (1 + s / 4) * (1 + s / 4) <= exp (s / 2)).
  { replace (exp (s / 2)) with (exp (s / 4) * exp (s / 4)) by (rewrite <- exp_plus; f_equal; field). apply Rmult_le_compat; lra. }
  assert (C : (1 + s / 4) * (1 + s / 4) * ((1 + s / 4) * (1 + s / 4)) <= exp s).
  { replace (exp s) with (exp (s / 2) * exp (s / 2)) by (rewrite <- exp_plus; f_equal; field). apply Rmult_le_compat; nra. }
  assert (0 <= s * s * s) by (apply Rmult_le_pos; nra). assert (0 <= s * s * (s * s)) by (apply Rmult_le_pos; nra). nra.
Qed.

(** a function whose slope decays: relative errors of the argument are absolute errors of the value *)
Lemma pert (f f' : R -> R) t t' th eta :
  (forall s, 0 <= s -> is_derive f s (f' s)) ->
  (forall s, 0 <= s -> Rabs (f' s) <= 1 /\ s * Rabs (f' s) <= 2) ->
  0 <= t -> 0 <= t' -> Rabs (t' - t) <= th * t + eta -> 0 <= th <= 1 / 2 -> 0 <= eta ->
  Rabs (f t' - f t) <= 4 * th + 2 * eta.
Proof.
  intros Df Bf Ht Ht' E Hth Heta.
  destruct (MVT_gen f t t' f') as (s & Hs & Es).
  - intros x Hx. apply Df. assert (0 <= Rmin t t') by (apply Rmin_glb; auto). lra.
  - intros x Hx. apply continuity_pt_filterlim. assert (0 <= Rmin t t') by (apply Rmin_glb; auto).
    apply @ex_derive_continuous. exists (f' x). apply Df. lra.
  - rewrite Es, Rabs_mult.
    assert (M : 0 <= Rmin t t') by (apply Rmin_glb; auto).
    assert (S0 : 0 <= s) by lra. destruct (Bf s S0) as (B1 & B2).
    assert (T : t <= 2 * s + 2 * eta).
    { assert (t - th * t - eta <= Rmin t t'); [|nra]. apply Rmin_glb; [nra|]. apply Rabs_le_between in E. lra. }
    pose proof (Rabs_pos (f' s)) as P. set (p := Rabs (f' s)) in *.
    apply Rle_trans with (p * (th * (2 * s + 2 * eta) + eta)).
    + apply Rmult_le_compat_l; auto. apply Rle_trans with (1 := E). apply Rplus_le_compat_r. apply Rmult_le_compat_l; lra.
    + assert (th * (s * p) <= th * 2) by (apply Rmult_le_compat_l; lra).
      assert (eta * p <= eta * 1) by (apply Rmult_le_compat_l; lra).
      assert (th * (eta * p) <= 1 / 2 * (eta * p)) by (apply Rmult_le_compat_r; [apply Rmult_le_pos; lra|lra]).
      nra.
Qed.

Lemma xexp s : 0 <= s -> 0 < exp (- s) <= 1 /\ s * exp (- s) <= 1 /\ s * s * exp (- s) <= 1 /\ s * s * s * exp (- s) <= 27 / 8 /\ (1 + s + s * s / 3) * exp (- s) <= 1 /\ (1 + s) * exp (- s) <= 1.
Proof.
  intros H. pose proof (exp_pos (- s)) as P.
  assert (I : exp s * exp (- s) = 1) by (rewrite <- exp_plus, Rplus_opp_r; apply exp_0).
  pose proof (exp_ge1 s). pose proof (exp_sq s H). pose proof (exp_cub s H). pose proof (exp_quad s H).
  assert (Q : forall a, a <= exp s -> a * exp (- s) <= 1) by (intros a Ha; rewrite <- I; apply Rmult_le_compat_r; lra).
  split; [split; auto; specialize (Q 1); lra|]. split; [apply Q; lra|]. split; [apply Q; lra|]. split; [|split; apply Q; lra].
  replace (27 / 8) with (27 / 8 * (exp s * exp (- s))) by (rewrite I; ring). rewrite <- Rmult_assoc. apply Rmult_le_compat_r; lra.
Qed.

Definition g1 s := exp (- s).
Definition g3 s := (1 + s) * exp (- s).
Definition g5 s := (1 + s + s * s / 3) * exp (- s).
Lemma g1_pert t t' th eta : 0 <= t -> 0 <= t' -> Rabs (t' - t) <= th * t + eta -> 0 <= th <= 1 / 2 -> 0 <= eta -> Rabs (g1 t' - g1 t) <= 4 * th + 2 * eta.
Proof.
  apply (pert g1 (fun s => - exp (- s))).
  - intros s Hs. unfold g1. auto_derive; auto. ring.
  - intros s Hs. destruct (xexp s Hs) as ((A & B) & C & _). rewrite Rabs_Ropp, Rabs_pos_eq by lra. lra.
Qed.
Lemma g3_pert t t' th eta : 0 <= t -> 0 <= t' -> Rabs (t' - t) <= th * t + eta -> 0 <= th <= 1 / 2 -> 0 <= eta -> Rabs (g3 t' - g3 t) <= 4 * th + 2 * eta.
Proof.
  apply (pert g3 (fun s => - (s * exp (- s)))).
  - intros s Hs. unfold g3. auto_derive; auto. ring.
  - intros s Hs. destruct (xexp s Hs) as ((A & B) & C & D & _). rewrite Rabs_Ropp, Rabs_pos_eq by (apply Rmult_le_pos; lra). lra.
Qed.
Lemma g5_pert t t' th eta : 0 <= t -> 0 <= t' -> Rabs (t' - t) <= th * t + eta -> 0 <= th <= 1 / 2 -> 0 <= eta -> Rabs (g5 t' - g5 t) <= 4 * th + 2 * eta.
Proof.
  apply (pert g5 (fun s => - ((s + s * s) / 3 * exp (- s)))).
  - intros s Hs. unfold g5. auto_derive; auto. field.
  - intros s Hs. destruct (xexp s Hs) as ((A & B) & C & D & G & _).
    assert (0 <= s * s) by nra.
    rewrite Rabs_Ropp, Rabs_pos_eq by (apply Rmult_le_pos; lra). lra.
Qed.

(** * Approximations with a relative and an absolute error *)
Definition near (a eta x' x : R) : Prop := Rabs (x' - x) <= a * uu * Rabs x + eta.

Lemma uu_small : uu <= / 1048576.
Proof.
  unfold uu. apply Rle_trans with (bp (-20)); [apply bp_le; lia|]. right. change (-20)%Z with (Z.opp 20). rewrite bpow_opp. f_equal.
Qed.

Lemma near_rnd a eta x' x : 0 <= a -> 0 <= eta -> a * uu <= 1 -> near a eta x' x -> near (a + 2) (2 * eta + e0) (rnd x') x.
Proof.
  unfold near. intros Ha He Hu H. pose proof (rnd_error x') as E. pose proof uu_pos. pose proof uu_small. pose proof e0_pos. pose proof (Rabs_pos x).
  assert (X : Rabs x' <= Rabs x + a * uu * Rabs x + eta).
  { replace x' with (x + (x' - x)) by ring. pose proof (Rabs_triang x (x' - x)). lra. }
  replace (rnd x' - x) with ((rnd x' - x') + (x' - x)) by ring. apply Rle_trans with (1 := Rabs_triang _ _).
  assert (a * uu * Rabs x <= 1 * Rabs x) by (apply Rmult_le_compat_r; lra).
  assert (uu * Rabs x' <= uu * (2 * Rabs x + eta)) by (apply Rmult_le_compat_l; lra).
  assert (uu * eta <= 1 * eta) by (apply Rmult_le_compat_r; lra). nra.
Qed.

Lemma near_mul a b eta zeta x' x y' y : 0 <= a -> 0 <= b -> 0 <= eta -> 0 <= zeta -> a * uu <= 1 -> b * uu <= 1 -> a * b * uu <= 1 ->
  near a eta x' x -> near b zeta y' y ->
  near (a + b + 1) (eta * (2 * Rabs y + zeta) + 2 * zeta * Rabs x) (x' * y') (x * y).
Proof.
  unfold near. intros Ha Hb He Hz Au Bu Ab X Y. pose proof uu_pos. pose proof (Rabs_pos x). pose proof (Rabs_pos y).
  replace (x' * y' - x * y) with ((x' - x) * y + x * (y' - y) + (x' - x) * (y' - y)) by ring.
  apply Rle_trans with (Rabs ((x' - x) * y) + Rabs (x * (y' - y)) + Rabs ((x' - x) * (y' - y))).
  { eapply Rle_trans; [apply Rabs_triang|]. apply Rplus_le_compat_r. apply Rabs_triang. }
  rewrite !Rabs_mult. pose proof (Rabs_pos (x' - x)). pose proof (Rabs_pos (y' - y)).
  assert (A1 : Rabs (x' - x) * Rabs y <= (a * uu * Rabs x + eta) * Rabs y) by (apply Rmult_le_compat_r; lra).
  assert (A2 : Rabs x * Rabs (y' - y) <= Rabs x * (b * uu * Rabs y + zeta)) by (apply Rmult_le_compat_l; lra).
  assert (A3 : Rabs (x' - x) * Rabs (y' - y) <= (a * uu * Rabs x + eta) * (b * uu * Rabs y + zeta)) by (apply Rmult_le_compat; lra).
  set (X0 := Rabs x) in *. set (Y0 := Rabs y) in *.
  assert (B1 : a * b * uu * (uu * (X0 * Y0)) <= 1 * (uu * (X0 * Y0))) by (apply Rmult_le_compat_r; auto; repeat apply Rmult_le_pos; lra).
  assert (B2 : a * uu * (X0 * zeta) <= 1 * (X0 * zeta)) by (apply Rmult_le_compat_r; auto; repeat apply Rmult_le_pos; lra).
  assert (B3 : b * uu * (eta * Y0) <= 1 * (eta * Y0)) by (apply Rmult_le_compat_r; auto; repeat apply Rmult_le_pos; lra).
  lra.
Qed.

Lemma near_weak a b eta zeta x' x : a <= b -> eta <= zeta -> near a eta x' x -> near b zeta x' x.
Proof.
  unfold near. intros H K N. pose proof uu_pos. pose proof (Rabs_pos x).
  assert (a * uu * Rabs x <= b * uu * Rabs x) by (apply Rmult_le_compat_r; auto; apply Rmult_le_compat_r; lra). lra.
Qed.

Lemma near_inv b y' y : 0 <= b -> b * uu <= 1 / 2 -> 0 < y -> near b 0 y' y -> 0 < y' /\ near (2 * b) 0 (/ y') (/ y).
Proof.
  unfold near. intros Hb Hu Hy H. rewrite (Rabs_pos_eq y) in H by lra.
  assert (B0 : 0 <= b * uu) by (pose proof uu_pos; nra).
  assert (Y : y / 2 <= y'). { apply Rabs_le_between in H. nra. }
  split; [lra|]. rewrite (Rabs_pos_eq (/ y)) by (left; apply Rinv_0_lt_compat; lra).
  replace (/ y' - / y) with ((y - y') * (/ y' * / y)) by (field; lra).
  rewrite Rabs_mult, (Rabs_pos_eq (/ y' * / y)) by (apply Rmult_le_pos; left; apply Rinv_0_lt_compat; lra).
  rewrite Rabs_minus_sym.
  assert (I : / y' <= 2 * / y). { replace (2 * / y) with (/ (y / 2)) by (field; lra). apply Rinv_le_contravar; lra. }
  assert (P : 0 < / y) by (apply Rinv_0_lt_compat; lra). assert (P' : 0 < / y') by (apply Rinv_0_lt_compat; lra).
  apply Rle_trans with (b * uu * y * (2 * / y * / y)).
  - apply Rmult_le_compat; [apply Rabs_pos|apply Rmult_le_pos; lra|lra|]. apply Rmult_le_compat_r; lra.
  - right. field. lra.
Qed.

Lemma near_sqrt a k x' x : 0 <= a -> 0 <= x -> 0 <= x' -> near a (bp (k + k)) x' x -> near a (2 * bp k) (sqrt x') (sqrt x).
Proof.
  unfold near. intros Ha Hx Hx' H. rewrite bpow_plus in H. pose proof (bp_pos k) as B. set (h := bp k) in *.
  rewrite (Rabs_pos_eq x) in H by auto. pose proof (sqrt_pos x) as P. pose proof (sqrt_pos x') as P'. rewrite (Rabs_pos_eq (sqrt x)) by auto.
  pose proof (sqrt_def x Hx) as E. pose proof (sqrt_def x' Hx') as E'. set (q := sqrt x) in *. set (q' := sqrt x') in *.
  assert (Au : 0 <= a * uu) by (pose proof uu_pos; nra). set (v := a * uu) in *.
  apply Rabs_le_between in H. apply Rabs_le_between. rewrite <- E, <- E' in H.
  split.
  - destruct (Rle_or_lt (- (v * q + 2 * h)) (q' - q)) as [|C]; auto. exfalso.
    assert (W : q' < q - v * q - 2 * h) by lra. assert (VQ : 0 <= v * q) by nra.
    assert (q' * q' <= q * (q - v * q - 2 * h)) by (apply Rmult_le_compat; lra).
    assert (2 * h * h < 2 * h * q) by (apply Rmult_lt_compat_l; lra). nra.
  - destruct (Rle_or_lt (q' - q) (v * q + 2 * h)) as [|C]; auto. exfalso.
    assert (q + (v * q + 2 * h) < q') by lra.
    assert ((q + (v * q + 2 * h)) * (q + (v * q + 2 * h)) < q' * q') by (apply Rmult_le_0_lt_compat; nra).
    assert (0 <= v * q) by nra. nra.
Qed.

Definition apx (a : R) (e p : Z) (x' : F) (x : R) : Prop :=
  fvalid x' /\ ffin x' /\ near a (bp e) (fval x') x /\ Rabs x <= bp p.
Definition dub (b : R) (q : Z) (y' : F) (y : R) : Prop :=
  fvalid y' /\ ffin y' /\ bp (- q) <= y <= bp q /\ near b 0 (fval y') y.

Lemma big_uu a : a <= bp 42 -> a * uu <= / 2048.
Proof.
  intros H. apply Rle_trans with (bp 42 * uu); [apply Rmult_le_compat_r; [left; apply uu_pos|auto]|].
  unfold uu. rewrite <- bpow_plus. right. change (42 + -53)%Z with (Z.opp 11). rewrite bpow_opp. f_equal.
Qed.
Lemma hundred b : b <= 100 -> b <= bp 42.
Proof. intros H. apply Rle_trans with (bp 7); [|apply bp_le; lia]. change (bp 7) with 128. lra. Qed.
Lemma big_uu' a b : 0 <= a <= bp 42 -> 0 <= b <= 100 -> a * b * uu <= 1 /\ a * uu <= / 2048 /\ b * uu <= / 2048 /\ (a + b + 1) * uu <= 1.
Proof.
  intros H K. pose proof (big_uu a ltac:(lra)) as A. pose proof (big_uu b (hundred b ltac:(lra))) as B. pose proof uu_pos. pose proof uu_small.
  assert (0 <= a * uu) by nra. split; [|split; [auto|split; [auto|nra]]].
  replace (a * b * uu) with (a * uu * b) by ring. apply Rle_trans with (/ 2048 * 100); [apply Rmult_le_compat; lra|lra].
Qed.

Lemma fval_bound a e p x' x : a * uu <= 1 -> (e <= 900)%Z -> (p <= 900)%Z -> near a (bp e) x' x -> Rabs x <= bp p -> Rabs (rnd x') < fmaxR.
Proof.
  unfold near. intros Ha He Hp N B. pose proof (Rabs_pos x).
  apply rnd_fin with (4 * bp 900).
  - assert (bp e <= bp 900) by now apply bp_le. assert (bp p <= bp 900) by now apply bp_le.
    replace x' with ((x' - x) + x) by ring. apply Rle_trans with (1 := Rabs_triang _ _).
    assert (a * uu * Rabs x <= 1 * Rabs x) by (apply Rmult_le_compat_r; lra). lra.
  - change 4 with (bp 2). rewrite <- bpow_plus. apply bp_le. lia.
Qed.

Lemma b32 k : bp (k + 5) = 32 * bp k.
Proof. rewrite bpow_plus. change (bp 5) with 32. ring. Qed.

Lemma apx_mul a b e f p q r x' x y' y : 0 <= a <= bp 42 -> 0 <= b <= bp 42 -> a * b <= bp 52 -> apx a e p x' x -> apx b f q y' y ->
  (e <= 0)%Z -> (f <= 0)%Z -> (0 <= q)%Z -> (p + q <= 900)%Z -> (e + q + 5 <= r)%Z -> (f + p + 5 <= r)%Z -> (-1070 <= r <= 800)%Z ->
  apx (a + b + 3) r (p + q) (fmul x' y') (x * y).
Proof.
  intros Ha Hb Hab (Vx & Fx & Nx & Bx) (Vy & Fy & Ny & By) He Hf Hq Hpq R1 R2 R3.
  pose proof (big_uu a ltac:(lra)) as U2. pose proof (big_uu b ltac:(lra)) as U3. pose proof uu_pos as UP. pose proof uu_small as US.
  assert (U1 : a * b * uu <= 1). { apply Rle_trans with (bp 52 * uu); [apply Rmult_le_compat_r; lra|]. unfold uu. rewrite <- bpow_plus. change 1 with (bp 0). apply bp_le. lia. }
  assert (U4 : (a + b + 1) * uu <= 1) by lra.
  pose proof (bp_pos e) as Pe. pose proof (bp_pos f) as Pf. pose proof (Rabs_pos x) as X0. pose proof (Rabs_pos y) as Y0.
  pose proof (near_mul a b _ _ _ _ _ _ (proj1 Ha) (proj1 Hb) (Rlt_le _ _ Pe) (Rlt_le _ _ Pf) ltac:(lra) ltac:(lra) U1 Nx Ny) as N.
  set (eta := bp e * (2 * Rabs y + bp f) + 2 * bp f * Rabs x) in *.
  assert (E0 : 0 <= eta) by (unfold eta; pose proof (Rmult_le_pos (bp e) (2 * Rabs y + bp f)); pose proof (Rmult_le_pos (2 * bp f) (Rabs x)); lra).
  assert (E1 : eta <= 5 * bp (r - 5)).
  { assert (bp f <= bp q) by (apply bp_le; lia).
    assert (bp e * (2 * Rabs y + bp f) <= bp e * (3 * bp q)) by (apply Rmult_le_compat_l; lra).
    assert (bp f * Rabs x <= bp f * bp p) by (apply Rmult_le_compat_l; lra).
    assert (bp e * bp q <= bp (r - 5)) by (rewrite <- bpow_plus; apply bp_le; lia).
    assert (bp f * bp p <= bp (r - 5)) by (rewrite <- bpow_plus; apply bp_le; lia). unfold eta. lra. }
  assert (E2 : bp r = 32 * bp (r - 5)) by (rewrite <- b32; f_equal; lia). pose proof (bp_pos (r - 5)) as P5.
  assert (Bxy : Rabs (x * y) <= bp (p + q)) by (rewrite Rabs_mult, bpow_plus; apply Rmult_le_compat; auto).
  assert (Fm : Rabs (rnd (fval x' * fval y')) < fmaxR).
  { apply fval_bound with (a + b + 1) r (p + q)%Z (x * y); auto; try lia.
    apply near_weak with (3 := N); lra. }
  destruct (fmul_correct x' y' Vx Vy Fx Fy Fm) as (F1 & F2).
  split; [now apply fmul_valid|]. split; [auto|]. split; auto. rewrite F2.
  assert (A1 : 0 <= a + b + 1) by lra. apply near_weak with (3 := near_rnd _ _ _ _ A1 E0 U4 N); [lra|].
  assert (e0 <= bp (r - 5)) by (unfold e0; apply bp_le; lia). lra.
Qed.

Lemma apx_div a b e p q r x' x y' y : 0 <= a <= bp 42 -> 0 <= b <= 50 -> apx a e p x' x -> dub b q y' y ->
  (e <= 0)%Z -> (0 <= q)%Z -> (p + q <= 900)%Z -> (e + q + 5 <= r)%Z -> (-1070 <= r <= 800)%Z ->
  apx (a + 2 * b + 3) r (p + q) (fdiv x' y') (x / y).
Proof.
  intros Ha Hb (Vx & Fx & Nx & Bx) (Vy & Fy & (By1 & By2) & Ny) He Hq Hpq R1 R3.
  destruct (big_uu' a (2 * b) Ha ltac:(lra)) as (U1 & U2 & U3 & U4).
  pose proof (bp_pos e) as Pe. pose proof (Rabs_pos x) as X0. pose proof (bp_pos (- q)) as Pq.
  assert (BU : b * uu <= 1 / 2) by lra. assert (Y0 : 0 < y) by lra.
  destruct (near_inv b (fval y') y (proj1 Hb) BU Y0 Ny) as (Y' & Ni).
  pose proof (near_mul a (2 * b) _ 0 _ _ _ _ (proj1 Ha) ltac:(lra) (Rlt_le _ _ Pe) ltac:(lra) ltac:(lra) ltac:(lra) U1 Nx Ni) as N.
  assert (Iy : / y <= bp q). { replace q with (- - q)%Z by lia. rewrite bpow_opp. apply Rinv_le_contravar; lra. }
  assert (Iy0 : 0 < / y) by now apply Rinv_0_lt_compat. rewrite (Rabs_pos_eq (/ y)) in N by lra.
  set (eta := bp e * (2 * / y + 0) + 2 * 0 * Rabs x) in *.
  assert (E0 : 0 <= eta) by (unfold eta; pose proof (Rmult_le_pos (bp e) (/ y)); lra).
  assert (E1 : eta <= 5 * bp (r - 5)).
  { assert (bp e * / y <= bp e * bp q) by (apply Rmult_le_compat_l; lra).
    assert (bp e * bp q <= bp (r - 5)) by (rewrite <- bpow_plus; apply bp_le; lia). unfold eta. pose proof (bp_pos (r - 5)). lra. }
  assert (E2 : bp r = 32 * bp (r - 5)) by (rewrite <- b32; f_equal; lia). pose proof (bp_pos (r - 5)) as P5.
  change (x / y) with (x * / y).
  assert (Bxy : Rabs (x * / y) <= bp (p + q)).
  { rewrite Rabs_mult, (Rabs_pos_eq (/ y)), bpow_plus by lra. apply Rmult_le_compat; auto; lra. }
  assert (Fm : Rabs (rnd (fval x' / fval y')) < fmaxR).
  { apply fval_bound with (a + 2 * b + 1) r (p + q)%Z (x * / y); auto; try lia. apply near_weak with (3 := N); lra. }
  destruct (fdiv_correct x' y' Vx Vy Fx Fy ltac:(lra) Fm) as (F1 & F2).
  split; [now apply fdiv_valid|]. split; [auto|]. split; auto. rewrite F2.
  assert (A1 : 0 <= a + 2 * b + 1) by lra. apply near_weak with (3 := near_rnd _ _ _ _ A1 E0 U4 N); [lra|].
  assert (e0 <= bp (r - 5)) by (unfold e0; apply bp_le; lia). lra.
Qed.

Lemma dub_apx b q r y' y : dub b q y' y -> apx b r q y' y.
Proof.
  intros (V & Fi & (B1 & B2) & N). pose proof (bp_pos (- q)). pose proof (bp_pos r). repeat split; auto.
  - apply near_weak with (3 := N); lra.
  - rewrite Rabs_pos_eq; lra.
Qed.

(** a rounded result that is not tiny has a relative error only *)
Lemma near_norm a q x' x : 0 <= a -> a * uu <= 1 -> (q <= 1000)%Z -> bp (- q) <= Rabs x -> near a 0 x' x -> near (a + 3) 0 (rnd x') x.
Proof.
  intros Ha Hu Hq B N. pose proof (near_rnd a 0 x' x Ha (Rle_refl 0) Hu N) as M. unfold near in *. pose proof uu_pos.
  assert (e0 <= uu * Rabs x).
  { apply Rle_trans with (uu * bp (- q)); [|apply Rmult_le_compat_l; lra]. unfold e0, uu. rewrite <- bpow_plus. apply bp_le. lia. }
  lra.
Qed.

Lemma dub_mul a b p q x' x y' y : 0 <= a <= 100 -> 0 <= b <= 100 -> dub a p x' x -> dub b q y' y -> (p + q <= 900)%Z ->
  dub (a + b + 4) (p + q) (fmul x' y') (x * y).
Proof.
  intros Ha Hb (Vx & Fx & (Bx1 & Bx2) & Nx) (Vy & Fy & (By1 & By2) & Ny) Hpq.
  destruct (big_uu' a b) as (U1 & U2 & U3 & U4); [pose proof (hundred a); lra|lra|].
  pose proof (near_mul a b 0 0 _ _ _ _ (proj1 Ha) (proj1 Hb) (Rle_refl 0) (Rle_refl 0) ltac:(lra) ltac:(lra) U1 Nx Ny) as N.
  replace (0 * (2 * Rabs y + 0) + 2 * 0 * Rabs x) with 0 in N by ring.
  pose proof (bp_pos (- p)). pose proof (bp_pos (- q)).
  assert (B1 : bp (- (p + q)) <= x * y) by (replace (- (p + q))%Z with (- p + - q)%Z by lia; rewrite bpow_plus; apply Rmult_le_compat; lra).
  assert (B2 : x * y <= bp (p + q)) by (rewrite bpow_plus; apply Rmult_le_compat; lra).
  pose proof (bp_pos (- (p + q))) as Pp.
  assert (Fm : Rabs (rnd (fval x' * fval y')) < fmaxR).
  { apply fval_bound with (a + b + 1) 0%Z (p + q)%Z (x * y); auto; try lia.
    - apply near_weak with (3 := N); [lra|]. change (bp 0) with 1. lra.
    - rewrite Rabs_pos_eq; lra. }
  destruct (fmul_correct x' y' Vx Vy Fx Fy Fm) as (F1 & F2).
  split; [now apply fmul_valid|]. split; [auto|]. split; [split; auto|]. rewrite F2.
  apply near_weak with (a + b + 1 + 3) 0; [lra|lra|]. apply near_norm with (p + q)%Z; auto; try lia; try lra. rewrite Rabs_pos_eq; lra.
Qed.

Lemma dub_add1 b q y' y : 0 <= b <= 100 -> fvalid y' -> ffin y' -> near b (bp (-100)) (fval y') y -> 0 <= y <= bp q -> (0 <= q <= 800)%Z ->
  forall x' x, dub b (q + 1) x' x -> 1 <= x -> dub (b + 4) (q + 2) (fadd x' y') (x + y).
Proof.
  intros Hb V Fi N (Y0 & Yq) Hq x' x (Vx & Fx & (Bx1 & Bx2) & Nx) X1.
  destruct (big_uu' b b) as (U1 & U2 & U3 & U4); [pose proof (hundred b); lra|lra|].
  assert (Nn : near (b + 1) 0 (fval x' + fval y') (x + y)).
  { unfold near in *. rewrite (Rabs_pos_eq y) in N by lra. rewrite (Rabs_pos_eq x) in Nx by lra. rewrite (Rabs_pos_eq (x + y)) by lra. pose proof uu_pos.
    replace (fval x' + fval y' - (x + y)) with ((fval x' - x) + (fval y' - y)) by ring. apply Rle_trans with (1 := Rabs_triang _ _).
    assert (bp (-100) <= uu) by (unfold uu; apply bp_le; lia). assert (uu * 1 <= uu * (x + y)) by (apply Rmult_le_compat_l; lra). lra. }
  assert (B2 : x + y <= bp (q + 2)). { rewrite bpow_plus. rewrite bpow_plus in Bx2. change (bp 2) with 4. change (bp 1) with 2 in Bx2. pose proof (bp_pos q). lra. }
  assert (U5 : (b + 1) * uu <= 1) by (pose proof uu_pos; nra).
  assert (B1 : bp (- (q + 2)) <= 1) by (change 1 with (bp 0); apply bp_le; lia).
  assert (Fm : Rabs (rnd (fval x' + fval y')) < fmaxR).
  { apply fval_bound with (b + 1) 0%Z (q + 2)%Z (x + y); auto; try lia; try lra.
    - apply near_weak with (3 := Nn); [lra|]. change (bp 0) with 1. lra.
    - rewrite Rabs_pos_eq; lra. }
  destruct (fadd_correct x' y' Vx V Fx Fi Fm) as (F1 & F2).
  split; [now apply fadd_valid|]. split; [auto|]. split; [lra|]. rewrite F2.
  apply near_weak with (b + 1 + 3) 0; [lra|lra|]. apply near_norm with 0%Z; auto; try lia; try lra. change (bp (- 0)) with 1. rewrite Rabs_pos_eq; lra.
Qed.

(** ** the sign of a sum of squares *)
Lemma rnd_0 : rnd 0 = 0. Proof. apply round_0. auto with typeclass_instances. Qed.
Lemma rnd_nonneg x : 0 <= x -> 0 <= rnd x. Proof. intros H. rewrite <- rnd_0. now apply rnd_le. Qed.
Lemma rnd_nonpos x : x <= 0 -> rnd x <= 0. Proof. intros H. pose proof (rnd_le x 0 H) as L. now rewrite rnd_0 in L. Qed.
Lemma rnd_sgn (b : bool) x : (if b then x <= 0 else 0 <= x) -> if b then rnd x <= 0 else 0 <= rnd x.
Proof. destruct b; [apply rnd_nonpos|apply rnd_nonneg]. Qed.

Lemma feval_sign s : forall b, List.Forall tvalid (terms b s) -> List.Forall (fun t => 0 <= tval t) (terms b s) -> ffin (feval s) ->
  if b then fval (feval s) <= 0 else 0 <= fval (feval s).
Proof.
  induction s; intros d V T Fi; simpl in *.
  - inversion T as [|? ? T1 _]; subst. unfold tval in T1; simpl in T1. destruct d; lra.
  - destruct (tvalid_mul _ _ _ _ V) as (Va & Vb & _). destruct (fmul_fin a b Va Vb Fi) as (_ & _ & E). rewrite E. apply rnd_sgn.
    inversion T as [|? ? T1 _]; subst. unfold tval in T1; simpl in T1. destruct d; lra.
  - apply Forall_app in V. apply Forall_app in T. destruct V as (V1 & V2), T as (T1 & T2).
    destruct (fadd_fin _ _ (feval_valid _ _ V1) (feval_valid _ _ V2) Fi) as (F1 & F2 & E). rewrite E. apply rnd_sgn.
    specialize (IHs1 d V1 T1 F1). specialize (IHs2 d V2 T2 F2). destruct d; lra.
  - apply Forall_app in V. apply Forall_app in T. destruct V as (V1 & V2), T as (T1 & T2).
    destruct (fsub_fin _ _ (feval_valid _ _ V1) (feval_valid _ _ V2) Fi) as (F1 & F2 & E). rewrite E. apply rnd_sgn.
    specialize (IHs1 d V1 T1 F1). specialize (IHs2 (negb d) V2 T2 F2). destruct d; simpl in *; lra.
  - destruct (tvalid_mul _ _ _ _ V) as (Va & Vb & V1). inversion T as [|? ? T0 T1]; subst. unfold tval in T0; simpl in T0.
    destruct (ffma_fin a b _ Va Vb (feval_valid _ _ V1) Fi) as (_ & _ & F1 & E). rewrite E. apply rnd_sgn.
    specialize (IHs d V1 T1 F1). destruct d; lra.
  - destruct (tvalid_mul _ _ _ _ V) as (Va & Vb & V1). inversion T as [|? ? T0 T1]; subst. unfold tval in T0; simpl in T0.
    destruct (ffma_fin (fopp a) b _ (fopp_valid a Va) Vb (feval_valid _ _ V1) Fi) as (_ & _ & F1 & E). rewrite E, fopp_val. apply rnd_sgn.
    specialize (IHs d V1 T1 F1). destruct d; simpl in *; lra.
Qed.

(** ** squared norms *)
Definition lsq (v : list R) : R := fold_right (fun d s => d * d + s) 0 v.
Lemma lsq_nonneg v : 0 <= lsq v.
Proof. induction v; simpl; [lra|]. nra. Qed.
Lemma sq_terms v : tsum (map (fun d => (false, TMul d d)) v) = lsq (map fval v) /\ tabs (map (fun d => (false, TMul d d)) v) = lsq (map fval v).
Proof.
  induction v as [|d v (I1 & I2)]; simpl; [auto|]. rewrite I1, I2. unfold tval; simpl.
  rewrite Rmult_1_l, (Rabs_pos_eq (fval d * fval d)) by nra. auto.
Qed.

Lemma lsq_near a e p v' v : 0 <= a <= 10 -> (e <= 0)%Z -> (0 <= p)%Z -> Forall2 (apx a e p) v' v ->
  Rabs (lsq (map fval v') - lsq v) <= (2 * a + 1) * uu * lsq v + INR (length v) * bp (e + p + 3) /\
  lsq v <= INR (length v) * bp (p + p).
Proof.
  intros Ha He Hp H. destruct (big_uu' a a) as (U1 & U2 & U3 & U4); [pose proof (hundred a); lra|lra|].
  induction H as [|d' d v' v (Vd & Fd & Nd & Bd) _ (IH1 & IH2)]; cbn [map lsq fold_right length].
  - change (INR 0) with 0. replace (0 - 0) with 0 by ring. rewrite Rabs_R0. lra.
  - fold (lsq (map fval v')). fold (lsq v). rewrite S_INR. pose proof (bp_pos e) as Pe. pose proof (Rabs_pos d) as D0.
    pose proof (near_mul a a _ _ _ _ _ _ (proj1 Ha) (proj1 Ha) (Rlt_le _ _ Pe) (Rlt_le _ _ Pe) ltac:(lra) ltac:(lra) U1 Nd Nd) as N. unfold near in N.
    rewrite (Rabs_pos_eq (d * d)) in N by nra.
    assert (E1 : bp e * Rabs d <= bp (e + p)) by (rewrite bpow_plus; apply Rmult_le_compat_l; lra).
    assert (E2 : bp e * bp e <= bp (e + p)) by (rewrite <- bpow_plus; apply bp_le; lia).
    assert (E3 : bp (e + p + 3) = 8 * bp (e + p)) by (rewrite bpow_plus; change (bp 3) with 8; ring).
    pose proof (bp_pos (e + p)) as Q.
    split.
    + replace (fval d' * fval d' + lsq (map fval v') - (d * d + lsq v)) with ((fval d' * fval d' - d * d) + (lsq (map fval v') - lsq v)) by ring.
      apply Rle_trans with (1 := Rabs_triang _ _). lra.
    + assert (d * d <= bp (p + p)). { rewrite bpow_plus. rewrite <- (Rabs_pos_eq (d * d)) by nra. rewrite Rabs_mult. apply Rmult_le_compat; auto. }
      lra.
Qed.

Lemma sqnorm_apx m a e p v' v s : small m -> 0 <= a <= 10 -> (e <= 0)%Z -> (0 <= p <= 210)%Z -> (-1060 <= e + p)%Z ->
  INR (length v) <= bp 40 -> Forall2 (apx a e p) v' v -> sqnorm m v' s ->
  apx (2 * INR m + 2 * a + 2) (e + p + 45) (p + p + 40) s (lsq v) /\ 0 <= fval s.
Proof.
  intros Hm Ha He Hp Hep Hl H Hs.
  destruct (lsq_near a e p v' v Ha He (proj1 Hp) H) as (L1 & L2). destruct (sq_terms v') as (T1 & T2).
  pose proof (small_uu' m Hm) as Mu. pose proof uu_pos as Up. pose proof (lsq_nonneg v) as L0. pose proof (lsq_nonneg (map fval v')) as L0'.
  assert (Vt : List.Forall tvalid (map (fun d => (false, TMul d d)) v')).
  { apply Forall_forall. intros t Ht. apply in_map_iff in Ht. destruct Ht as (d & <- & Hd).
    assert (X : fvalid d). { clear -H Hd. induction H as [|d' x v' v (V & _) _ IH]; destruct Hd; subst; auto. } split; exact X. }
  assert (Ft : List.Forall tfin (map (fun d => (false, TMul d d)) v')).
  { apply Forall_forall. intros t Ht. apply in_map_iff in Ht. destruct Ht as (d & <- & Hd).
    assert (X : ffin d). { clear -H Hd. induction H as [|d' x v' v (_ & V & _) _ IH]; destruct Hd; subst; auto. } split; exact X. }
  pose proof (bp_pos (e + p + 3)) as P3. pose proof (pos_INR (length v)) as N0.
  set (c := INR (length v) * bp (e + p + 3)) in *. assert (C0 : 0 <= c) by (unfold c; nra).
  assert (Lb : lsq v <= bp (p + p + 40)).
  { apply Rle_trans with (1 := L2). replace (p + p + 40)%Z with (40 + (p + p))%Z by lia. rewrite (bpow_plus _ 40). apply Rmult_le_compat_r; [apply bpow_ge_0|auto]. }
  assert (Cb : c <= bp (e + p + 43)).
  { unfold c. replace (e + p + 43)%Z with (40 + (e + p + 3))%Z by lia. rewrite (bpow_plus _ 40). apply Rmult_le_compat_r; lra. }
  assert (Au : (2 * a + 1) * uu <= 1) by (pose proof uu_small; nra).
  assert (Lv' : lsq (map fval v') <= 2 * lsq v + c).
  { apply Rabs_le_between in L1. assert ((2 * a + 1) * uu * lsq v <= 1 * lsq v) by (apply Rmult_le_compat_r; lra). lra. }
  assert (Fs : ffin s).
  { apply (sum_of_fin m _ s Hm Vt Ft Hs). rewrite T2. apply Rle_trans with (1 := Lv').
    assert (bp (p + p + 40) <= bp 800) by (apply bp_le; lia). assert (bp (e + p + 43) <= bp 800) by (apply bp_le; lia).
    assert (bp 990 = bp 190 * bp 800) by (rewrite <- bpow_plus; f_equal). assert (bp 2 <= bp 190) by (apply bp_le; lia). change (bp 2) with 4 in *. pose proof (bp_pos 800). nra. }
  pose proof (sum_of_error m _ s Hm Vt Hs Fs) as E. rewrite T1, T2 in E.
  assert (S0 : 0 <= fval s).
  { destruct Hs as (st & zs & Pm & Z & O & ->). destruct (zeros_sum zs Z) as (_ & _ & Z3 & _).
    apply (feval_sign st false); auto.
    - eapply Permutation.Permutation_Forall; [apply Permutation.Permutation_sym; exact Pm|]. apply Forall_app. auto.
    - eapply Permutation.Permutation_Forall; [apply Permutation.Permutation_sym; exact Pm|]. apply Forall_app. split.
      + apply Forall_forall. intros t Ht. apply in_map_iff in Ht. destruct Ht as (d & <- & _). unfold tval; simpl. nra.
      + apply Forall_forall. intros t Ht. rewrite Forall_forall in Z. specialize (Z t Ht). unfold tval. rewrite Z. change (fval f0) with 0. lra. }
  split; auto. split; [apply (sum_of_valid m _ s Vt Hs)|]. split; auto. split; [|rewrite Rabs_pos_eq; auto].
  unfold near. rewrite (Rabs_pos_eq (lsq v)) by auto.
  replace (fval s - lsq v) with ((fval s - lsq (map fval v')) + (lsq (map fval v') - lsq v)) by ring.
  apply Rle_trans with (1 := Rabs_triang _ _).
  assert (M0 : 0 <= INR m * uu) by lra.
  assert (V2 : lsq (map fval v') <= lsq v + (2 * a + 1) * uu * lsq v + c) by (apply Rabs_le_between in L1; lra).
  assert (K1 : 2 * INR m * uu * lsq (map fval v') <= 2 * (INR m * uu) * (lsq v + (2 * a + 1) * uu * lsq v + c)).
  { rewrite (Rmult_assoc 2). apply Rmult_le_compat_l; lra. }
  assert (UL : 0 <= uu * lsq v) by (apply Rmult_le_pos; lra).
  assert (K2 : INR m * uu * ((2 * a + 1) * uu * lsq v) <= / 8192 * (21 * (uu * lsq v))).
  { apply Rmult_le_compat; try lra; [apply Rmult_le_pos; [apply Rmult_le_pos|]; lra|]. rewrite Rmult_assoc. apply Rmult_le_compat_r; lra. }
  assert (K3 : INR m * uu * c <= / 8192 * c) by (apply Rmult_le_compat_r; lra).
  assert (K4 : 2 * INR m * e0 <= bp (e + p + 43)).
  { unfold small in Hm. rewrite bpow_pos_IZR in Hm by lia. pose proof e0_pos. apply Rle_trans with (2 * bp 40 * e0); [apply Rmult_le_compat_r; lra|].
    change 2 with (bp 1). unfold e0. rewrite <- !bpow_plus. apply bp_le. lia. }
  assert (K5 : bp (e + p + 45) = 4 * bp (e + p + 43)). { replace (e + p + 45)%Z with (e + p + 43 + 2)%Z by lia. rewrite (bpow_plus _ _ 2). change (bp 2) with 4. ring. }
  pose proof (bp_pos (e + p + 43)). lra.
Qed.

Lemma fsub_apx x y : fvalid x -> ffin x -> Rabs (fval x) <= bp 100 -> fvalid y -> ffin y -> Rabs (fval y) <= bp 100 ->
  apx 1 (-1060) 101 (fsub x y) (fval x - fval y).
Proof.
  intros Vx Fx Bx Vy Fy By.
  assert (B : Rabs (fval x - fval y) <= bp 101).
  { unfold Rminus. apply Rle_trans with (1 := Rabs_triang _ _). rewrite Rabs_Ropp. change 101%Z with (100 + 1)%Z. rewrite bpow_plus. change (bp 1) with 2. lra. }
  destruct (fsub_correct x y Vx Vy Fx Fy) as (F1 & F2). { apply rnd_fin with (1 := B). apply bp_le. lia. }
  split; [now apply fsub_valid|]. split; auto. split; auto. rewrite F2. unfold near. pose proof (rnd_error (fval x - fval y)).
  assert (e0 <= bp (-1060)) by (unfold e0; apply bp_le; lia). lra.
Qed.

(** a coordinate *)
Definition coord (x : F) : Prop := fvalid x /\ ffin x /\ Rabs (fval x) <= bp 100.
Fixpoint rdiff (x y : fpt) : list R :=
  match x, y with a :: x', b :: y' => fval a - fval b :: rdiff x' y' | _, _ => [] end.
Lemma fvsub_apx x : forall y, List.Forall coord x -> List.Forall coord y -> Forall2 (apx 1 (-1060) 101) (fvsub x y) (rdiff x y).
Proof.
  induction x as [|a x IH]; intros [|b y] Hx Hy; simpl; try constructor.
  - inversion Hx as [|? ? (A1 & A2 & A3) _]. inversion Hy as [|? ? (B1 & B2 & B3) _]. subst. now apply fsub_apx.
  - inversion Hx. inversion Hy. subst. now apply IH.
Qed.
Fixpoint rquot (v : list R) (e : fpt) : list R :=
  match v, e with a :: v', b :: e' => a / fval b :: rquot v' e' | _, _ => [] end.
(** a length scale *)
Definition scale (l : F) : Prop := fvalid l /\ ffin l /\ bp (-100) <= fval l <= bp 100.
Lemma scale_dub l : scale l -> dub 0 100 l (fval l).
Proof. intros (V & Fi & B). split; auto. split; auto. split; auto. unfold near. replace (fval l - fval l) with 0 by ring. rewrite Rabs_R0. lra. Qed.
Lemma fvquot_apx v' : forall v ell, Forall2 (apx 1 (-1060) 101) v' v -> List.Forall scale ell -> Forall2 (apx 4 (-955) 201) (fvquot v' ell) (rquot v ell).
Proof.
  induction v' as [|a v' IH]; intros v ell H He; inversion H as [|? d ? w Ha Hv]; subst; destruct ell as [|b ell]; simpl; try constructor.
  - inversion He as [|? ? Hb _]; subst. change 201%Z with (101 + 100)%Z. replace 4 with (1 + 2 * 0 + 3) by ring.
    apply apx_div with (-1060)%Z; auto; try lia; try lra.
    + split; [lra|]. apply hundred. lra.
    + now apply scale_dub.
  - inversion He; subst. now apply IH.
Qed.
Lemma rdiff_length x : forall y, length x = length y -> length (rdiff x y) = length x.
Proof. induction x; intros [|b y] H; simpl in *; auto; try discriminate; now rewrite IHx by lia. Qed.
Lemma rquot_length v : forall y, length v = length y -> length (rquot v y) = length v.
Proof. induction v; intros [|b y] H; simpl in *; auto; try discriminate; now rewrite IHv by lia. Qed.

Lemma apx_exact e p x : fvalid x -> ffin x -> Rabs (fval x) <= bp p -> apx 0 e p x (fval x).
Proof.
  intros V Fi B. split; auto. split; auto. split; auto. unfold near. replace (fval x - fval x) with 0 by ring. rewrite Rabs_R0.
  pose proof (bp_pos e). lra.
Qed.
Lemma apx_bound a e p x' x : 0 <= a <= bp 42 -> (e <= 0)%Z -> (0 <= p)%Z -> apx a e p x' x -> Rabs (fval x') <= bp (p + 2).
Proof.
  intros Ha He Hp (_ & _ & N & B). unfold near in N. pose proof (big_uu a ltac:(lra)) as U. pose proof uu_pos. pose proof (Rabs_pos x).
  replace (fval x') with ((fval x' - x) + x) by ring. apply Rle_trans with (1 := Rabs_triang _ _).
  assert (a * uu * Rabs x <= / 2048 * Rabs x) by (apply Rmult_le_compat_r; lra).
  assert (bp e <= bp p) by (apply bp_le; lia). rewrite bpow_plus. change (bp 2) with 4. pose proof (bp_pos p). lra.
Qed.

Lemma fof_val z : (1 <= z <= 8)%Z -> fvalid (fof z) /\ ffin (fof z) /\ fval (fof z) = IZR z.
Proof.
  intros H. assert (E : z = 1%Z \/ z = 2%Z \/ z = 3%Z \/ z = 4%Z \/ z = 5%Z \/ z = 6%Z \/ z = 7%Z \/ z = 8%Z) by lia.
  split; [apply fofZe_valid|].
  repeat (destruct E as [->|E]; [split; [reflexivity|cbv -[IZR F2R bpow]; unfold F2R; simpl; lra]|]).
  rewrite E. split; [reflexivity|cbv -[IZR F2R bpow]; unfold F2R; simpl; lra].
Qed.
Lemma fof_dub z : (1 <= z <= 8)%Z -> dub 0 3 (fof z) (IZR z).
Proof.
  intros H. destruct (fof_val z H) as (V & Fi & E). split; auto. split; auto. split.
  - split; [apply Rle_trans with 1; [change 1 with (bp 0); apply bp_le; lia|apply IZR_le; lia]|]. change (bp 3) with 8. apply IZR_le. lia.
  - unfold near. rewrite E. replace (IZR z - IZR z) with 0 by ring. rewrite Rabs_R0. lra.
Qed.
Lemma fsqrt_dub z : (1 <= z <= 8)%Z -> dub 3 3 (fsqrt (fof z)) (sqrt (IZR z)).
Proof.
  intros H. destruct (fof_val z H) as (V & Fi & E). assert (Z1 : 1 <= IZR z) by (apply IZR_le; lia). assert (Z8 : IZR z <= 8) by (apply IZR_le; lia).
  destruct (fsqrt_correct (fof z) V Fi ltac:(lra)) as (F1 & F2). rewrite E in F2.
  assert (S1 : 1 <= sqrt (IZR z)) by (rewrite <- sqrt_1; apply sqrt_le_1_alt; lra).
  assert (S8 : sqrt (IZR z) <= 8). { apply Rle_trans with (sqrt (8 * 8)); [apply sqrt_le_1_alt; lra|]. rewrite sqrt_square; lra. }
  split; [now apply fsqrt_valid|]. split; auto. split.
  - change (bp 3) with 8. split; auto. apply Rle_trans with 1; auto. change 1 with (bp 0). apply bp_le. lia.
  - rewrite F2. apply near_weak with (0 + 3) 0; [lra|lra|]. apply near_norm with 0%Z; try lra; try lia.
    + change (bp (- 0)) with 1. rewrite Rabs_pos_eq; lra.
    + unfold near. replace (sqrt (IZR z) - sqrt (IZR z)) with 0 by ring. rewrite Rabs_R0. lra.
Qed.
Lemma fsqrt_apx a k p x' x : 0 <= a <= bp 42 -> apx a (k + k) (p + p) x' x -> 0 <= x -> 0 <= fval x' -> (-1000 <= k <= 0)%Z ->
  apx (a + 2) (k + 3) p (fsqrt x') (sqrt x) /\ 0 <= fval (fsqrt x').
Proof.
  intros Ha (V & Fi & N & B) Hx Hx' Hk. destruct (fsqrt_correct x' V Fi Hx') as (F1 & F2).
  pose proof (near_sqrt a k _ _ (proj1 Ha) Hx Hx' N) as Ns. pose proof (big_uu a ltac:(lra)) as U. pose proof (bp_pos k) as Pk.
  split; [|rewrite F2; apply rnd_nonneg, sqrt_pos].
  split; [now apply fsqrt_valid|]. split; auto. split.
  - rewrite F2. apply near_weak with (3 := near_rnd a (2 * bp k) _ _ (proj1 Ha) ltac:(lra) ltac:(lra) Ns); [lra|].
    assert (e0 <= bp k) by (unfold e0; apply bp_le; lia). rewrite bpow_plus. change (bp 3) with 8. lra.
  - rewrite Rabs_pos_eq by apply sqrt_pos. rewrite Rabs_pos_eq in B by auto. rewrite bpow_plus in B.
    apply Rle_trans with (sqrt (bp p * bp p)); [now apply sqrt_le_1_alt|]. rewrite sqrt_square; [lra|apply bpow_ge_0].
Qed.
Lemma mhalf_apx : apx 0 (-1000) 0 mhalf (- (1 / 2)).
Proof.
  assert (E : fval mhalf = - (1 / 2)) by (cbv -[IZR F2R bpow]; unfold F2R; simpl; lra). rewrite <- E. apply apx_exact; try reflexivity.
  rewrite E, Rabs_Ropp, Rabs_pos_eq by lra. change (bp 0) with 1. lra.
Qed.
