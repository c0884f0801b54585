(** C75: the variance of a GP in double precision is set to 0 when it is at most 2^-52
    (gp.hpp:623); with a small signal variance this removes the uncertainty everywhere. *)
From Coq Require Import ZArith List Bool Lia Reals Lra.
From Coq Require Import Floats.SpecFloat.
From Flocq Require Import Core IEEE754.BinarySingleNaN.
From Coquelicot Require Import Coquelicot.
From Verif Require Import F64 F64R AdamFloat OptFloat FpModel FpErr LinAlgModel LinAlg FpAlg FpChol FpSolve FpGp FpFin Prop_Fp.
From Verif Require Import KernelModel KernelFacts FpKerModel FpKer FpKer2 Prop_FpKer Prop_FpLik FpLikModel FpLik FpAcqModel.
From Verif Require Import AcquiModel Prop_EI Prop_Acqui2 FpAcq FpLip Prop_FpAcq.
From Verif Require Import OptModel OptFacts OptSpec Prop_Opt Prop_Next.
Import ListNotations.
Open Scope R_scope.

(** ** Above the threshold *)
Theorem C75_variance_kept_partial : forall fexp mk d sf2 noise p n pts m L y x,
  usual fexp mk d sf2 noise p n pts -> INR m <= 3000 -> gp_of fexp mk sf2 noise p n pts m L y x ->
  (forall i, (i < n)%nat -> dbl (2 ^ 200) (y i)) -> 11 / 10 ^ 7 <= var_floor sf2 noise n ->
  exists B, is_inv n (noisy (K_of sf2 p pts) (nugget noise)) B /\
  forall v mv mu sigma_sq, point d v -> dbl (2 ^ 200) mv ->
    query_at fexp mk sf2 noise p n pts m L x mv v mu sigma_sq ->
    0 < fval sigma_sq /\ Rabs (fval sigma_sq - post_var sf2 p n pts B v) <= 10 / 11 * post_var sf2 p n pts B v /\ flt (fsqrt sigma_sq) cutoff = false.
Proof.
  intros fexp mk d sf2 noise p n pts m L y x HU Hm HG Hy VF. destruct (C73_variance_floor _ _ _ _ _ _ _ _ HU) as (B & HB & FL). exists B. split; auto.
  intros v mv mu sg Hv Hmv Q. pose proof (FL v Hv) as V. fold (var_floor sf2 noise n) in V.
  destruct (query_at_ok _ _ _ _ _ _ _ _ _ _ _ _ B HU Hm HG Hy HB v mv mu sg Hv Hmv Q) as (_ & _ & _ & V2 & F2 & P2 & E2).
  set (W := post_var sf2 p n pts B v) in *. assert (A : / 10 ^ 7 <= fval sg) by (apply Rabs_le_inv in E2; lra).
  split; [lra|]. split; [apply Rle_trans with (1 := E2); lra|].
  destruct (fsqrt_correct sg V2 F2 P2) as (Fs & Es). destruct cutoff_val as (Vc & Fc & _). apply flt_R_false; auto; [now apply fsqrt_valid|].
  rewrite Es, <- (rnd_id cutoff Vc). apply rnd_le. apply Rle_trans with (sqrt (/ 10 ^ 5 * / 10 ^ 5)).
  - rewrite sqrt_square by lra. cbv -[IZR F2R bpow Rle Rdiv Rinv pow]; unfold F2R; simpl; lra.
  - apply sqrt_le_1_alt. lra.
Qed.

(** ** Below the threshold *)
Lemma sol_valid fexp mk d sf2 noise p n pts m L y x kf A v kq kvv z : usual fexp mk d sf2 noise p n pts -> INR m <= 3000 -> gp_of fexp mk sf2 noise p n pts m L y x -> point d v ->
  (forall i j, (i < n)%nat -> (j < n)%nat -> computes fexp mk sf2 noise p (pts i) (pts j) (i =? j)%nat (kf i j)) -> built m kf n A L ->
  (forall i, (i < n)%nat -> computes fexp mk sf2 noise p (pts i) v false (kq i)) -> computes fexp mk sf2 noise p v v false kvv ->
  fsolve m n L kq z -> forall i, (i < n)%nat -> fvalid (z i).
Proof.
  intros HU Hm HG Hv H1 H2 Hq Hk Hz. pose proof (values_at fexp mk sf2 noise p n pts kf v kq kvv H1 Hq Hk) as KV. pose proof (usual_at _ _ _ _ _ _ _ _ v HU Hv) as HU'.
  pose proof (C70_factor _ _ _ _ _ _ _ _ _ _ _ m HU' KV Hm) as (_ & _ & HF). destruct (HF A L H2) as (FL & _).
  destruct (usual_values _ _ _ _ _ _ _ _ _ _ _ HU' KV) as (_ & _ & _ & Vq & Vk & _).
  intros i Hi. apply (fsolve_valid m n L kq z); auto; [intros j Hj; now apply Vq|intros i' j Hij; now apply FL].
Qed.

Theorem C75_flush : forall fexp mk d sf2 noise p n pts m L y x v mv mu sigma_sq,
  usual fexp mk d sf2 noise p n pts -> INR m <= 3000 -> gp_of fexp mk sf2 noise p n pts m L y x ->
  (forall i, (i < n)%nat -> dbl (2 ^ 200) (y i)) -> fval sf2 <= / 2 ^ 53 -> point d v -> dbl (2 ^ 200) mv ->
  query_at fexp mk sf2 noise p n pts m L x mv v mu sigma_sq -> sigma_sq = f0.
Proof.
  intros fexp mk d sf2 noise p n pts m L y x v mv mu sg HU Hm HG Hy S53 Hv Hmv Q.
  destruct (inv_exists _ _ _ _ _ _ _ _ HU) as (B & HB).
  destruct (query_at_ok _ _ _ _ _ _ _ _ _ _ _ _ B HU Hm HG Hy HB v mv mu sg Hv Hmv Q) as (_ & _ & _ & V2 & F2 & _).
  destruct Q as (kq & kvv & Hq & Hk & _ & z & res & Hz & Hr & ->). destruct (fle res feps) eqn:E; [reflexivity|]. exfalso.
  pose proof HG as (kf & A & H1 & H2 & H3).
  pose proof (sol_valid _ _ _ _ _ _ _ _ _ _ _ _ _ _ _ _ _ _ HU Hm HG Hv H1 H2 Hq Hk Hz) as Vz.
  destruct HU as (He & Hmk & Hd & Hn & Hs & Hs1 & Hp & Hpts & Vn & Fn & Bn). pose proof (param_pos sf2 Hs) as Sp.
  assert (D52 : 0 <= / 2 ^ 52 <= / 2 ^ 20) by lra.
  assert (M40 : 3000 <= 2 ^ 40) by lra.
  destruct (C70_kernels fexp (/ 2 ^ 52) mk d sf2 noise p v v false kvv He D52 ltac:(lra) Hd Hs Hp Hv Hv Vn Fn ltac:(assert (1 <= 2 ^ 100) by (apply pow_R1_Rle; lra); lra) Hk) as (Vk & Fk & Ek).
  cbv zeta iota in Ek. rewrite !Rplus_0_r, (exact_diag d sf2 p v Hp Hv) in Ek.
  assert (Bk : Rabs (fval kvv - fval sf2) <= / 1000 * fval sf2). { apply Rle_trans with (1 := Ek). apply Rmult_le_compat_r; lra. }
  apply Rabs_le_inv in Bk.
  assert (Sm : small m) by (unfold small; apply Rle_trans with (1 := Hm); apply IZR_le; lia).
  pose proof (dot_error m true kvv 0 n z z res Sm Vk (fun c Hc => conj (Vz c ltac:(lia)) (Vz c ltac:(lia))) Hr F2) as D. cbv iota in D.
  assert (Az : adot 0 n z z = rdot 0 n z z) by (apply rsum_ext; intros c Hc; apply Rabs_pos_eq, Rle_0_sqr).
  assert (Z0 : 0 <= rdot 0 n z z) by (apply rsum_nonneg; intros; apply Rle_0_sqr).
  rewrite Az in D. set (S := rdot 0 n z z) in *. rewrite (Rabs_pos_eq (fval kvv)) in D by lra.
  assert (U : 0 <= 2 * INR m * uu <= / 1000).
  { pose proof uu_pos. pose proof (pos_INR m). split; [apply Rmult_le_pos; lra|]. assert (uu <= / 2 ^ 53) by (change uu with (bp (- Z.of_nat 53)); rewrite bp_inv; lra).
    apply Rle_trans with (6000 * / 2 ^ 53); [|lra]. apply Rmult_le_compat; lra. }
  assert (T : 2 * INR m * uu * (fval kvv + S) <= / 1000 * (fval kvv + S)) by (apply Rmult_le_compat_r; lra).
  assert (E0 : 2 * INR m * e0 <= / 2 ^ 60).
  { pose proof e0_pos. assert (e0 <= / 2 ^ 80) by (rewrite <- (bp_inv 80); apply bp_le; lia). pose proof (pos_INR m). apply Rle_trans with (6000 * / 2 ^ 80); [|lra]. apply Rmult_le_compat; lra. }
  apply Rabs_le_inv in D.
  assert (Ee : fval feps = / 2 ^ 52) by (unfold feps, fval; vm_compute (fofZe 1 (-52)); unfold BinarySingleNaN.SF2R, F2R; simpl; lra).
  assert (K : fle res feps = true) by (apply fle_R; auto; [reflexivity|reflexivity|rewrite Ee; lra]). congruence.
Qed.

(** ** Consequences *)
Lemma sqrt_zero : fsqrt f0 = f0. Proof. reflexivity. Qed.
Theorem C75_ei_zero : forall fexp ferfc fpow2 jitter rewards mu r, ei_of fexp ferfc fpow2 jitter rewards mu f0 r -> r = f0.
Proof. intros fexp ferfc fpow2 jitter rewards mu r H. unfold ei_of in H. cbv zeta in H. rewrite sqrt_zero in H. change (flt f0 cutoff) with true in H. exact H. Qed.
Theorem C75_ucb_mean : forall alpha mu u, fvalid alpha -> ffin alpha -> fvalid mu -> ffin mu -> ucb_of alpha mu f0 u -> fval u = fval mu.
Proof.
  intros alpha mu u Va Fa Vm Fm H. destruct f0_ok as (V0 & F0 & E0). unfold ucb_of in H. rewrite sqrt_zero in H.
  assert (Bm : Rabs (rnd (fval mu)) < bp 1024). { rewrite rnd_id by auto. rewrite <- (toB_R mu Vm). apply abs_B2R_lt_emax. }
  destruct H as [-> | ->].
  - destruct (fmul_correct alpha f0) as (F1 & E1); auto; [rewrite E0, Rmult_0_r, rnd_0, Rabs_R0; apply bpow_gt_0|]. rewrite E0, Rmult_0_r, rnd_0 in E1.
    destruct (fadd_correct mu (fmul alpha f0)) as (_ & E2); auto; [now apply fmul_valid|rewrite E1, Rplus_0_r; exact Bm|]. rewrite E2, E1, Rplus_0_r. now apply rnd_id.
  - destruct (ffma_correct alpha f0 mu) as (_ & E2); auto; rewrite ?E0, ?Rmult_0_r, ?Rplus_0_l in *; auto. rewrite E2. now apply rnd_id.
Qed.
(** the exact expected improvement is positive *)
Lemma ei_pos X s : 0 < s -> 0 < ei_value erfc0 X s.
Proof.
  intros Hs. rewrite ei0_eq. set (g := fun s => X * Phi (X / s) + s * phi (X / s)).
  assert (P : forall z, 0 < phi z). { intros z. unfold phi. apply Rdiv_lt_0_compat; [apply exp_pos|]. pose proof s2pi. lra. }
  destruct (MVT_gen g (s / 2) s (fun t => phi (X / t))) as (c & Hc & E).
  - intros t Ht. rewrite Rmin_left, Rmax_right in Ht by lra. apply ei_ds. lra.
  - intros t Ht. rewrite Rmin_left, Rmax_right in Ht by lra. apply continuity_pt_filterlim, @ex_derive_continuous. exists (phi (X / t)). apply ei_ds. lra.
  - fold (g s). assert (N : 0 <= g (s / 2)).
    { pose proof (ei_nonneg X (s / 2) 0 ltac:(lra) erfc0 erfc0_ok) as H. rewrite Rminus_0_r, ei0_eq in H. exact H. }
    pose proof (P (X / c)). assert (0 < phi (X / c) * (s - s / 2)) by (apply Rmult_lt_0_compat; lra). lra.
Qed.

(** with a signal variance of at most 2^-53, EI is 0 at every point although the exact expected
    improvement is positive, and UCB is the mean whatever alpha although the exact standard deviation is positive *)
Theorem C75_uncertainty_lost : forall fexp mk d sf2 noise p n pts m L y x,
  usual fexp mk d sf2 noise p n pts -> INR m <= 3000 -> gp_of fexp mk sf2 noise p n pts m L y x ->
  (forall i, (i < n)%nat -> dbl (2 ^ 200) (y i)) -> fval sf2 <= / 2 ^ 53 ->
  exists B, is_inv n (noisy (K_of sf2 p pts) (nugget noise)) B /\
  forall v mv mu sigma_sq, point d v -> dbl (2 ^ 200) mv -> query_at fexp mk sf2 noise p n pts m L x mv v mu sigma_sq ->
    0 < post_var sf2 p n pts B v /\
    (forall alpha u, fvalid alpha -> ffin alpha -> ucb_of alpha mu sigma_sq u -> fval u = fval mu) /\
    forall ferfc fpow2 jitter rewards r, ei_of fexp ferfc fpow2 jitter rewards mu sigma_sq r ->
      r = f0 /\ forall t, exists ev, expected_improvement (post_mean sf2 p n pts B y mv v) (sqrt (post_var sf2 p n pts B v)) t ev /\ 0 < ev.
Proof.
  intros fexp mk d sf2 noise p n pts m L y x HU Hm HG Hy S53. destruct (C73_variance_floor _ _ _ _ _ _ _ _ HU) as (B & HB & FL). exists B. split; auto.
  intros v mv mu sg Hv Hmv Q. pose proof (C75_flush _ _ _ _ _ _ _ _ _ _ _ _ _ _ _ _ HU Hm HG Hy S53 Hv Hmv Q) as Es.
  destruct (query_at_ok _ _ _ _ _ _ _ _ _ _ _ _ B HU Hm HG Hy HB v mv mu sg Hv Hmv Q) as (V1 & F1 & _). subst sg.
  pose proof (FL v Hv) as V. fold (var_floor sf2 noise n) in V. pose proof (var_floor_bounds _ _ _ _ _ _ _ _ HU) as VF. pose proof (bp_pos (-118)).
  assert (PV : 0 < post_var sf2 p n pts B v) by lra. split; auto. split.
  - intros alpha u Va Fa Hu. now apply (C75_ucb_mean alpha mu u).
  - intros ferfc fpow2 jitter rewards r Hr. split; [now apply (C75_ei_zero _ _ _ _ _ _ _ Hr)|]. intros t.
    pose proof (sqrt_lt_R0 _ PV) as Sv. exists (ei_value erfc0 (post_mean sf2 p n pts B y mv v - t) (sqrt (post_var sf2 p n pts B v))).
    split; [exact (ei_is_expectation (post_mean sf2 p n pts B y mv v) (sqrt (post_var sf2 p n pts B v)) t Sv erfc0 erfc0_ok)|now apply ei_pos].
Qed.

(** grid search on a function that is 0 everywhere returns the first grid point *)
Section Zero.
  Variables (f : F64.vec -> F) (x0 : F) (xr : list F).
  Let xs := x0 :: xr.
  Lemma scan_zero cand : (forall a, In a xs -> exists t, cand a = GVec t /\ f t = f0) -> grid_scan f cand xs f_lowest GUninit = cand x0.
  Proof.
    intros H. unfold xs. cbn [grid_scan]. destruct (H x0 (or_introl eq_refl)) as (t & -> & ->). change (flt f_lowest f0) with true. cbv zeta iota.
    assert (G : forall l, (forall a, In a l -> In a xs) -> grid_scan f cand l f0 (GVec t) = GVec t).
    { induction l as [|a l IH]; intros Hl; [reflexivity|]. cbn [grid_scan]. destruct (H a (Hl a (or_introl eq_refl))) as (t' & -> & ->). change (flt f0 f0) with false. cbv zeta iota.
      apply IH. intros b Hb. apply Hl. now right. }
    apply G. intros a Ha. now right.
  Qed.
  Lemma inner_zero D : (forall v, length v = D -> List.Forall (fun a => In a xs) v -> f v = f0) ->
    forall k depth cur, length cur = D -> (depth + S k = D)%nat -> List.Forall (fun a => In a xs) (firstn depth cur) ->
    inner_search f xs k depth cur = GVec (firstn depth cur ++ repeat x0 (S k)).
  Proof.
    intros H. induction k as [|k IH]; intros depth cur Hl Hd Hf; cbn [inner_search].
    - assert (N : forall a, set_nth depth a cur = firstn depth cur ++ [a]).
      { intros a. rewrite <- (firstn_all (set_nth depth a cur)), set_nth_length, Hl, <- Hd. replace (depth + 1)%nat with (S depth) by lia. apply set_nth_firstn_S. lia. }
      rewrite scan_zero; [now rewrite N|]. intros a Ha. exists (set_nth depth a cur). split; auto. apply H; [now rewrite set_nth_length|]. rewrite N. apply List.Forall_app. auto.
    - assert (N : forall a, In a xs -> inner_search f xs k (S depth) (set_nth depth a cur) = GVec (firstn depth cur ++ a :: repeat x0 (S k))).
      { intros a Ha. assert (Q : firstn (S depth) (set_nth depth a cur) = firstn depth cur ++ [a]) by (apply set_nth_firstn_S; lia).
        rewrite IH; [|now rewrite set_nth_length|lia|rewrite Q; apply List.Forall_app; auto]. rewrite Q, <- app_assoc. reflexivity. }
      rewrite scan_zero; [apply N; now left|]. intros a Ha. rewrite (N a Ha). eexists. split; [reflexivity|]. apply H.
      + rewrite app_length, firstn_length_le by lia. cbn [length]. rewrite repeat_length. lia.
      + apply List.Forall_app. split; auto. constructor; auto. apply List.Forall_forall. intros b Hb. apply repeat_spec in Hb. subst b. now left.
  Qed.
End Zero.

(** so with EI the next sample is the origin, whatever the data *)
Theorem C75_ei_samples_origin : forall fexp ferfc fpow2 jitter rewards mk d sf2 noise p n pts m L y x mv bins fuel (f : fpt -> F),
  usual fexp mk d sf2 noise p n pts -> INR m <= 3000 -> gp_of fexp mk sf2 noise p n pts m L y x ->
  (forall i, (i < n)%nat -> dbl (2 ^ 200) (y i)) -> fval sf2 <= / 2 ^ 53 -> dbl (2 ^ 200) mv ->
  (1 <= d)%nat -> (1 <= bins <= 2 ^ 20)%Z -> (Z.to_nat bins + 2 < fuel)%nat ->
  (forall v, point d v -> exists mu sigma_sq, query_at fexp mk sf2 noise p n pts m L x mv v mu sigma_sq /\ ei_of fexp ferfc fpow2 jitter rewards mu sigma_sq (f v)) ->
  exists xs, grid_search_xs fuel bins = Some xs /\ grid_search f xs d = GVec (repeat f0 d).
Proof.
  intros fexp ferfc fpow2 jitter rewards mk d sf2 noise p n pts m L y x mv bins fuel f HU Hm HG Hy S53 Hmv Hd Hb Hfu Hf.
  destruct (C16_grid_search_values_partial bins fuel Hb Hfu) as (xs & E & Hl & _ & _). exists xs. split; auto.
  destruct (grid_near bins fuel xs Hb Hfu E) as (G1 & _).
  assert (Hx : exists xr, xs = f0 :: xr).
  { unfold grid_search_xs in E. cbv zeta in E. destruct fuel as [|k]; [lia|]. cbn [steps_lt] in E. destruct (flt f0 _); [|injection E as <-; cbn in Hl; lia].
    destruct (steps_lt k _ _ _) as [l|]; [|discriminate]. injection E as <-. eauto. }
  destruct Hx as (xr & ->). destruct d as [|k]; [lia|]. unfold grid_search.
  rewrite (inner_zero f f0 xr (S k)); [reflexivity| |apply repeat_length|lia|constructor].
  intros v Hv Fv. assert (Pv : point (S k) v).
  { split; auto. intros a Ha. rewrite List.Forall_forall in Fv. destruct (G1 a (Fv a Ha)) as (A1 & A2 & A3). split; auto. split; auto.
    assert (3 <= 2 ^ 100) by (apply Rle_trans with (2 ^ 2); [lra|]; apply Rle_pow; [lra|lia]). rewrite Rabs_pos_eq; lra. }
  destruct (Hf v Pv) as (mu & sg & Q & He). rewrite (C75_flush _ _ _ _ _ _ _ _ _ _ _ _ _ _ _ _ HU Hm HG Hy S53 Pv Hmv Q) in He. now apply C75_ei_zero in He.
Qed.

(** ** Concrete cases *)
Lemma floor_example : 11 / 10 ^ 7 <= var_floor f1 ex_noise 2.
Proof.
  assert (E1 : fval f1 = 1) by (cbv -[IZR F2R bpow]; unfold F2R; simpl; lra).
  assert (En : 99 / 10000 <= fval ex_noise <= 9 / 10) by (cbv -[IZR F2R bpow Rle Rdiv]; unfold F2R; simpl; lra).
  unfold var_floor, nugget. rewrite E1. cbn [INR]. assert (I : / 10 <= / (fval ex_noise + / 100000000 + (1 + 1) * 1)) by (apply Rinv_le_contravar; lra).
  unfold Rdiv at 2. apply Rle_trans with (99 / 10000 * / 10); [lra|]. apply Rmult_le_compat; lra.
Qed.
(** the GP of C74_example *)
Example C75_kept_example : exists L y x mu sigma_sq, let p := PMatern5 f1 in
  usual best_exp 4 2 f1 ex_noise p 2 ex_pts /\ gp_of best_exp 4 f1 ex_noise p 2 ex_pts 4 L y x /\
  (forall i, (i < 2)%nat -> dbl (2 ^ 200) (y i)) /\ 11 / 10 ^ 7 <= var_floor f1 ex_noise 2 /\ dbl 1 fhalf /\ point 2 (ex_pts 2) /\
  query_at best_exp 4 f1 ex_noise p 2 ex_pts 4 L x fhalf (ex_pts 2) mu sigma_sq.
Proof.
  destruct (C73_example (PMatern5 f1) ltac:(cbn; tauto)) as (L & y & x & rw & mu & sg & _ & _ & HU & S1 & HG & Hy & _ & _ & D1 & P1 & D0 & Dh & Pt & HR & Q & _).
  exists L, y, x, mu, sg. cbv zeta. split; auto. split; auto. split; auto. split; [apply floor_example|]. auto.
Qed.

(** the signal variance 2^-60 (hyper-parameter log sigma = -20.8), one sample *)
Definition tiny_sf2 : F := fofZe 1 (-60).
Example C75_tiny_gp : forall p, In p [PExp f1; PMatern3 f1; PMatern5 f1; PArd [f1; fofZe 1 (-1)]] -> exists L y x (f : fpt -> F),
  usual best_exp 4 2 tiny_sf2 ex_noise p 1 ex_pts /\ gp_of best_exp 4 tiny_sf2 ex_noise p 1 ex_pts 4 L y x /\
  (forall i, (i < 1)%nat -> dbl (2 ^ 200) (y i)) /\ fval (y 0%nat) = 1 /\ fval tiny_sf2 <= / 2 ^ 53 /\ dbl (2 ^ 200) fhalf /\
  (forall v, point 2 v -> exists mu sigma_sq, query_at best_exp 4 tiny_sf2 ex_noise p 1 ex_pts 4 L x fhalf v mu sigma_sq /\
     ei_of best_exp best_erfc best_pow2 f0 [f0] mu sigma_sq (f v)) /\
  (Z.to_nat 4 + 2 < 7)%nat.
Proof.
  intros p Hp. destruct (C70_example p Hp) as (HU1 & _).
  assert (Et : fval tiny_sf2 = / 2 ^ 60) by (unfold tiny_sf2, fval; vm_compute (fofZe 1 (-60)); unfold SF2R, F2R; simpl; lra).
  assert (E1 : fval f1 = 1) by (cbv -[IZR F2R bpow]; unfold F2R; simpl; lra). destruct half_val as (Vh & Fh & Eh).
  assert (HU : usual best_exp 4 2 tiny_sf2 ex_noise p 1 ex_pts).
  { destruct HU1 as (A1 & A2 & A3 & A4 & A5 & A6 & A7 & A8 & A9). split; auto. split; auto. split; auto. split; [lia|].
    split; [split; [reflexivity|split; [reflexivity|rewrite Et; assert (1 <= 2 ^ 100) by (apply pow_R1_Rle; lra); split; lra]]|].
    split; [rewrite Et; lra|]. split; auto. }
  assert (Kp : kpar_ok 2 p) by apply HU. assert (Pt : forall i, (i <= 1)%nat -> point 2 (ex_pts i)) by (intros; now apply HU).
  set (kv := fun v w same => kval best_exp tiny_sf2 ex_noise p v w same).
  assert (KO : forall v w same, point 2 v -> point 2 w -> computes best_exp 4 tiny_sf2 ex_noise p v w same (kv v w same)) by (intros; apply kval_ok with 2%nat; auto).
  set (kf := fun i j => kv (ex_pts i) (ex_pts j) (i =? j)%nat).
  assert (KV : kernel_values best_exp 4 tiny_sf2 ex_noise p 1 ex_pts kf (fun i => kv (ex_pts i) (ex_pts 1) false) (kv (ex_pts 1) (ex_pts 1) false)).
  { split; [|split]; intros; apply KO; apply Pt; lia. }
  destruct (C70_factor _ _ _ _ _ _ _ _ _ _ _ 4%nat HU KV ltac:(simpl; lra)) as (_ & HL & _). destruct (HL ltac:(lia)) as (L & HLL).
  set (so := fun b : fvec => fun _ : nat => fdiv (feval (chain (b 0%nat) [])) (L 0%nat 0%nat)).
  assert (So : forall b, fsolve 4 1 L b (so b)). { intros b i Hi. assert (i = 0%nat) by lia. subst i. eexists. split; [apply chain_ok; cbn; lia|left; reflexivity]. }
  assert (Bo : forall b, bsolve 4 1 L b (so b)). { intros b i Hi. assert (i = 0%nat) by lia. subst i. eexists. split; [apply chain_ok; cbn; lia|left; reflexivity]. }
  set (y := fun _ : nat => f1). set (x := so (so y)).
  set (kq := fun (v : fpt) i => kv (ex_pts i) v false).
  set (res := fun v => feval (line ((false, TNum (kv v v false)) :: map (fun q => (true, TMul (fst q) (snd q))) (prods 0 1 (so (kq v)) (so (kq v)))))).
  set (mu := fun v => feval (line ((false, TNum fhalf) :: map (fun q => (false, TMul (fst q) (snd q))) (prods 0 1 (kq v) x)))).
  set (sg := fun v => if fle (res v) feps then f0 else res v).
  assert (P2 : 1 <= 2 ^ 200) by (apply pow_R1_Rle; lra).
  assert (HG : gp_of best_exp 4 tiny_sf2 ex_noise p 1 ex_pts 4 L y x).
  { exists kf, (kernel_full kf). split; [intros; apply KO; apply Pt; lia|]. split; [now constructor|]. exists (so y). split; [apply So|apply Bo]. }
  assert (Hy : forall i, (i < 1)%nat -> dbl (2 ^ 200) (y i)) by (intros; split; [reflexivity|split; [reflexivity|unfold y; rewrite E1, Rabs_pos_eq; lra]]).
  assert (Hh : dbl (2 ^ 200) fhalf) by (split; auto; split; auto; rewrite Eh, Rabs_pos_eq; lra).
  assert (Q : forall v, point 2 v -> query_at best_exp 4 tiny_sf2 ex_noise p 1 ex_pts 4 L x fhalf v (mu v) (sg v)).
  { intros v Hv. exists (kq v), (kv v v false). split; [intros i Hi; apply KO; auto; apply Pt; lia|]. split; [now apply KO|].
    split; [apply line_ok; cbn; lia|]. exists (so (kq v)), (res v). split; [apply So|]. split; [apply line_ok; cbn; lia|reflexivity]. }
  assert (T53 : fval tiny_sf2 <= / 2 ^ 53) by (rewrite Et; lra).
  exists L, y, x, (fun _ => f0). split; auto. split; auto. split; auto. split; [exact E1|]. split; auto. split; auto.
  split; [|cbn; lia]. intros v Hv. exists (mu v), (sg v). split; [now apply Q|].
  assert (Hm : INR 4 <= 3000) by (simpl; lra). rewrite (C75_flush _ _ _ _ _ _ _ _ _ _ _ _ _ _ _ _ HU Hm HG Hy T53 Hv Hh (Q v Hv)). reflexivity.
Qed.
(** the full claim, that the computed variance is positive like the exact one, is false *)
Theorem C75_variance_kept_refuted : exists fexp mk d sf2 noise p n pts m L y x v mv mu sigma_sq B,
  usual fexp mk d sf2 noise p n pts /\ INR m <= 3000 /\ gp_of fexp mk sf2 noise p n pts m L y x /\
  (forall i, (i < n)%nat -> dbl (2 ^ 200) (y i)) /\ is_inv n (noisy (K_of sf2 p pts) (nugget noise)) B /\ point d v /\ dbl (2 ^ 200) mv /\
  query_at fexp mk sf2 noise p n pts m L x mv v mu sigma_sq /\ 0 < post_var sf2 p n pts B v /\ fval sigma_sq = 0.
Proof.
  destruct (C75_tiny_gp (PExp f1) ltac:(cbn; tauto)) as (L & y & x & f & HU & HG & Hy & _ & T & Hh & Q & _).
  assert (Hm : INR 4 <= 3000) by (simpl; lra).
  destruct (C75_uncertainty_lost _ _ _ _ _ _ _ _ _ _ _ _ HU Hm HG Hy T) as (B & HB & H).
  assert (Pt : point 2 (ex_pts 0)) by (apply HU; lia). destruct (Q _ Pt) as (mu & sg & Qq & _). destruct (H _ _ _ _ Pt Hh Qq) as (PV & _).
  exists best_exp, 4%nat, 2%nat, tiny_sf2, ex_noise, (PExp f1), 1%nat, ex_pts, 4%nat, L, y, x, (ex_pts 0), fhalf, mu, sg, B.
  split; auto. split; auto. split; auto. split; auto. split; auto. split; auto. split; auto. split; auto. split; auto.
  rewrite (C75_flush _ _ _ _ _ _ _ _ _ _ _ _ _ _ _ _ HU Hm HG Hy T Pt Hh Qq). apply f0_ok.
Qed.
