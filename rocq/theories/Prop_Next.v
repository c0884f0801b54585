(** C74: grid search on the computed UCB or EI finds a point close to the maximum of the exact
    acquisition function over the whole unit box. *)
From Coq Require Import ZArith List Bool Lia Reals Lra.
From Coq Require Import Floats.SpecFloat.
From Flocq Require Import Core.
From Verif Require Import F64 F64R AdamFloat OptFloat FpModel FpErr LinAlgModel LinAlg FpAlg FpChol FpSolve FpGp FpFin Prop_Fp.
From Verif Require Import KernelModel KernelFacts FpKerModel FpKer FpKer2 Prop_FpKer Prop_FpLik FpLikModel FpLik FpAcqModel.
From Verif Require Import AcquiModel Prop_EI Prop_Acqui2 FpAcq FpLip Prop_FpAcq.
From Verif Require Import OptModel OptSpec Prop_Opt.
Import ListNotations.
Open Scope R_scope.

(** ** Specification *)
(** the points of the unit box *)
Definition box (d : nat) (w : fpt) : Prop := length w = d /\ forall a, In a w -> fvalid a /\ ffin a /\ 0 <= fval a <= 1.
(** the distance of two points with coordinates within [h], in units of the kernel *)
Definition gap (p : kpar) (d : nat) (h lam : R) : R := sqrt (slope p * INR d) * (h / lam).
(** half the distance of neighbouring grid values, and what their rounding adds *)
Definition half_cell (bins : Z) : R := / (2 * IZR bins) + / 2 ^ 28.
(** the smallest exact variance possible *)
Definition var_floor (sf2 noise : F) (n : nat) : R := fval sf2 * nugget noise / (nugget noise + INR n * fval sf2).

(** ** The exact posterior does not change much between two close points *)
Lemma abs_le_sq a b : 0 <= b -> a * a <= b * b -> Rabs a <= b.
Proof. intros Hb H. apply Rsqr_incr_0_var; auto. rewrite <- Rsqr_abs. exact H. Qed.
Lemma slope_pos p : 0 < slope p. Proof. destruct p; cbn; lra. Qed.

Section Lip.
  Variables (fexp : F -> F) (mk d : nat) (sf2 noise : F) (p : kpar) (n : nat) (pts : nat -> fpt) (y : fvec) (B : nat -> nat -> R) (h lam : R).
  Hypothesis HU : usual fexp mk d sf2 noise p n pts.
  Hypothesis HB : is_inv n (noisy (K_of sf2 p pts) (nugget noise)) B.
  Hypothesis Hh : 0 <= h.
  Hypothesis Hl : 0 < lam.
  Hypothesis HL : forall l, In l (scales p) -> lam <= fval l.

  Lemma gap_nonneg : 0 <= gap p d h lam.
  Proof. apply Rmult_le_pos; [apply sqrt_pos|]. apply Rmult_le_pos; auto. left. now apply Rinv_0_lt_compat. Qed.
  Lemma dist2 v w : point d v -> near_pt h v w -> 2 * (fval sf2 - exact sf2 p v w) <= fval sf2 * (gap p d h lam * gap p d h lam).
  Proof.
    intros Hv Hn. destruct HU as (_ & _ & _ & _ & Hs & _ & Hp & _).
    apply Rle_trans with (1 := exact_close d sf2 p v w h lam Hs Hp (proj1 Hv) Hn Hl HL). right. f_equal.
    unfold gap. pose proof (slope_pos p). pose proof (pos_INR d). assert (0 <= slope p * INR d) by (apply Rmult_le_pos; lra).
    replace (sqrt (slope p * INR d) * (h / lam) * (sqrt (slope p * INR d) * (h / lam))) with (sqrt (slope p * INR d) * sqrt (slope p * INR d) * (h / lam * (h / lam))) by ring.
    now rewrite sqrt_def.
  Qed.
  Lemma kernel_lip x v w : point d x -> point d v -> point d w -> near_pt h v w ->
    Rabs (exact sf2 p x v - exact sf2 p x w) <= fval sf2 * gap p d h lam.
  Proof.
    intros Hx Hv Hw Hn. pose proof gap_nonneg as G. pose proof (dist2 v w Hv Hn) as D. destruct HU as (_ & _ & _ & _ & Hs & _ & Hp & _). pose proof (param_pos sf2 Hs) as Sp.
    apply abs_le_sq; [apply Rmult_le_pos; lra|].
    set (P := fun i => match i with 0%nat => x | 1%nat => v | _ => w end).
    pose proof (kernel_two (fval sf2) (fval sf2) (fval sf2) (exact sf2 p x v) (exact sf2 p x w) (fun i j => exact sf2 p (P i) (P j)) Sp) as Q. cbn [P] in Q.
    apply Rle_trans with (fval sf2 * (fval sf2 + fval sf2 - 2 * exact sf2 p v w)).
    - apply Q.
      + intros c. apply Rle_ge. apply (exact_psd d sf2 p 3 P Hs Hp). intros i Hi. destruct i as [|[|i]]; auto.
      + now apply exact_diag with d.
      + now apply exact_diag with d.
      + now apply exact_diag with d.
      + reflexivity.
      + now apply exact_sym with d.
      + reflexivity.
      + now apply exact_sym with d.
      + now apply exact_sym with d.
    - replace (fval sf2 * gap p d h lam * (fval sf2 * gap p d h lam)) with (fval sf2 * (fval sf2 * (gap p d h lam * gap p d h lam))) by ring.
      apply Rmult_le_compat_l; lra.
  Qed.
  Lemma mean_lip v w mv mw : point d v -> point d w -> near_pt h v w ->
    Rabs (post_mean sf2 p n pts B y mv v - post_mean sf2 p n pts B y mw w) <= Rabs (fval mv - fval mw) + weights n B y * (fval sf2 * gap p d h lam).
  Proof.
    intros Hv Hw Hn. unfold post_mean.
    replace (fval mv + rsum n (fun i => exact sf2 p (pts i) v * weight n B y i) - (fval mw + rsum n (fun i => exact sf2 p (pts i) w * weight n B y i)))
      with ((fval mv - fval mw) + rsum n (fun i => (exact sf2 p (pts i) v - exact sf2 p (pts i) w) * weight n B y i)).
    2:{ rewrite (rsum_ext n (fun i => (exact sf2 p (pts i) v - exact sf2 p (pts i) w) * weight n B y i) (fun i => exact sf2 p (pts i) v * weight n B y i - exact sf2 p (pts i) w * weight n B y i)) by (intros; ring).
        rewrite rsum_minus. ring. }
    apply Rle_trans with (1 := Rabs_triang _ _). apply Rplus_le_compat_l. apply Rle_trans with (1 := rsum_abs _ _).
    unfold weights. rewrite <- rsum_scal_r. apply rsum_le. intros i Hi. rewrite Rabs_mult, Rmult_comm. apply Rmult_le_compat_l; [apply Rabs_pos|].
    apply kernel_lip; auto. apply HU. lia.
  Qed.
  Lemma sd_lip v w : point d v -> point d w -> near_pt h v w ->
    Rabs (sqrt (post_var sf2 p n pts B v) - sqrt (post_var sf2 p n pts B w)) <= sqrt (fval sf2) * gap p d h lam.
  Proof.
    intros Hv Hw Hn. pose proof gap_nonneg as G. pose proof (dist2 v w Hv Hn) as D.
    pose proof (post_var_pos fexp mk d sf2 noise p n pts B HU HB v Hv) as Pv. pose proof (post_var_pos fexp mk d sf2 noise p n pts B HU HB w Hw) as Pw.
    destruct HU as (He & Hmk & Hd & Hn' & Hs & Hs1 & Hp & Hpts & Vn & Fn & Bn). pose proof (param_pos sf2 Hs) as Sp.
    apply abs_le_sq; [apply Rmult_le_pos; auto; apply sqrt_pos|].
    replace (sqrt (fval sf2) * gap p d h lam * (sqrt (fval sf2) * gap p d h lam)) with (sqrt (fval sf2) * sqrt (fval sf2) * (gap p d h lam * gap p d h lam)) by ring.
    rewrite sqrt_def by lra.
    set (P := at_ (at_ pts n v) (S n) w). set (K := K_of sf2 p P).
    assert (P1 : forall i, (i < n)%nat -> P i = pts i) by (intros i Hi; unfold P; rewrite !at_lt by lia; reflexivity).
    assert (P2 : P n = v) by (unfold P; rewrite at_lt by lia; apply at_n). assert (P3 : P (S n) = w) by apply at_n.
    assert (PP : forall i, (i < S (S n))%nat -> point d (P i)).
    { intros i Hi. destruct (Nat.lt_trichotomy i n) as [A|[->|A]]; [rewrite P1 by auto; apply Hpts; lia|now rewrite P2|]. replace i with (S n) by lia. now rewrite P3. }
    assert (HB' : is_inv n (noisy K (nugget noise)) B).
    { apply is_inv_ext with (2 := HB). intros i j Hi Hj. unfold noisy, K, K_of. now rewrite !P1. }
    assert (Ev : post_var sf2 p n pts B v = K n n - rsum n (fun i => K i n * rsum n (fun j => B i j * K j n))).
    { unfold K, K_of, post_var. rewrite P2. f_equal. apply rsum_ext. intros i Hi. rewrite P1 by auto. f_equal. apply rsum_ext. intros j Hj. now rewrite P1. }
    assert (Ew : post_var sf2 p n pts B w = K (S n) (S n) - rsum n (fun i => K i (S n) * rsum n (fun j => B i j * K j (S n)))).
    { unfold K, K_of, post_var. rewrite P3. f_equal. apply rsum_ext. intros i Hi. rewrite P1 by auto. f_equal. apply rsum_ext. intros j Hj. now rewrite P1. }
    assert (S2 := sd_two n K B (nugget noise) ltac:(unfold nugget; lra) ltac:(intros i j Hi Hj; apply exact_sym with d; auto) ltac:(now apply exact_psd with d) HB').
    cbv beta zeta in S2. rewrite <- Ev, <- Ew in S2. apply Rle_trans with (1 := S2 Pv Pw).
    replace (K n n) with (fval sf2) by (unfold K, K_of; rewrite P2; symmetry; now apply exact_diag with d).
    replace (K (S n) (S n)) with (fval sf2) by (unfold K, K_of; rewrite P3; symmetry; now apply exact_diag with d).
    unfold K, K_of. rewrite P2, P3. lra.
  Qed.
End Lip.

(** for every two points of coordinates within [h] of each other *)
Theorem C74_modulus : forall fexp mk d sf2 noise p n pts y h lam,
  usual fexp mk d sf2 noise p n pts -> 0 <= h -> 0 < lam -> (forall l, In l (scales p) -> lam <= fval l) ->
  exists B, is_inv n (noisy (K_of sf2 p pts) (nugget noise)) B /\
  forall v w mv, point d v -> point d w -> near_pt h v w ->
    Rabs (post_mean sf2 p n pts B y mv v - post_mean sf2 p n pts B y mv w) <= weights n B y * fval sf2 * gap p d h lam /\
    Rabs (sqrt (post_var sf2 p n pts B v) - sqrt (post_var sf2 p n pts B w)) <= sqrt (fval sf2) * gap p d h lam.
Proof.
  intros fexp mk d sf2 noise p n pts y h lam HU Hh Hl HL. destruct (inv_exists _ _ _ _ _ _ _ _ HU) as (B & HB). exists B. split; auto.
  intros v w mv Hv Hw Hn. split; [|now apply (sd_lip fexp mk d sf2 noise p n pts B h lam)].
  pose proof (mean_lip fexp mk d sf2 noise p n pts y B h lam HU Hh Hl HL v w mv mv Hv Hw Hn) as M. replace (fval mv - fval mv) with 0 in M by ring. rewrite Rabs_R0 in M. lra.
Qed.

(** ** The grid *)
Lemma steps_valid fuel : forall x step lim l, fvalid x -> fvalid step -> steps_lt fuel x step lim = Some l -> forall a, In a l -> fvalid a.
Proof.
  induction fuel as [|k IH]; intros x step lim l Hx Hs H a Ha; cbn in H; [discriminate|]. destruct (flt x lim); [|injection H as <-; destruct Ha].
  destruct (steps_lt k (fadd x step) step lim) as [l'|] eqn:E; [|discriminate]. injection H as <-. destruct Ha as [<-|Ha]; auto.
  now apply (IH (fadd x step) step lim l' (fadd_valid x step Hx Hs) Hs E).
Qed.
Lemma nearest bins t : (1 <= bins)%Z -> 0 <= t <= 1 -> exists k, (k <= Z.to_nat bins)%nat /\ Rabs (t - INR k / IZR bins) <= / (2 * IZR bins).
Proof.
  intros Hb Ht. assert (Pb : 0 < IZR bins) by (apply IZR_lt; lia). set (x := t * IZR bins). set (z := Znearest (fun z => negb (Z.even z)) x).
  pose proof (Znearest_half (fun z => negb (Z.even z)) x) as H. fold z in H. apply Rabs_le_inv in H.
  assert (X : 0 <= x <= IZR bins). { unfold x. split; [apply Rmult_le_pos; lra|]. rewrite <- (Rmult_1_l (IZR bins)) at 2. apply Rmult_le_compat_r; lra. }
  assert (Z0 : (0 <= z)%Z). { apply Z.lt_succ_r. apply lt_IZR. rewrite succ_IZR. lra. }
  assert (Z1 : (z <= bins)%Z). { apply Z.lt_succ_r. apply lt_IZR. rewrite succ_IZR. lra. }
  exists (Z.to_nat z). split; [lia|]. rewrite INR_IZR_INZ, Z2Nat.id by auto.
  replace (t - IZR z / IZR bins) with ((x - IZR z) * / IZR bins) by (unfold x; field; lra).
  rewrite Rabs_mult, (Rabs_pos_eq (/ IZR bins)) by (left; now apply Rinv_0_lt_compat). rewrite Rinv_mult.
  apply Rmult_le_compat_r; [left; now apply Rinv_0_lt_compat|]. apply Rabs_le. lra.
Qed.
Lemma grid_near bins fuel xs : (1 <= bins <= 2 ^ 20)%Z -> (Z.to_nat bins + 2 < fuel)%nat -> grid_search_xs fuel bins = Some xs ->
  (forall a, In a xs -> fvalid a /\ ffin a /\ 0 <= fval a <= 3) /\
  forall w d, box d w -> exists g, on_grid xs d g /\ near_pt (half_cell bins) w g.
Proof.
  intros Hb Hf E. destruct (C16_grid_search_values_partial bins fuel Hb Hf) as (xs' & E' & Hl & _ & H). rewrite E in E'. injection E' as <-.
  assert (Pb : 1 <= IZR bins) by (apply IZR_le; lia). assert (Ib : 0 < / IZR bins <= 1) by (split; [apply Rinv_0_lt_compat; lra|rewrite <- Rinv_1; apply Rinv_le_contravar; lra]).
  split.
  - intros a Ha. destruct (In_nth_error _ _ Ha) as (k & Hk). destruct (H k a Hk) as (Fa & _ & Ba).
    split; [|split; auto; assert (/ 2 ^ 28 <= 1) by lra; lra].
    apply (steps_valid fuel f0 (fdiv f1 (fofZ bins)) (fadd f1 (fdiv f1 (fofZ bins))) xs); auto; [reflexivity|]. apply fdiv_valid; [reflexivity|apply fofZ_valid].
  - intros w d (Hd & Hw). subst d. induction w as [|a w IH].
    + exists []. split; [split; auto|]. split; [reflexivity|]. intros i Hi. cbn in Hi. lia.
    + destruct IH as (g & (G1 & G2) & (N1 & N2)); [intros b Hb'; apply Hw; now right|].
      destruct (Hw a) as (Va & Fa & Ba); [now left|]. destruct (nearest bins (fval a) ltac:(lia) Ba) as (k & Hk & Ek).
      destruct (nth_error xs k) as [c|] eqn:Ec; [|apply nth_error_None in Ec; lia]. destruct (H k c Ec) as (Fc & Bc & _).
      exists (c :: g). split.
      * split; [cbn; now rewrite G1|]. constructor; auto. now apply nth_error_In with k.
      * split; [cbn; now rewrite G1|]. intros i Hi. destruct i as [|i]; cbn [rpt map vget nth].
        -- unfold vget. cbn [nth]. unfold half_cell. replace (fval a - fval c) with ((fval a - INR k / IZR bins) - (fval c - INR k / IZR bins)) by ring.
           apply Rle_trans with (1 := Rabs_triang _ _). rewrite Rabs_Ropp. lra.
        -- apply (N2 i). cbn in Hi. lia.
Qed.

(** the result of the grid search on a function close to [U] *)
Lemma grid_best (f : fpt -> F) (U : fpt -> R) b om bins fuel d : (1 <= bins <= 2 ^ 20)%Z -> (Z.to_nat bins + 2 < fuel)%nat -> (1 <= d)%nat ->
  (forall v, point d v -> fvalid (f v) /\ ffin (f v) /\ Rabs (fval (f v)) <= bp 900 /\ Rabs (fval (f v) - U v) <= b) ->
  (forall v w, point d v -> point d w -> near_pt (half_cell bins) v w -> U v <= U w + om) ->
  exists xs q, grid_search_xs fuel bins = Some xs /\ grid_search f xs d = GVec q /\ point d q /\ forall w, box d w -> U w <= U q + 2 * b + om.
Proof.
  intros Hb Hfu Hd Hf HO. destruct (C16_grid_search_values_partial bins fuel Hb Hfu) as (xs & E & Hl & _ & _). exists xs.
  destruct (grid_near bins fuel xs Hb Hfu E) as (G1 & G2).
  assert (B100 : 3 <= 2 ^ 100). { apply Rle_trans with (2 ^ 2); [lra|]. apply Rle_pow; [lra|lia]. }
  assert (GP : forall v, on_grid xs d v -> point d v).
  { intros v (V1 & V2). split; auto. intros a Ha. rewrite List.Forall_forall in V2. destruct (G1 a (V2 a Ha)) as (A1 & A2 & A3). split; auto. split; auto. rewrite Rabs_pos_eq; lra. }
  assert (Low : forall v, point d v -> flt f_lowest (f v) = true).
  { intros v Hv. destruct (Hf v Hv) as (A1 & A2 & A3 & _). apply flt_R; auto; [reflexivity|reflexivity|]. apply Rabs_le_inv in A3.
    assert (El : fval f_lowest = - (IZR 9007199254740991 * bp 971)).
    { cbv -[IZR bpow Rmult Ropp Z.opp]. unfold F2R; cbn [Fnum Fexp]. rewrite opp_IZR. ring. }
    assert (X : bp 900 < IZR 9007199254740991 * bp 971).
    { apply Rlt_le_trans with (1 * bp 971); [rewrite Rmult_1_l; apply bpow_lt; lia|]. apply Rmult_le_compat_r; [apply bpow_ge_0|]. apply IZR_le. lia. }
    lra. }
  assert (Xn : xs <> []) by (intros ->; cbn in Hl; lia).
  destruct (proj2 (C15_grid_search_defined f xs d Hd Xn)) as (q & Hq).
  { intros pre Hp Fp. destruct xs as [|x0 xs']; [congruence|]. exists x0. split; [now left|]. apply Low, GP. split; [rewrite app_length; cbn; lia|].
    apply List.Forall_app. split; auto. constructor; [now left|constructor]. }
  exists q. split; auto. split; auto. destruct (C15_grid_search_best f xs d q Hq) as (Q1 & _ & Q3). split; [now apply GP|].
  intros w Hw. destruct (G2 w d Hw) as (g & Gg & Gn).
  assert (Pw : point d w). { destruct Hw as (W1 & W2). split; auto. intros a Ha. destruct (W2 a Ha) as (A1 & A2 & A3). split; auto. split; auto. rewrite Rabs_pos_eq; lra. }
  pose proof (HO w g Pw (GP g Gg) Gn) as O. specialize (Q3 g Gg).
  destruct (Hf g (GP g Gg)) as (A1 & A2 & _ & A3). destruct (Hf q (GP q Q1)) as (C1 & C2 & _ & C3).
  apply flt_R_false in Q3; auto. apply Rabs_le_inv in A3, C3. lra.
Qed.

Lemma var_floor_bounds fexp mk d sf2 noise p n pts : usual fexp mk d sf2 noise p n pts -> bp (-118) <= var_floor sf2 noise n.
Proof.
  intros (He & Hmk & Hd & Hn & Hs & Hs1 & Hp & Hpts & Vn & Fn & Bn). pose proof (param_pos sf2 Hs) as Sp. pose proof (le1000 n ltac:(lia)) as N1. pose proof (pos_INR n) as N0.
  destruct Hs as (_ & _ & Hs & _). assert (Ng : 99 / 10000 <= nugget noise <= 2) by (unfold nugget; lra). unfold var_floor.
  assert (Q : 0 <= INR n * fval sf2 <= 1000). { split; [apply Rmult_le_pos; lra|]. rewrite <- (Rmult_1_r 1000). apply Rmult_le_compat; lra. }
  assert (D : 0 < / (nugget noise + INR n * fval sf2)) by (apply Rinv_0_lt_compat; lra).
  assert (D' : / 1002 <= / (nugget noise + INR n * fval sf2)) by (apply Rinv_le_contravar; lra).
  change (-118)%Z with (-100 + -18)%Z. rewrite bpow_plus. replace (bp (-100)) with (/ 2 ^ 100) by (rewrite <- bp_inv; reflexivity).
  assert (I : 0 < / 2 ^ 100) by (apply Rinv_0_lt_compat, pow_lt; lra). unfold Rdiv. rewrite Rmult_assoc.
  apply Rmult_le_compat; try lra; [apply bpow_ge_0|]. apply Rle_trans with (99 / 10000 * / 1002); [|apply Rmult_le_compat; lra].
  change (-18)%Z with (Z.opp 18). rewrite bpow_opp. replace (bpow radix2 18) with 262144 by (simpl; lra). lra.
Qed.
Lemma inv_sqrt_le a b : 0 < a -> a <= b -> 0 < / sqrt b <= / sqrt a.
Proof. intros Ha H. pose proof (sqrt_lt_R0 a Ha). split; [apply Rinv_0_lt_compat, sqrt_lt_R0; lra|]. apply Rinv_le_contravar; auto. now apply sqrt_le_1_alt. Qed.

(** ** UCB *)
(** what the next sample may miss, at most: rounding, and the cells of the grid *)
Definition ucb_loss (alpha mv sf2 noise : F) (p : kpar) (n d : nat) (W : R) (bins : Z) (lam : R) : R :=
  2 * ucb_bound alpha mv W (var_floor sf2 noise n) + (W * fval sf2 + fval alpha * sqrt (fval sf2)) * gap p d (half_cell bins) lam.

Theorem C74_ucb : forall fexp mk d sf2 noise p n pts m L y x alpha mv lam bins fuel (f : fpt -> F),
  usual fexp mk d sf2 noise p n pts -> INR m <= 3000 -> gp_of fexp mk sf2 noise p n pts m L y x ->
  (forall i, (i < n)%nat -> dbl (2 ^ 200) (y i)) -> dbl (2 ^ 20) alpha -> 0 <= fval alpha -> dbl (2 ^ 200) mv ->
  0 < lam -> (forall l, In l (scales p) -> lam <= fval l) ->
  (1 <= d)%nat -> (1 <= bins <= 2 ^ 20)%Z -> (Z.to_nat bins + 2 < fuel)%nat ->
  (forall v, point d v -> exists mu sigma_sq, query_at fexp mk sf2 noise p n pts m L x mv v mu sigma_sq /\ ucb_of alpha mu sigma_sq (f v)) ->
  exists B, is_inv n (noisy (K_of sf2 p pts) (nugget noise)) B /\
  let U := fun v => post_mean sf2 p n pts B y mv v + fval alpha * sqrt (post_var sf2 p n pts B v) in
  exists xs q, grid_search_xs fuel bins = Some xs /\ grid_search f xs d = GVec q /\ point d q /\
  forall w, box d w -> U w <= U q + ucb_loss alpha mv sf2 noise p n d (weights n B y) bins lam.
Proof.
  intros fexp mk d sf2 noise p n pts m L y x alpha mv lam bins fuel f HU Hm HG Hy Ha Pa Hmv Hl HL Hd Hb Hfu Hf.
  destruct (C73_ucb _ _ _ _ _ _ _ _ _ _ _ _ _ HU Hm HG Hy Ha Pa) as (B & HB & H). exists B. split; auto. intros U.
  pose proof (weights_bound _ _ _ _ _ _ _ _ B y HU HB Hy) as WB. set (W := weights n B y) in *.
  pose proof (var_floor_bounds _ _ _ _ _ _ _ _ HU) as VF. set (Vf := var_floor sf2 noise n) in *. pose proof (bp_pos (-118)) as VP.
  assert (Fl : forall v, point d v -> Vf <= post_var sf2 p n pts B v <= 1).
  { intros v Hv. destruct (C73_variance_floor _ _ _ _ _ _ _ _ HU) as (B' & HB' & H'). pose proof (H' v Hv) as Q.
    assert (E : post_var sf2 p n pts B' v = post_var sf2 p n pts B v).
    { unfold post_var. f_equal. apply rsum_ext. intros i Hi. f_equal. apply rsum_ext. intros j Hj. now rewrite (inv_unique n _ B' B HB' HB i j Hi Hj). }
    rewrite E in Q. assert (fval sf2 <= 1) by apply HU. unfold Vf, var_floor. lra. }
  set (b := ucb_bound alpha mv W Vf). set (h := half_cell bins).
  assert (Pb : 1 <= IZR bins) by (apply IZR_le; lia).
  assert (Hh : 0 <= h). { unfold h, half_cell. assert (0 < / (2 * IZR bins)) by (apply Rinv_0_lt_compat; lra). lra. }
  pose proof (pow_lt 2 200 ltac:(lra)) as P200. pose proof (pow_lt 2 20 ltac:(lra)) as P20. pose proof (bp_pos 217) as P217.
  destruct Ha as (Va & Fa & Ba). rewrite Rabs_pos_eq in Ba by auto. destruct Hmv as (Vm & Fm & Bm).
  assert (SVf : / sqrt Vf <= bp 59).
  { replace (bp 59) with (/ sqrt (bp (-118))). { apply inv_sqrt_le; auto. }
    replace (bp (-118)) with (bp (-59) * bp (-59)) by (rewrite <- bpow_plus; reflexivity). rewrite sqrt_square by apply bpow_ge_0.
    change (-59)%Z with (Z.opp 59). rewrite bpow_opp. apply Rinv_inv. }
  assert (Big : 2 ^ 200 + bp 217 + 2 ^ 20 + (bp 217 + (1 + 2 ^ 200) + 2 ^ 20 * bp 59) <= bp 900).
  { rewrite (bp_pow 217 : bp 217 = _), (bp_pow 59 : bp 59 = _), (bp_pow 900 : bp 900 = _), <- pow_add. cbn [Nat.add].
    assert (1 <= 2 ^ 217) by (apply pow_R1_Rle; lra). assert (2 ^ 200 <= 2 ^ 217) by (apply Rle_pow; [lra|lia]). assert (2 ^ 20 <= 2 ^ 217) by (apply Rle_pow; [lra|lia]).
    assert (2 ^ 79 <= 2 ^ 217) by (apply Rle_pow; [lra|lia]). apply Rle_trans with (2 ^ 3 * 2 ^ 217); [lra|]. rewrite <- pow_add. apply Rle_pow; [lra|lia]. }
  destruct (grid_best f U b ((W * fval sf2 + fval alpha * sqrt (fval sf2)) * gap p d h lam) bins fuel d Hb Hfu Hd) as (xs & q & E1 & E2 & E3 & E4).
  - intros v Hv. destruct (Hf v Hv) as (mu & sg & Q & Uc). destruct (H v mv mu sg (f v) Hv (conj Vm (conj Fm Bm)) Q Uc) as (V1 & F1 & PV & Eu). cbv zeta in *. fold (U v) in Eu.
    split; auto. split; auto. pose proof (Fl v Hv) as FV. pose proof (post_mean_bound _ _ _ _ _ _ _ _ y B HU v mv Hv) as PM. fold W in PM.
    set (V := post_var sf2 p n pts B v) in *. destruct (inv_sqrt_le Vf V ltac:(lra) (proj1 FV)) as (I0 & I1).
    assert (Le : ucb_bound alpha mv W V <= b).
    { unfold b, ucb_bound. apply Rplus_le_compat_l. apply Rmult_le_compat_l; auto. apply Rmult_le_pos; lra. }
    assert (bB : b <= bp 217 + (1 + 2 ^ 200) + 2 ^ 20 * bp 59).
    { unfold b, ucb_bound. assert (X : 11 / 10 ^ 7 * fval alpha / sqrt Vf <= 2 ^ 20 * bp 59).
      { apply Rmult_le_compat; lra. } pose proof (Rabs_pos (fval mv)). lra. }
    split; [|lra].
    assert (UB : Rabs (U v) <= 2 ^ 200 + bp 217 + 2 ^ 20).
    { unfold U. fold V. apply Rle_trans with (1 := Rabs_triang _ _).
      assert (SV : 0 <= sqrt V <= 1) by (split; [apply sqrt_pos|rewrite <- sqrt_1; apply sqrt_le_1_alt; lra]).
      assert (A : 0 <= fval alpha * sqrt V <= 2 ^ 20) by (split; [apply Rmult_le_pos; lra|rewrite <- (Rmult_1_r (2 ^ 20)); apply Rmult_le_compat; lra]).
      rewrite (Rabs_pos_eq (fval alpha * sqrt V)) by lra. lra. }
    replace (fval (f v)) with ((fval (f v) - U v) + U v) by ring. apply Rle_trans with (1 := Rabs_triang _ _). lra.
  - intros v w Hv Hw Hn. fold h in Hn. pose proof (mean_lip fexp mk d sf2 noise p n pts y B h lam HU Hh Hl HL v w mv mv Hv Hw Hn) as M.
    replace (fval mv - fval mv) with 0 in M by ring. rewrite Rabs_R0 in M. fold W in M.
    pose proof (sd_lip fexp mk d sf2 noise p n pts B h lam HU HB Hh Hl HL v w Hv Hw Hn) as S. apply Rabs_le_inv in M, S.
    unfold U. set (sv := sqrt (post_var sf2 p n pts B v)) in *. set (sw := sqrt (post_var sf2 p n pts B w)) in *.
    assert (A : fval alpha * (sv - sw) <= fval alpha * (sqrt (fval sf2) * gap p d h lam)) by (apply Rmult_le_compat_l; lra). lra.
  - exists xs, q. split; auto. split; auto. split; auto. intros w Hw. specialize (E4 w Hw). unfold ucb_loss. fold Vf. fold b h. lra.
Qed.

(** ** EI *)
Definition ei_loss (jitter sf2 noise : F) (p : kpar) (n d : nat) (Mv W : R) (bins : Z) (lam : R) : R :=
  2 * ei_bound jitter Mv W (var_floor sf2 noise n) + (W * fval sf2 + 1 / 2 * sqrt (fval sf2)) * gap p d (half_cell bins) lam.

Theorem C74_ei : forall fexp ferfc fpow2 jitter mk d sf2 noise p n pts m L y x mv rewards lam bins fuel (f : fpt -> F),
  usual fexp mk d sf2 noise p n pts -> 1 / 100 <= fval sf2 -> INR m <= 3000 -> gp_of fexp mk sf2 noise p n pts m L y x ->
  (forall i, (i < n)%nat -> dbl (2 ^ 200) (y i)) -> libm_erfc ferfc (/ 2 ^ 50) -> libm_pow2 fpow2 -> dbl (2 ^ 200) jitter -> dbl (2 ^ 200) mv ->
  List.Forall2 (fun i r => mean_at fexp mk sf2 noise p n pts m x mv (pts i) r) (seq 0 n) rewards ->
  0 < lam -> (forall l, In l (scales p) -> lam <= fval l) ->
  (1 <= d)%nat -> (1 <= bins <= 2 ^ 20)%Z -> (Z.to_nat bins + 2 < fuel)%nat ->
  (forall v, point d v -> exists mu sigma_sq, query_at fexp mk sf2 noise p n pts m L x mv v mu sigma_sq /\ ei_of fexp ferfc fpow2 jitter rewards mu sigma_sq (f v)) ->
  exists B, is_inv n (noisy (K_of sf2 p pts) (nugget noise)) B /\
  exists fbest, is_best (map (fun i => post_mean sf2 p n pts B y mv (pts i)) (seq 0 n)) fbest /\
  let improvement := fun v => expected_improvement (post_mean sf2 p n pts B y mv v) (sqrt (post_var sf2 p n pts B v)) (fbest + fval jitter) in
  exists xs q, grid_search_xs fuel bins = Some xs /\ grid_search f xs d = GVec q /\ point d q /\
  forall w, box d w -> exists e_w e_q, improvement w e_w /\ improvement q e_q /\
    e_w <= e_q + ei_loss jitter sf2 noise p n d (Rabs (fval mv)) (weights n B y) bins lam.
Proof.
  intros fexp ferfc fpow2 jitter mk d sf2 noise p n pts m L y x mv rewards lam bins fuel f HU S100 Hm HG Hy Hc Hq Hj Hmv HR Hl HL Hd Hb Hfu Hf.
  set (Mv := Rabs (fval mv)). assert (Dm : dbl Mv mv) by (destruct Hmv as (A1 & A2 & _); split; auto; split; auto; unfold Mv; lra).
  assert (HM : Mv <= 2 ^ 200) by apply Hmv.
  destruct (C73_ei fexp ferfc fpow2 jitter mk d sf2 noise p n pts m L y x (fun _ => mv) rewards Mv HU S100 Hm HG Hy Hc Hq Hj HM (fun _ _ => Dm) HR) as (B & HB & fb & Hfb & H).
  exists B. split; auto. exists fb. split; auto. intros imp.
  pose proof (weights_bound _ _ _ _ _ _ _ _ B y HU HB Hy) as WB. set (W := weights n B y) in *.
  set (Vf := var_floor sf2 noise n) in *. pose proof (var_floor_bounds _ _ _ _ _ _ _ _ HU) as VF. fold Vf in VF. pose proof (bp_pos (-118)) as VP.
  set (h := half_cell bins). assert (Pb : 1 <= IZR bins) by (apply IZR_le; lia).
  assert (Hh : 0 <= h). { unfold h, half_cell. assert (0 < / (2 * IZR bins)) by (apply Rinv_0_lt_compat; lra). lra. }
  assert (Fl : forall v, point d v -> Vf <= post_var sf2 p n pts B v <= 1).
  { intros v Hv. destruct (C73_variance_floor _ _ _ _ _ _ _ _ HU) as (B' & HB' & H'). pose proof (H' v Hv) as Q.
    assert (E : post_var sf2 p n pts B' v = post_var sf2 p n pts B v).
    { unfold post_var. f_equal. apply rsum_ext. intros i Hi. f_equal. apply rsum_ext. intros k Hk. now rewrite (inv_unique n _ B' B HB' HB i k Hi Hk). }
    rewrite E in Q. assert (fval sf2 <= 1) by apply HU. unfold Vf, var_floor. lra. }
  set (j := fval jitter) in *. set (U := fun v => ei_value erfc0 (post_mean sf2 p n pts B y mv v - (fb + j)) (sqrt (post_var sf2 p n pts B v))).
  assert (IU : forall v, point d v -> imp v (U v)).
  { intros v Hv. assert (Sv : 0 < sqrt (post_var sf2 p n pts B v)) by (apply sqrt_lt_R0; pose proof (Fl v Hv); lra).
    exact (ei_is_expectation (post_mean sf2 p n pts B y mv v) (sqrt (post_var sf2 p n pts B v)) (fb + j) Sv erfc0 erfc0_ok). }
  set (b := ei_bound jitter Mv W Vf).
  pose proof (pow_lt 2 200 ltac:(lra)) as P200. pose proof (bp_pos 217) as P217.
  assert (Bj : Rabs j <= 2 ^ 200) by apply Hj.
  assert (Bf : Rabs fb <= 2 ^ 200 + bp 217).
  { destruct Hfb as (If & _). apply in_map_iff in If. destruct If as (i & <- & Hi). apply in_seq in Hi.
    apply Rle_trans with (1 := post_mean_bound _ _ _ _ _ _ _ _ y B HU (pts i) mv ltac:(apply HU; lia)). fold W Mv. lra. }
  assert (Big : 10 * 2 ^ 200 + 10 * bp 217 + 10 <= bp 900).
  { rewrite (bp_pow 217 : bp 217 = _), (bp_pow 900 : bp 900 = _).
    assert (1 <= 2 ^ 217) by (apply pow_R1_Rle; lra). assert (2 ^ 200 <= 2 ^ 217) by (apply Rle_pow; [lra|lia]).
    apply Rle_trans with (2 ^ 5 * 2 ^ 217); [lra|]. rewrite <- pow_add. apply Rle_pow; [lra|lia]. }
  destruct (grid_best f U b ((W * fval sf2 + 1 / 2 * sqrt (fval sf2)) * gap p d h lam) bins fuel d Hb Hfu Hd) as (xs & q & E1 & E2 & E3 & E4).
  - intros v Hv. destruct (Hf v Hv) as (mu & sg & Q & Uc). destruct (H v mu sg (f v) Hv Dm Q Uc) as (V1 & F1 & V9 & ev & Hev & Ee). cbv zeta in *.
    assert (ev = U v) by (apply (expectation_unique _ _ _ _ _ Hev (IU v Hv))). subst ev.
    split; auto. split; auto. pose proof (Fl v Hv) as FV. pose proof (post_mean_bound _ _ _ _ _ _ _ _ y B HU v mv Hv) as PM. fold W Mv in PM.
    set (V := post_var sf2 p n pts B v) in *. destruct (inv_sqrt_le Vf V ltac:(lra) (proj1 FV)) as (I0 & I1).
    assert (Le : ei_bound jitter Mv W V <= b).
    { unfold b, ei_bound. apply Rplus_le_compat_l. apply Rmult_le_compat_l; auto. lra. }
    split; [|lra].
    assert (IV : / sqrt V <= 1000). { replace 1000 with (/ sqrt (1 / 1000 * (1 / 1000))) by (rewrite sqrt_square by lra; field). apply inv_sqrt_le; lra. }
    assert (bB : ei_bound jitter Mv W V <= bp 217 + (1 + 2 ^ 200) + 2 ^ 200 + 1). { unfold ei_bound. fold j. change (6 / 10 ^ 7 / sqrt V) with (6 / 10 ^ 7 * / sqrt V). pose proof (Rabs_pos j). lra. }
    assert (UB : Rabs (U v) <= 4 * 2 ^ 200 + 4 * bp 217 + 2).
    { unfold U. fold V. pose proof (ei_lipschitz 0 (post_mean sf2 p n pts B y mv v - (fb + j)) 1 (sqrt V) ltac:(lra) ltac:(apply sqrt_lt_R0; lra)) as Li.
      assert (SV : 0 <= sqrt V <= 1) by (split; [apply sqrt_pos|rewrite <- sqrt_1; apply sqrt_le_1_alt; lra]).
      assert (X0 : Rabs (ei_value erfc0 0 1) <= 1).
      { rewrite ei0_eq. replace (0 * Phi (0 / 1) + 1 * phi (0 / 1)) with (phi (0 / 1)) by ring. pose proof (phi_bounds (0 / 1)). rewrite Rabs_pos_eq; lra. }
      assert (X1 : Rabs (sqrt V - 1) <= 1) by (apply Rabs_le; lra). rewrite Rminus_0_r in Li.
      assert (X2 : Rabs (post_mean sf2 p n pts B y mv v - (fb + j)) <= Mv + W + (2 ^ 200 + bp 217) + 2 ^ 200).
      { apply Rle_trans with (1 := Rabs_triang _ _). rewrite Rabs_Ropp. pose proof (Rabs_triang fb j). lra. }
      set (e := ei_value erfc0 (post_mean sf2 p n pts B y mv v - (fb + j)) (sqrt V)) in *. set (e' := ei_value erfc0 0 1) in *.
      replace e with ((e - e') + e') by ring. apply Rle_trans with (1 := Rabs_triang _ _). lra. }
    replace (fval (f v)) with ((fval (f v) - U v) + U v) by ring. apply Rle_trans with (1 := Rabs_triang _ _). lra.
  - intros v w Hv Hw Hn. fold h in Hn. pose proof (mean_lip fexp mk d sf2 noise p n pts y B h lam HU Hh Hl HL v w mv mv Hv Hw Hn) as M.
    replace (fval mv - fval mv) with 0 in M by ring. rewrite Rabs_R0 in M. fold W in M.
    pose proof (sd_lip fexp mk d sf2 noise p n pts B h lam HU HB Hh Hl HL v w Hv Hw Hn) as S.
    pose proof (Fl v Hv) as Fv. pose proof (Fl w Hw) as Fw.
    pose proof (ei_lipschitz (post_mean sf2 p n pts B y mv w - (fb + j)) (post_mean sf2 p n pts B y mv v - (fb + j)) (sqrt (post_var sf2 p n pts B w)) (sqrt (post_var sf2 p n pts B v))
      ltac:(apply sqrt_lt_R0; lra) ltac:(apply sqrt_lt_R0; lra)) as Li. fold (U v) (U w) in Li.
    replace (post_mean sf2 p n pts B y mv v - (fb + j) - (post_mean sf2 p n pts B y mv w - (fb + j))) with (post_mean sf2 p n pts B y mv v - post_mean sf2 p n pts B y mv w) in Li by ring.
    apply Rabs_le_inv in Li. lra.
  - exists xs, q. split; auto. split; auto. split; auto. intros w Hw. specialize (E4 w Hw). exists (U w), (U q).
    assert (Pw : point d w). { destruct Hw as (W1 & W2). split; auto. intros a Ha. destruct (W2 a Ha) as (A1 & A2 & A3). split; auto. split; auto.
      assert (1 <= 2 ^ 100) by (apply pow_R1_Rle; lra). rewrite Rabs_pos_eq; lra. }
    split; [now apply IU|]. split; [now apply IU|]. unfold ei_loss. fold Vf. fold b h. lra.
Qed.

(** ** Consequence: if the objective [g] stays inside the confidence band, the next sample is worse than
    any other point by at most the width of the band at the sample and the loss above. *)
Theorem C74_regret : forall fexp mk d sf2 noise p n pts m L y x alpha mv lam bins fuel (f : fpt -> F),
  usual fexp mk d sf2 noise p n pts -> INR m <= 3000 -> gp_of fexp mk sf2 noise p n pts m L y x ->
  (forall i, (i < n)%nat -> dbl (2 ^ 200) (y i)) -> dbl (2 ^ 20) alpha -> 0 <= fval alpha -> dbl (2 ^ 200) mv ->
  0 < lam -> (forall l, In l (scales p) -> lam <= fval l) ->
  (1 <= d)%nat -> (1 <= bins <= 2 ^ 20)%Z -> (Z.to_nat bins + 2 < fuel)%nat ->
  (forall v, point d v -> exists mu sigma_sq, query_at fexp mk sf2 noise p n pts m L x mv v mu sigma_sq /\ ucb_of alpha mu sigma_sq (f v)) ->
  exists B, is_inv n (noisy (K_of sf2 p pts) (nugget noise)) B /\
  exists xs q, grid_search_xs fuel bins = Some xs /\ grid_search f xs d = GVec q /\ point d q /\
  forall g : fpt -> R,
    (forall v, point d v -> Rabs (g v - post_mean sf2 p n pts B y mv v) <= fval alpha * sqrt (post_var sf2 p n pts B v)) ->
    forall w, box d w ->
      g w - g q <= 2 * fval alpha * sqrt (post_var sf2 p n pts B q) + ucb_loss alpha mv sf2 noise p n d (weights n B y) bins lam.
Proof.
  intros fexp mk d sf2 noise p n pts m L y x alpha mv lam bins fuel f H1 H2 H3 H4 H5 H6 H7 H8 H9 H10 H11 H12 H13.
  destruct (C74_ucb fexp mk d sf2 noise p n pts m L y x alpha mv lam bins fuel f H1 H2 H3 H4 H5 H6 H7 H8 H9 H10 H11 H12 H13) as (B & HB & xs & q & E1 & E2 & E3 & E4).
  exists B. split; auto. exists xs, q. split; auto. split; auto. split; auto. intros g Hg w Hw. specialize (E4 w Hw).
  assert (Pw : point d w). { destruct Hw as (W1 & W2). split; auto. intros a Ha. destruct (W2 a Ha) as (A1 & A2 & A3). split; auto. split; auto.
    assert (1 <= 2 ^ 100) by (apply pow_R1_Rle; lra). rewrite Rabs_pos_eq; lra. }
  pose proof (Hg w Pw) as A. pose proof (Hg q E3) as C. apply Rabs_le_inv in A, C. lra.
Qed.

(** ** The hypotheses hold: two samples in the unit square, any of the kernels, a grid of 4 steps *)
Definition sol2 (L : fmat) (b : fvec) : fvec :=
  let z0 := fdiv (feval (chain (b 0%nat) [])) (L 0%nat 0%nat) in
  fun i => match i with 0%nat => z0 | _ => fdiv (feval (chain (b 1%nat) [(L 1%nat 0%nat, z0)])) (L 1%nat 1%nat) end.
Lemma sol2_ok m L b : (1 <= m)%nat -> fsolve m 2 L b (sol2 L b).
Proof. intros Hm i Hi. destruct i as [|[|i]]; try lia; eexists; (split; [apply chain_ok; rewrite ?prods_length; lia|left; reflexivity]). Qed.
Example C74_example : forall p, In p [PExp f1; PMatern3 f1; PMatern5 f1; PArd [f1; fofZe 1 (-1)]] ->
  exists L y x rewards (fu fe : fpt -> F),
  usual best_exp 4 2 f1 ex_noise p 2 ex_pts /\ 1 / 100 <= fval f1 /\ gp_of best_exp 4 f1 ex_noise p 2 ex_pts 4 L y x /\
  (forall i, (i < 2)%nat -> dbl (2 ^ 200) (y i)) /\ dbl (2 ^ 20) f1 /\ 0 <= fval f1 /\ dbl (2 ^ 200) f0 /\ dbl (2 ^ 200) fhalf /\
  List.Forall2 (fun i r => mean_at best_exp 4 f1 ex_noise p 2 ex_pts 4 x fhalf (ex_pts i) r) (seq 0 2) rewards /\
  (forall l, In l (scales p) -> 1 / 2 <= fval l) /\ (Z.to_nat 4 + 2 < 7)%nat /\
  (forall v, point 2 v -> exists mu sigma_sq, query_at best_exp 4 f1 ex_noise p 2 ex_pts 4 L x fhalf v mu sigma_sq /\ ucb_of f1 mu sigma_sq (fu v)) /\
  (forall v, point 2 v -> exists mu sigma_sq, query_at best_exp 4 f1 ex_noise p 2 ex_pts 4 L x fhalf v mu sigma_sq /\
     ei_of best_exp best_erfc best_pow2 f0 rewards mu sigma_sq (fe v)) /\
  gap p 2 (half_cell 4) (1 / 2) <= 1.
Proof.
  intros p Hp. destruct (C73_example p Hp) as (L & y & x & rewards & _ & _ & _ & _ & HU & S1 & HG & Hy & _ & _ & D1 & P1 & D0 & Dh & _ & HR & _).
  assert (E1 : fval f1 = 1) by (cbv -[IZR F2R bpow]; unfold F2R; simpl; lra). destruct half_val as (Vh & Fh & Eh).
  set (kq := fun (v : fpt) i => kval best_exp f1 ex_noise p (ex_pts i) v false). set (kvv := fun v : fpt => kval best_exp f1 ex_noise p v v false).
  set (res := fun v => feval (line ((false, TNum (kvv v)) :: map (fun q => (true, TMul (fst q) (snd q))) (prods 0 2 (sol2 L (kq v)) (sol2 L (kq v)))))).
  set (mu := fun v => feval (line ((false, TNum fhalf) :: map (fun q => (false, TMul (fst q) (snd q))) (prods 0 2 (kq v) x)))).
  set (sg := fun v => if fle (res v) feps then f0 else res v).
  assert (Q : forall v, point 2 v -> query_at best_exp 4 f1 ex_noise p 2 ex_pts 4 L x fhalf v (mu v) (sg v)).
  { intros v Hv. destruct HU as (_ & _ & _ & _ & _ & _ & Kp & Hpts & _). exists (kq v), (kvv v). split; [intros i Hi; apply kval_ok with 2%nat; auto; apply Hpts; lia|].
    split; [apply kval_ok with 2%nat; auto|]. split; [apply line_ok; cbn; lia|]. exists (sol2 L (kq v)), (res v). split; [apply sol2_ok; lia|]. split; [apply line_ok; cbn; lia|reflexivity]. }
  destruct rewards as [|r0 [|r1 [|r2 rr]]]; [inversion HR| inversion HR as [|? ? ? ? ? T]; inversion T| |inversion HR as [|? ? ? ? ? T]; inversion T as [|? ? ? ? ? T']; inversion T'].
  set (fm := fold_left (fun a b => if flt a b then b else a) [r1] r0).
  set (X := fun v => fsub (fsub (mu v) fm) f0). set (Z := fun v => fdiv (X v) (fsqrt (sg v))).
  exists L, y, x, [r0; r1], (fun v => fadd (mu v) (fmul f1 (fsqrt (sg v)))), (fun v => if flt (fsqrt (sg v)) cutoff then f0 else
    fadd (fmul (X v) (fmul fhalf (best_erfc (fdiv (fopp (Z v)) (fsqrt ftwo))))) (fmul (fsqrt (sg v)) (fdiv (best_exp (fmul mhalf (best_pow2 (Z v)))) (fsqrt (fmul ftwo fpi))))).
  assert (P2 : 1 <= 2 ^ 200) by (apply pow_R1_Rle; lra).
  split; auto. split; auto. split; auto. split; auto. split; auto. split; auto. split; auto. split; [split; auto; split; auto; rewrite Eh, Rabs_pos_eq; lra|]. split; auto.
  assert (Eh' : fval (fofZe 1 (-1)) = 1 / 2) by (cbv -[IZR F2R bpow Rdiv]; unfold F2R; simpl; lra).
  split. { intros l Hl. destruct Hp as [<-|[<-|[<-|[<-|[]]]]]; cbn [scales In] in Hl; repeat (destruct Hl as [<-|Hl]); try tauto; rewrite ?E1, ?Eh'; lra. }
  split; [cbn; lia|]. split; [|split].
  - intros v Hv. exists (mu v), (sg v). split; [now apply Q|]. left. reflexivity.
  - intros v Hv. exists (mu v), (sg v). split; [now apply Q|]. unfold ei_of. cbv zeta. cbn [length Nat.ltb Nat.leb]. rewrite orb_false_r. destruct (flt (fsqrt (sg v)) cutoff); [reflexivity|].
    exists fm. split; [reflexivity|]. left. reflexivity.
  - unfold gap, half_cell. assert (sqrt (slope p * INR 2) <= 3.2).
    { replace 3.2 with (sqrt (3.2 * 3.2)) by (apply sqrt_square; lra). apply sqrt_le_1_alt. destruct Hp as [<-|[<-|[<-|[<-|[]]]]]; cbn; lra. }
    pose proof (sqrt_pos (slope p * INR 2)). apply Rle_trans with (3.2 * (3 / 10)); [|lra]. apply Rmult_le_compat; lra.
Qed.
