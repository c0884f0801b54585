(** C70: limbo's kernels in double precision, and the GP built on them. *)
From Coq Require Import ZArith List Bool Lia Permutation Reals Lra.
From Coq Require Import Floats.SpecFloat.
From Flocq Require Import Core.
From Verif Require Import F64 F64R AdamFloat OptFloat FpModel FpErr LinAlgModel LinAlg FpAlg FpChol FpSolve FpGp FpFin Prop_Fp.
From Verif Require Import KernelModel KernelFacts Psd MaternPsd FpKerModel FpKer FpKer2.
Import ListNotations.
Open Scope R_scope.

(** ** Specification *)
(** what is assumed of std::exp: on arguments that are not positive it returns a finite number,
    with a relative error [del] and an absolute error of one subnormal *)
Definition libm_exp (fexp : F -> F) (del : R) : Prop :=
  forall x, fvalid x -> ffin x -> fval x <= 0 ->
    fvalid (fexp x) /\ ffin (fexp x) /\ Rabs (fval (fexp x) - exp (fval x)) <= del * exp (fval x) + / 2 ^ 1074.
(** a point of dimension [d] with coordinates up to 2^100 *)
Definition point (d : nat) (x : fpt) : Prop :=
  length x = d /\ forall a, In a x -> fvalid a /\ ffin a /\ Rabs (fval a) <= 2 ^ 100.
(** a length scale or signal variance between 2^-100 and 2^100 *)
Definition param (l : F) : Prop := fvalid l /\ ffin l /\ / 2 ^ 100 <= fval l <= 2 ^ 100.
(** the four kernels with their length scales *)
Inductive kpar := PExp (l : F) | PMatern3 (l : F) | PMatern5 (l : F) | PArd (ell : fpt).
Definition kpar_ok (d : nat) (p : kpar) : Prop :=
  match p with
  | PExp l | PMatern3 l | PMatern5 l => param l
  | PArd ell => length ell = d /\ forall l, In l ell -> param l
  end.
(** the kernels over the real numbers, at the values the doubles stand for *)
Definition rpt (x : fpt) : vec := map fval x.
Definition ard_of (sf2 : F) (ell : fpt) : ard :=
  {| a_sf2 := fval sf2; a_ell := vget (rpt ell); a_A := fun _ _ => 0; a_dim := length ell; a_h := [] |}.
Definition exact (sf2 : F) (p : kpar) (x y : fpt) : R :=
  match p with
  | PExp l => exp_kernel (iso_new (fval sf2) (fval l)) (rpt x) (rpt y)
  | PMatern3 l => matern3_kernel (iso_new (fval sf2) (fval l)) (rpt x) (rpt y)
  | PMatern5 l => matern5_kernel (iso_new (fval sf2) (fval l)) (rpt x) (rpt y)
  | PArd ell => ard_kernel 0 (ard_of sf2 ell) (rpt x) (rpt y)
  end.
(** the doubles the code may compute: [operator()(v1, v2, i, j)], [same] = "i == j" *)
Definition computes (fexp : F -> F) (m : nat) (sf2 noise : F) (p : kpar) (x y : fpt) (same : bool) (r : F) : Prop :=
  exists k, match p with
    | PExp l => exp_k fexp m sf2 l x y k
    | PMatern3 l => matern3_k fexp m sf2 l x y k
    | PMatern5 l => matern5_k fexp m sf2 l x y k
    | PArd ell => ard_k fexp m sf2 ell x y k
    end /\ kop_f noise k same r.
(** the variance of the noise that is added on the diagonal *)
Definition nugget (noise : F) : R := fval noise + / 100000000.

(** ** bridges *)
Lemma libm_ok fexp del : libm_exp fexp del -> exp_ok fexp del.
Proof. intros H x V Fx N. rewrite (bp_inv 1074 : bp (-1074) = _). now apply H. Qed.
Lemma param_scale l : param l -> scale l.
Proof. unfold param, scale. rewrite (bp_inv 100 : bp (-100) = _), (bp_pow 100 : bp 100 = _). tauto. Qed.
Lemma point_coord d x : point d x -> List.Forall coord x.
Proof. intros [_ H]. apply Forall_forall. intros a Ha. unfold coord. rewrite (bp_pow 100 : bp 100 = _). now apply H. Qed.

Lemma sqdist_lsq x : forall y, length x = length y -> sqdist (rpt x) (rpt y) = lsq (rdiff x y).
Proof.
  unfold sqdist. induction x as [|a x IH]; intros [|b y] H; try discriminate; [reflexivity|].
  cbn [rpt map length rdiff lsq fold_right]. rewrite rsum_S_first. f_equal. apply (IH y). now injection H.
Qed.
Lemma ard_lsq ell : forall x y, length x = length y -> length ell = length x ->
  rsum (length ell) (fun i => ((vget (rpt x) i - vget (rpt y) i) / vget (rpt ell) i) * ((vget (rpt x) i - vget (rpt y) i) / vget (rpt ell) i))
  = lsq (rquot (rdiff x y) ell).
Proof.
  induction ell as [|e ell IH]; intros [|a x] [|b y] H1 H2; try discriminate; [reflexivity|].
  cbn [length rdiff rquot lsq fold_right]. rewrite rsum_S_first. f_equal. apply (IH x y); cbn [length] in *; lia.
Qed.

(** ** the exact kernels: bounds, symmetry, positive semi-definite matrices *)
Lemma unit_exp s : 0 <= s -> 0 <= exp (- s) <= 1.
Proof. intros H. destruct (xexp s H) as ((A & B) & _). lra. Qed.
Lemma param_pos l : param l -> 0 < fval l.
Proof. intros (_ & _ & H & _). apply Rlt_le_trans with (2 := H). apply Rinv_0_lt_compat, pow_lt. lra. Qed.
Lemma exact_bounds d sf2 p x y : param sf2 -> kpar_ok d p -> point d x -> point d y -> 0 <= exact sf2 p x y <= fval sf2.
Proof.
  intros Hs Hp _ _. pose proof (param_pos sf2 Hs) as Sp.
  assert (U : forall g, 0 <= g <= 1 -> 0 <= fval sf2 * g <= fval sf2).
  { intros g Hg. split; [apply Rmult_le_pos; lra|]. rewrite <- (Rmult_1_r (fval sf2)) at 2. apply Rmult_le_compat_l; lra. }
  destruct p as [l|l|l|ell]; cbn [exact kpar_ok] in *; try pose proof (param_pos l Hp) as Lp.
  - unfold exp_kernel. cbn [iso_new i_sf2 i_l]. apply U. pose proof (sqdist_nonneg (rpt x) (rpt y)) as Q.
    assert (0 <= sqdist (rpt x) (rpt y) / (fval l * fval l)).
    { apply Rmult_le_pos; auto. left. apply Rinv_0_lt_compat. now apply Rmult_lt_0_compat. }
    match goal with |- 0 <= exp ?t <= 1 => replace t with (- (1 / 2 * (sqdist (rpt x) (rpt y) / (fval l * fval l)))) end.
    + apply unit_exp. lra.
    + field. lra.
  - unfold matern3_kernel. cbn [iso_new i_sf2 i_l]. set (t := sqrt 3 * dist (rpt x) (rpt y) / fval l).
    assert (T : 0 <= t). { apply Rmult_le_pos; [apply Rmult_le_pos; apply sqrt_pos|left; now apply Rinv_0_lt_compat]. }
    destruct (xexp t T) as ((A & _) & _ & _ & _ & _ & G). rewrite Rmult_assoc. apply U. split; [|exact G]. apply Rmult_le_pos; lra.
  - unfold matern5_kernel. cbn [iso_new i_sf2 i_l]. set (t := sqrt 5 * dist (rpt x) (rpt y) / fval l).
    assert (T : 0 <= t). { apply Rmult_le_pos; [apply Rmult_le_pos; apply sqrt_pos|left; now apply Rinv_0_lt_compat]. }
    replace (5 * (dist (rpt x) (rpt y) * dist (rpt x) (rpt y)) / (3 * (fval l * fval l))) with (t * t / 3).
    2:{ unfold t. rewrite <- (sqrt_def 5) at 3 by lra. field. lra. }
    destruct (xexp t T) as ((A & _) & _ & _ & _ & G & _). rewrite Rmult_assoc. apply U. split; [|exact G].
    apply Rmult_le_pos; [|lra]. assert (0 <= t * t) by now apply Rmult_le_pos. lra.
  - unfold ard_kernel. cbn [ard_of a_sf2]. apply U. rewrite <- Ropp_mult_distr_l. apply unit_exp. apply Rmult_le_pos; [lra|].
    unfold ard_z. cbn [Nat.ltb Nat.leb]. apply rsum_nonneg. intros i _. apply Rle_0_sqr.
Qed.
Lemma rpt_len d x : point d x -> length (rpt x) = d.
Proof. intros [H _]. unfold rpt. now rewrite map_length. Qed.
Lemma exact_psd d sf2 p n pts : param sf2 -> kpar_ok d p -> (forall i, (i < n)%nat -> point d (pts i)) ->
  psd n (fun i j => exact sf2 p (pts i) (pts j)).
Proof.
  intros Hs Hp Hpts. pose proof (param_pos sf2 Hs) as Sp.
  assert (Hl : forall i, (i < n)%nat -> length (rpt (pts i)) = d) by (intros i Hi; now apply rpt_len, Hpts).
  destruct p as [l|l|l|ell]; cbn [exact kpar_ok] in *; try pose proof (param_pos l Hp) as Lp.
  - apply (exp_psd (iso_new (fval sf2) (fval l)) n (fun i => rpt (pts i)) d); auto using iso_new_ok.
  - apply (matern3_kernel_psd (iso_new (fval sf2) (fval l)) n (fun i => rpt (pts i)) d); auto using iso_new_ok.
  - apply (matern5_kernel_psd (iso_new (fval sf2) (fval l)) n (fun i => rpt (pts i)) d); auto using iso_new_ok.
  - unfold ard_kernel. cbn [ard_of a_sf2].
    eapply psd_ext; [|exact (psd_scal n (fval sf2) _ ltac:(lra) (psd_gauss n (length ell) (1 / 2) (fun i q => vget (rpt (pts i)) q / vget (rpt ell) q) ltac:(lra)))].
    intros i j _ _. cbn beta. f_equal. f_equal. f_equal. unfold ard_z. cbn [Nat.ltb Nat.leb ard_of a_dim a_ell]. apply rsum_ext. intros q _. unfold Rdiv. ring.
Qed.
Lemma exact_sym d sf2 p x y : point d x -> point d y -> exact sf2 p x y = exact sf2 p y x.
Proof.
  intros Hx Hy. assert (Q : sqdist (rpt x) (rpt y) = sqdist (rpt y) (rpt x)).
  { unfold sqdist. rewrite (rpt_len d x Hx), (rpt_len d y Hy). apply rsum_ext. intros; ring. }
  destruct p as [l|l|l|ell]; cbn [exact]; unfold exp_kernel, matern3_kernel, matern5_kernel, dist; try (now rewrite Q).
  unfold ard_kernel. do 3 f_equal. unfold ard_z. cbn [Nat.ltb Nat.leb]. apply rsum_ext. intros i _. unfold Rdiv. ring.
Qed.

(** ** The kernels *)
(** Whatever the order of the sums: the value is finite and its error is a small multiple of the
    signal variance (plus the noise on the diagonal), however far apart or close the points are. *)
Theorem C70_kernels : forall fexp del m d sf2 noise p x y same r,
  libm_exp fexp del -> 0 <= del <= / 2 ^ 20 -> INR m <= 2 ^ 40 -> INR d <= 2 ^ 40 ->
  param sf2 -> kpar_ok d p -> point d x -> point d y ->
  fvalid noise -> ffin noise -> 0 <= fval noise <= 2 ^ 100 ->
  computes fexp m sf2 noise p x y same r ->
  let c := if same then nugget noise else 0 in
  fvalid r /\ ffin r /\
  Rabs (fval r - (exact sf2 p x y + c)) <= ((8 * INR m + 170) * / 2 ^ 53 + 2 * del) * (fval sf2 + c).
Proof.
  intros fexp del m d sf2 noise p x y same r He Hd Hm Hdim Hs Hp Hx Hy Vn Fn Bn (k & Hk & Hr).
  pose proof (exact_bounds d sf2 p x y Hs Hp Hx Hy) as EB.
  apply libm_ok in He. rewrite <- (bp_inv 20) in Hd. change (bp (- Z.of_nat 20)) with (bp (-20)) in Hd.
  assert (Sm : small m) by (unfold small; rewrite bpow_pos_IZR by lia; rewrite <- (bp_pow 40) in Hm; exact Hm).
  pose proof (point_coord d x Hx) as Cx. pose proof (point_coord d y Hy) as Cy.
  destruct Hx as [Lx _]. destruct Hy as [Ly _]. assert (Lxy : length x = length y) by congruence.
  rewrite <- (bp_pow 40), <- Lx in Hdim. change (bp (Z.of_nat 40)) with (bp 40) in Hdim.
  pose proof (param_pos sf2 Hs) as Sp. apply param_scale in Hs.
  assert (N : noise_ok noise). { unfold noise_ok. rewrite (bp_pow 100 : bp 100 = _). tauto. }
  assert (G : good_prod del m sf2 k (exact sf2 p x y)).
  { destruct p as [l|l|l|ell]; cbn [exact kpar_ok] in *; try pose proof (param_pos l Hp) as Lp.
    - pose proof (exp_err fexp del He Hd m Sm x y Cx Cy Lxy Hdim sf2 Hs l k (param_scale l Hp) Hk) as G.
      unfold exp_kernel. cbn [iso_new i_sf2 i_l]. rewrite sqdist_lsq by auto.
      match type of G with good_prod _ _ _ _ (_ * exp ?a) => match goal with |- good_prod _ _ _ _ (_ * exp ?b) => replace b with a by (field; lra) end end. exact G.
    - pose proof (matern3_err fexp del He Hd m Sm x y Cx Cy Lxy Hdim sf2 Hs l k (param_scale l Hp) Hk) as G.
      unfold matern3_kernel, dist. cbn [iso_new i_sf2 i_l]. rewrite sqdist_lsq by auto. rewrite Rmult_assoc. exact G.
    - pose proof (matern5_err fexp del He Hd m Sm x y Cx Cy Lxy Hdim sf2 Hs l k (param_scale l Hp) Hk) as G.
      unfold matern5_kernel, dist. cbn [iso_new i_sf2 i_l]. rewrite sqdist_lsq by auto. rewrite Rmult_assoc.
      set (t := sqrt (lsq (rdiff x y))) in *.
      replace (5 * (t * t) / (3 * (fval l * fval l))) with ((sqrt 5 * t / fval l) * (sqrt 5 * t / fval l) / 3); [exact G|].
      rewrite <- (sqrt_def 5) at 3 by lra. field. lra.
    - destruct Hp as [Hp1 Hp2].
      pose proof (ard_err fexp del He Hd m Sm x y Cx Cy Lxy Hdim sf2 Hs ell k) as G.
      unfold ard_kernel. cbn [ard_of a_sf2]. unfold ard_z. cbn [Nat.ltb Nat.leb ard_of a_dim a_ell]. rewrite ard_lsq by congruence.
      apply G; [|congruence|exact Hk]. apply Forall_forall. intros l Hl. now apply param_scale, Hp2. }
  pose proof (kop_err del Hd m Sm x y Lxy sf2 Hs noise k same r _ N G EB Hr) as E. cbv zeta in E |- *.
  rewrite <- (bp_inv 53). exact E.
Qed.

(** ** A GP on one of the kernels *)
(** the doubles the GP obtains from its kernel: [kf] between the samples [pts 0 .. pts (n-1)], with
    the noise where the indices agree; [kq] between the samples and the queried point [pts n];
    [kvv] between the queried point and itself *)
Definition kernel_values (fexp : F -> F) (m : nat) (sf2 noise : F) (p : kpar) (n : nat) (pts : nat -> fpt)
    (kf : fmat) (kq : nat -> F) (kvv : F) : Prop :=
  (forall i j, (i < n)%nat -> (j < n)%nat -> computes fexp m sf2 noise p (pts i) (pts j) (i =? j)%nat (kf i j)) /\
  (forall i, (i < n)%nat -> computes fexp m sf2 noise p (pts i) (pts n) false (kq i)) /\
  computes fexp m sf2 noise p (pts n) (pts n) false kvv.
(** the usual range: at most 1000 samples, sums of a distance with at most 128 operations, std::exp
    accurate to 2 units in the last place, a signal variance up to 1 and a noise variance of 0.01
   or more *)
Definition usual (fexp : F -> F) (mk d : nat) (sf2 noise : F) (p : kpar) (n : nat) (pts : nat -> fpt) : Prop :=
  libm_exp fexp (/ 2 ^ 52) /\ INR mk <= 128 /\ INR d <= 2 ^ 40 /\ (0 < n <= 1000)%nat /\
  param sf2 /\ fval sf2 <= 1 /\ kpar_ok d p /\ (forall i, (i <= n)%nat -> point d (pts i)) /\
  fvalid noise /\ ffin noise /\ 99 / 10000 <= fval noise <= 9 / 10.
Definition K_of (sf2 : F) (p : kpar) (pts : nat -> fpt) (i j : nat) : R := exact sf2 p (pts i) (pts j).

Definition keps : R := 3 / 10000000000000.
Lemma usual_values fexp mk d sf2 noise p n pts kf kq kvv :
  usual fexp mk d sf2 noise p n pts -> kernel_values fexp mk sf2 noise p n pts kf kq kvv ->
  symm (S n) (K_of sf2 p pts) /\ psd (S n) (K_of sf2 p pts) /\
  computed n (K_of sf2 p pts) (nugget noise) 2 keps kf /\
  (forall i, (i < n)%nat -> Rabs (K_of sf2 p pts i n) <= 2 /\ dbl 2 (kq i) /\ Rabs (fval (kq i) - K_of sf2 p pts i n) <= keps) /\
  dbl 2 kvv /\ Rabs (fval kvv - K_of sf2 p pts n n) <= keps.
Proof.
  intros (He & Hm & Hd & Hn & Hs & Hs1 & Hp & Hpts & Vn & Fn & Bn) (H1 & H2 & H3).
  pose proof (param_pos sf2 Hs) as Sp. pose proof (pos_INR mk) as M0.
  assert (B100 : 1 <= 2 ^ 100) by (apply pow_R1_Rle; lra).
  assert (D52 : 0 <= / 2 ^ 52 <= / 2 ^ 20).
  { split; [left; apply Rinv_0_lt_compat, pow_lt; lra|]. apply Rinv_le_contravar; [apply pow_lt; lra|apply Rle_pow; [lra|lia]]. }
  assert (Km : INR mk <= 2 ^ 40). { apply Rle_trans with (1 := Hm). replace 128 with (2 ^ 7) by ring. apply Rle_pow; [lra|lia]. }
  assert (V : forall i j same r, (i <= n)%nat -> (j <= n)%nat -> computes fexp mk sf2 noise p (pts i) (pts j) same r ->
    0 <= K_of sf2 p pts i j <= 1 /\ dbl 2 r /\ Rabs (fval r - (K_of sf2 p pts i j + (if same then nugget noise else 0))) <= keps).
  { intros i j same r Hi Hj Hr.
    destruct (C70_kernels fexp (/ 2 ^ 52) mk d sf2 noise p (pts i) (pts j) same r He D52 Km Hd Hs Hp (Hpts i Hi) (Hpts j Hj) Vn Fn ltac:(lra) Hr) as (Vr & Fr & Er).
    pose proof (exact_bounds d sf2 p (pts i) (pts j) Hs Hp (Hpts i Hi) (Hpts j Hj)) as EB.
    change (exact sf2 p (pts i) (pts j)) with (K_of sf2 p pts i j) in *. cbv zeta in Er.
    set (c := if same then nugget noise else 0) in *.
    assert (C : 0 <= c <= 91 / 100) by (unfold c, nugget; destruct same; lra).
    assert (E : Rabs (fval r - (K_of sf2 p pts i j + c)) <= keps).
    { apply Rle_trans with (1 := Er). unfold keps.
      apply Rle_trans with (((8 * 128 + 170) * / 2 ^ 53 + 2 * / 2 ^ 52) * (191 / 100)); [|lra].
      apply Rmult_le_compat; try lra. }
    split; [lra|]. split; [|exact E]. split; auto. split; auto. unfold keps in E. apply Rabs_le_inv in E. apply Rabs_le. lra. }
  split.
  { intros i j Hi Hj. apply exact_sym with d; apply Hpts; lia. }
  split.
  { apply exact_psd with d; auto. intros i Hi. apply Hpts. lia. }
  split.
  { intros i j Hi Hj. destruct (V i j _ _ ltac:(lia) ltac:(lia) (H1 i j Hi Hj)) as (_ & A & B). split; auto. }
  split.
  - intros i Hi. destruct (V i n _ _ ltac:(lia) ltac:(lia) (H2 i Hi)) as (A & B & C). rewrite Rplus_0_r in C. split; auto. rewrite Rabs_pos_eq; lra.
  - destruct (V n n _ _ ltac:(lia) ltac:(lia) H3) as (A & B & C). rewrite Rplus_0_r in C. auto.
Qed.
Lemma le1000 n : (n <= 1000)%nat -> INR n <= 1000.
Proof. intros H. replace 1000 with (INR (Z.to_nat 1000)) by (rewrite INR_IZR_INZ, Z2Nat.id by lia; reflexivity). apply le_INR. lia. Qed.
Lemma err_usual m : INR m <= 3000 -> 0 <= err m 2 <= 47 / 10000000000000.
Proof.
  intros Hm. pose proof (pos_INR m). unfold err. split.
  - apply Rmult_le_pos; [|lra]. apply Rmult_le_pos; [lra|]. left. apply Rinv_0_lt_compat, pow_lt. lra.
  - apply Rle_trans with (7 * 3004 * / 2 ^ 53 * 2); lra.
Qed.

(** The factorisation never meets a pivot that is not positive and runs to its end; every factor
    limbo may hold, computed at once or grown sample by sample, is finite. *)
Theorem C70_factor : forall fexp mk d sf2 noise p n pts kf kq kvv m,
  usual fexp mk d sf2 noise p n pts -> kernel_values fexp mk sf2 noise p n pts kf kq kvv -> INR m <= 3000 ->
  ~ llt_stops m n (kernel_full kf) /\
  ((n <= m)%nat -> exists L, llt m n (kernel_full kf) L) /\
  forall A L, built m kf n A L ->
    (forall i j, (j <= i < n)%nat -> fvalid (L i j) /\ ffin (L i j)) /\
    (forall i, (i < n)%nat -> 0 < fval (L i i)) /\
    (forall i j, (i < n)%nat -> (j < n)%nat ->
       Rabs (noisy (K_of sf2 p pts) (nugget noise) i j - rsum n (fun c => lowr L i c * lowr L j c)) <= 5 / 1000000000000).
Proof.
  intros fexp mk d sf2 noise p n pts kf kq kvv m HU HK Hm.
  destruct (usual_values fexp mk d sf2 noise p n pts kf kq kvv HU HK) as (S1 & S2 & S3 & S4 & S5 & S6).
  destruct HU as (He & Hmk & Hd & Hn & Hs & Hs1 & Hp & Hpts & Vn & Fn & Bn).
  pose proof (err_usual m Hm) as E. pose proof (le1000 n ltac:(lia)) as N1. pose proof (pos_INR n) as N0.
  destruct (C69_factorisation m n (K_of sf2 p pts) (nugget noise) 2 keps kf) as (A1 & A2 & A3); auto.
  - split; [apply Rle_trans with (1 := Hm); lra|]. assert (1 <= 2 ^ 499) by (apply pow_R1_Rle; lra). split; [|change (2 ^ 500) with (2 * 2 ^ 499); lra].
    apply Rle_trans with (/ 1); [|lra]. apply Rinv_le_contravar; [lra|]. apply pow_R1_Rle. lra.
  - unfold keps; lra.
  - intros i j Hi Hj. apply S1; lia.
  - now apply psd_minor.
  - apply Rle_trans with (1001 * (50 / 10000000000000)); [|unfold nugget; lra]. apply Rmult_le_compat; unfold keps; lra.
  - split; auto. split; auto. intros A L HB. destruct (A3 A L HB) as (B1 & B2 & B3). split; auto. split; auto.
    intros i j Hi Hj. apply Rle_trans with (1 := proj2 (B3 i j Hi Hj)). unfold keps. lra.
Qed.

(** The computed variance against the posterior variance of the exact kernel. *)
Theorem C70_variance : forall fexp mk d sf2 noise p n pts kf kq kvv m A L r,
  usual fexp mk d sf2 noise p n pts -> kernel_values fexp mk sf2 noise p n pts kf kq kvv -> INR m <= 3000 ->
  built m kf n A L -> sigma_of m n L kq kvv r ->
  let K := K_of sf2 p pts in
  exists B, is_inv n (noisy K (nugget noise)) B /\
    let V := K n n - rsum n (fun i => K i n * rsum n (fun j => B i j * K j n)) in
    ffin r /\ 0 <= fval r /\ 0 <= V /\ Rabs (fval r - V) <= 1 / 1000000.
Proof.
  intros fexp mk d sf2 noise p n pts kf kq kvv m A L r HU HK Hm HB Hr K.
  destruct (usual_values fexp mk d sf2 noise p n pts kf kq kvv HU HK) as (S1 & S2 & S3 & S4 & S5 & S6).
  destruct HU as (He & Hmk & Hd & Hn & Hs & Hs1 & Hp & Hpts & Vn & Fn & Bn).
  pose proof (err_usual m Hm) as E. pose proof (le1000 n ltac:(lia)) as N1. pose proof (pos_INR n) as N0.
  assert (E1 : 0 <= (INR n + 2) * (err m 2 + keps) <= 1002 * (50 / 10000000000000)).
  { unfold keps. split; [apply Rmult_le_pos; lra|]. apply Rmult_le_compat; lra. }
  destruct (C69_variance m n K (nugget noise) 2 keps kf A L kq kvv r) as (B & Bi & F1 & F2 & F3 & F4); auto; try lia.
  - split; [apply Rle_trans with (1 := Hm); lra|]. assert (1 <= 2 ^ 499) by (apply pow_R1_Rle; lra). split; [|change (2 ^ 500) with (2 * 2 ^ 499); lra].
    apply Rle_trans with (/ 1); [|lra]. apply Rinv_le_contravar; [lra|]. apply pow_R1_Rle. lra.
  - unfold keps; lra.
  - unfold nugget; lra.
  - intros i Hi. split; apply S4; auto.
  - exists B. split; auto. cbv zeta. split; auto. split; auto. split; auto. apply Rle_trans with (1 := F4).
    pose proof (exact_bounds d sf2 p (pts n) (pts n) Hs Hp (Hpts n (le_n _)) (Hpts n (le_n _))) as EB. change (exact sf2 p (pts n) (pts n)) with (K n n) in EB.
    assert (Kn : K n n / nugget noise <= 102).
    { apply Rmult_le_reg_r with (nugget noise); [unfold nugget; lra|]. replace (K n n / nugget noise * nugget noise) with (K n n) by (field; unfold nugget; lra). unfold nugget; lra. }
    assert (Q : (INR n + 2) * (err m 2 + keps) * (1 + K n n / nugget noise) <= 1002 * (50 / 10000000000000) * 103).
    { apply Rle_trans with ((INR n + 2) * (err m 2 + keps) * 103); [apply Rmult_le_compat_l; lra|apply Rmult_le_compat_r; lra]. }
    apply Rle_trans with (1002 * (50 / 10000000000000) * 103 + / 2 ^ 52); lra.
Qed.

Lemma tiny_usual n : INR n <= 1000 -> 0 <= tiny n 2 <= / 10 ^ 30.
Proof.
  intros Hn. pose proof (pos_INR n) as N0. unfold tiny.
  assert (P : 0 < / 2 ^ 1075) by (apply Rinv_0_lt_compat, pow_lt; lra).
  assert (Q : 0 < 2 ^ 50) by (apply pow_lt; lra).
  split; [apply Rmult_le_pos; [|lra]; apply Rmult_le_pos; [lra|]; apply Rmult_le_pos; lra|].
  apply Rle_trans with (2 * (/ 2 ^ 1075 * 2 ^ 51) * 2 ^ 10).
  - set (e := / 2 ^ 1075) in *. clearbody e. apply Rmult_le_compat.
    + apply Rmult_le_pos; [lra|]; apply Rmult_le_pos; lra.
    + lra.
    + apply Rmult_le_compat_l; [lra|]. apply Rmult_le_compat_l; lra.
    + lra.
  - replace (2 * (/ 2 ^ 1075 * 2 ^ 51) * 2 ^ 10) with (/ 2 ^ 1075 * 2 ^ 62) by ring.
    assert (2 ^ 1075 = 2 ^ 62 * 2 ^ 1013) as -> by (rewrite <- pow_add; reflexivity).
    rewrite Rinv_mult. replace (/ 2 ^ 62 * / 2 ^ 1013 * 2 ^ 62) with (/ 2 ^ 1013) by (field; split; apply pow_nonzero; lra).
    apply Rinv_le_contravar; [apply pow_lt; lra|]. apply Rle_trans with (2 ^ 100); [lra|]. apply Rle_pow; [lra|lia].
Qed.

(** The computed mean against the posterior mean of the exact kernel; [xs] = the exact weights
    [(K + noise)^-1 (y - m)]. *)
Theorem C70_mean : forall fexp mk d sf2 noise p n pts kf kq kvv m A L y x mv r,
  usual fexp mk d sf2 noise p n pts -> kernel_values fexp mk sf2 noise p n pts kf kq kvv -> INR m <= 3000 ->
  built m kf n A L ->
  (forall i, (i < n)%nat -> dbl (2 ^ 200) (y i)) -> dbl (2 ^ 200) mv ->
  alpha_of m n L y x -> mu_of m n kq x mv r ->
  let K := K_of sf2 p pts in
  (forall i, (i < n)%nat -> ffin (x i)) /\ ffin r /\
  exists B, is_inv n (noisy K (nugget noise)) B /\
    let xs := fun i => rsum n (fun j => B i j * fval (y j)) in
    Rabs (fval r - (fval mv + rsum n (fun i => K i n * xs i)))
    <= 6 / 1000000 * rsum n (fun i => Rabs (xs i)) + 1 / 10 ^ 12 * (1 + Rabs (fval mv)).
Proof.
  intros fexp mk d sf2 noise p n pts kf kq kvv m A L y x mv r HU HK Hm HB Hy Hmv Hx Hr K.
  destruct (usual_values fexp mk d sf2 noise p n pts kf kq kvv HU HK) as (S1 & S2 & S3 & S4 & S5 & S6).
  destruct HU as (He & Hmk & Hd & Hn & Hs & Hs1 & Hp & Hpts & Vn & Fn & Bn).
  pose proof (err_usual m Hm) as E. pose proof (le1000 n ltac:(lia)) as N1. pose proof (pos_INR n) as N0. pose proof (pos_INR m) as M0.
  assert (E1 : 0 <= (INR n + 2) * (err m 2 + keps) <= 1002 * (50 / 10000000000000)).
  { unfold keps. split; [apply Rmult_le_pos; lra|]. apply Rmult_le_compat; lra. }
  assert (Ng : 99 / 10000 <= nugget noise) by (unfold nugget; lra).
  destruct (C69_mean_finite m n K (nugget noise) 2 keps kf A L kq y x mv r) as (F1 & F2 & B & Bi & F3); auto.
  - apply Rle_trans with (1 := Hm). lra.
  - split; [|lra]. apply Rle_trans with (/ 1); [|lra]. apply Rinv_le_contravar; [lra|]. apply pow_R1_Rle. lra.
  - unfold keps; lra.
  - now apply psd_minor.
  - lra.
  - split; auto. split; auto. exists B. split; auto. cbv zeta in F3 |- *. apply Rle_trans with (1 := F3). clear F3.
    set (X := rsum n (fun i => Rabs (rsum n (fun j => B i j * fval (y j))))).
    assert (X0 : 0 <= X) by (apply rsum_nonneg; intros; apply Rabs_pos).
    pose proof (tiny_usual n N1) as T. set (t := tiny n 2) in *.
    assert (I : 0 < / nugget noise <= 10000 / 99).
    { split; [apply Rinv_0_lt_compat; lra|]. replace (10000 / 99) with (/ (99 / 10000)) by field. apply Rinv_le_contravar; lra. }
    assert (Bt : 0 <= INR n * t / nugget noise <= 1000 * / 10 ^ 30 * (10000 / 99)).
    { unfold Rdiv at 1 3. split; [apply Rmult_le_pos; [apply Rmult_le_pos|]; lra|]. apply Rmult_le_compat; try lra; [apply Rmult_le_pos; lra|]. apply Rmult_le_compat; lra. }
    set (q := INR n * t / nugget noise) in *.
    assert (Q1 : INR n * ((3 * err m 2 + keps) * (2 * (X + q)) + t) / nugget noise
      <= 1000 * (10000 / 99) * (144 / 10 ^ 13 * (2 * (X + q)) + t)).
    { unfold Rdiv at 1. rewrite (Rmult_assoc (INR n)), (Rmult_comm _ (/ nugget noise)), <- Rmult_assoc.
      assert (0 <= (3 * err m 2 + keps) * (2 * (X + q))) by (unfold keps; apply Rmult_le_pos; lra).
      apply Rmult_le_compat; [apply Rmult_le_pos; lra|lra|apply Rmult_le_compat; lra|].
      apply Rplus_le_compat_r. apply Rmult_le_compat_r; [lra|]. unfold keps. lra. }
    assert (Q2 : 2 * INR m * / 2 ^ 53 * (Rabs (fval mv) + 2 * (2 * (X + q))) <= 2 * 3000 * / 2 ^ 53 * (Rabs (fval mv) + 2 * (2 * (X + q)))).
    { pose proof (Rabs_pos (fval mv)). apply Rmult_le_compat_r; [lra|]. apply Rmult_le_compat_r; lra. }
    assert (Q3 : 2 * INR m * / 2 ^ 1075 <= 2 * 3000 * / 2 ^ 100).
    { apply Rmult_le_compat; lra. }
    pose proof (Rabs_pos (fval mv)) as M. unfold keps in *. clearbody X q t. clear - Q1 Q2 Q3 X0 Bt T M. lra.
Qed.

(** ** Examples *)
(** the double nearest to the exact exponential meets the contract *)
Definition of_R (v : R) : F := fofZe (Ztrunc (scaled_mantissa radix2 fexp64 v)) (cexp radix2 fexp64 v).
Definition best_exp (x : F) : F := of_R (rnd (exp (fval x))).
Lemma of_R_val v : generic_format radix2 fexp64 v -> Rabs v < bpow radix2 1024 -> ffin (of_R v) /\ fval (of_R v) = v.
Proof.
  intros G H. unfold of_R, fofZe. rewrite bn_equiv.
  set (mz := Ztrunc (scaled_mantissa radix2 fexp64 v)). set (ez := cexp radix2 fexp64 v).
  assert (E : F2R (Float radix2 mz ez) = v) by (symmetry; exact G).
  pose proof (BinarySingleNaN.binary_normalize_correct fprec femax Hfprec Hfemax BinarySingleNaN.mode_NE mz ez false) as C.
  cbv zeta in C. rewrite E in C. change (BinarySingleNaN.round_mode BinarySingleNaN.mode_NE) with ZnearestE in C.
  change (round radix2 (fexp fprec femax) ZnearestE v) with (rnd v) in C.
  assert (Ev : rnd v = v) by now apply rnd_gf. rewrite Ev in C.
  rewrite Rlt_bool_true in C by exact H. destruct C as (C1 & C2 & _).
  unfold ffin, fval. rewrite BinarySingleNaN.is_finite_SF_B2SF, BinarySingleNaN.SF2R_B2SF. auto.
Qed.
Example C70_libm_example : libm_exp best_exp (/ 2 ^ 52).
Proof.
  intros x V Fx N. pose proof (exp_pos (fval x)) as P.
  assert (L : exp (fval x) <= 1). { rewrite <- exp_0. destruct N as [N|N]; [left; now apply exp_increasing|rewrite N; lra]. }
  assert (B : Rabs (exp (fval x)) <= bp 0). { rewrite Rabs_pos_eq by lra. exact L. }
  destruct (of_R_val (rnd (exp (fval x)))) as (A1 & A2).
  - apply generic_format_round; typeclasses eauto.
  - apply Rle_lt_trans with (bp 0); [now apply rnd_abs|]. apply bpow_lt. lia.
  - split; [apply fofZe_valid|]. split; auto. unfold best_exp. rewrite A2.
    apply Rle_trans with (1 := rnd_error _). rewrite Rabs_pos_eq by lra. rewrite <- (bp_inv 52), <- (bp_inv 1074).
    change (bp (- Z.of_nat 52)) with (bp (-52)). change (bp (- Z.of_nat 1074)) with (bp (-1074)).
    assert (uu <= bp (-52)) by (apply bp_le; lia). assert (e0 <= bp (-1074)) by (apply bp_le; lia).
    apply Rplus_le_compat; auto. apply Rmult_le_compat_r; lra.
Qed.

(** one order of evaluation, from the right, starting at 0 *)
Fixpoint sq_chain (v : fpt) : sumx := match v with [] => Num f0 | a :: v => Plus (Mul a a) (sq_chain v) end.
Definition kval (fexp : F -> F) (sf2 noise : F) (p : kpar) (x y : fpt) (same : bool) : F :=
  let s := feval (sq_chain (fvsub x y)) in
  let c := if same then fadd noise jit else f0 in
  match p with
  | PExp l => fadd (fmul sf2 (fexp (fmul mhalf (fdiv s (fmul l l))))) c
  | PMatern3 l => let t := fdiv (fmul (fsqrt (fof 3)) (fsqrt s)) l in fadd (fmul (fmul sf2 (fadd f1 t)) (fexp (fopp t))) c
  | PMatern5 l =>
      let t := fdiv (fmul (fsqrt (fof 5)) (fsqrt s)) l in
      let t2 := fdiv (fmul (fof 5) (fmul (fsqrt s) (fsqrt s))) (fmul (fof 3) (fmul l l)) in
      fadd (fmul (fmul sf2 (fadd (fadd f1 t) t2)) (fexp (fopp t))) c
  | PArd ell => fadd (fmul sf2 (fexp (fmul mhalf (feval (sq_chain (fvquot (fvsub x y) ell)))))) c
  end.
Lemma sq_chain_ok m v : (2 * length v <= m)%nat -> sqnorm m v (feval (sq_chain v)).
Proof.
  intros H. exists (sq_chain v), [(false, TNum f0)]. split; [|split; [repeat constructor|split; [|reflexivity]]].
  - clear H. induction v as [|a v IH]; cbn; [constructor; constructor|]. now constructor.
  - apply Nat.le_trans with (2 := H). clear H. induction v as [|a v IH]; cbn in *; [lia|]. lia.
Qed.
Lemma kval_ok fexp m d sf2 noise p x y same : kpar_ok d p -> point d x -> point d y -> (2 * d <= m)%nat ->
  computes fexp m sf2 noise p x y same (kval fexp sf2 noise p x y same).
Proof.
  intros Hp [Hx _] [Hy _] Hm.
  assert (L : length (fvsub x y) = d) by (unfold fvsub; rewrite map_length, combine_length; lia).
  assert (S1 : sqnorm m (fvsub x y) (feval (sq_chain (fvsub x y)))) by (apply sq_chain_ok; lia).
  destruct p as [l|l|l|ell]; unfold computes, kval; cbn [kpar_ok] in Hp; eexists; (split; [|left; cbv zeta; cbn [fst snd]]).
  1: exists (feval (sq_chain (fvsub x y))); split; [exact S1|reflexivity].
  1: reflexivity.
  1: exists (feval (sq_chain (fvsub x y))); split; [exact S1|reflexivity].
  1: reflexivity.
  1: exists (feval (sq_chain (fvsub x y))); split; [exact S1|reflexivity].
  1: reflexivity.
  - exists (feval (sq_chain (fvquot (fvsub x y) ell))). split; [|reflexivity]. apply sq_chain_ok.
    unfold fvquot. rewrite map_length, combine_length. lia.
  - reflexivity.
Qed.
(** two samples and a query in the plane, with any of the kernels at the default length scale and
    noise: the conditions hold and the code computes values *)
Definition ex_pts (i : nat) : fpt := match i with 0%nat => [f0; f0] | 1%nat => [f1; f0] | _ => [fofZe 1 (-1); f1] end.
Definition ex_noise : F := fofZe 5764607523034235 (-59).
Example C70_example : forall p, In p [PExp f1; PMatern3 f1; PMatern5 f1; PArd [f1; fofZe 1 (-1)]] ->
  usual best_exp 4 2 f1 ex_noise p 2 ex_pts /\
  exists kf kq kvv, kernel_values best_exp 4 f1 ex_noise p 2 ex_pts kf kq kvv.
Proof.
  intros p Hp.
  assert (E0 : fvalid f0 /\ ffin f0 /\ fval f0 = 0) by apply f0_ok.
  assert (E1 : fvalid f1 /\ ffin f1 /\ fval f1 = 1) by (split; [reflexivity|split; [reflexivity|]]; cbv -[IZR F2R bpow]; unfold F2R; simpl; lra).
  assert (Eh : fvalid (fofZe 1 (-1)) /\ ffin (fofZe 1 (-1)) /\ fval (fofZe 1 (-1)) = 1 / 2)
    by (split; [reflexivity|split; [reflexivity|]]; cbv -[IZR F2R bpow]; unfold F2R; simpl; lra).
  assert (En : fvalid ex_noise /\ ffin ex_noise /\ 99 / 10000 <= fval ex_noise <= 9 / 10)
    by (split; [reflexivity|split; [reflexivity|]]; cbv -[IZR F2R bpow Rle Rdiv]; unfold F2R; simpl; lra).
  assert (B : 1 <= 2 ^ 100) by (apply pow_R1_Rle; lra).
  assert (Bi : / 2 ^ 100 <= 1 / 2) by lra.
  assert (P1 : param f1) by (destruct E1 as (A1 & A2 & A3); split; auto; split; auto; rewrite A3; lra).
  assert (Ph : param (fofZe 1 (-1))) by (destruct Eh as (A1 & A2 & A3); split; auto; split; auto; rewrite A3; lra).
  assert (KP : kpar_ok 2 p).
  { destruct Hp as [<-|[<-|[<-|[<-|[]]]]]; cbn; auto. split; auto. intros l [<-|[<-|[]]]; auto. }
  assert (C : forall a, In a [f0; f1; fofZe 1 (-1)] -> fvalid a /\ ffin a /\ Rabs (fval a) <= 2 ^ 100).
  { intros a Ha. destruct Ha as [<-|[<-|[<-|[]]]]; [destruct E0 as (A1 & A2 & A3)|destruct E1 as (A1 & A2 & A3)|destruct Eh as (A1 & A2 & A3)];
      rewrite A3; split; auto; split; auto; rewrite Rabs_pos_eq; lra. }
  assert (PP : forall i, point 2 (ex_pts i)).
  { intros i. split; [destruct i as [|[|i]]; reflexivity|]. intros a Ha. apply C. destruct i as [|[|i]]; cbn in Ha |- *; tauto. }
  split.
  - split; [apply C70_libm_example|]. split; [simpl; lra|]. split; [simpl; lra|]. split; [lia|]. split; auto.
    split; [destruct E1 as (_ & _ & ->); lra|]. split; auto.
  - exists (fun i j => kval best_exp f1 ex_noise p (ex_pts i) (ex_pts j) (i =? j)%nat),
      (fun i => kval best_exp f1 ex_noise p (ex_pts i) (ex_pts 2) false), (kval best_exp f1 ex_noise p (ex_pts 2) (ex_pts 2) false).
    split; [|split]; intros; apply kval_ok with 2%nat; auto; lia.
Qed.

(** ** Outside the range *)
(** [_l * _l] is 0 when [_l] is below 2^-538 (the hyper-parameters are logarithms without lower
    bound): the kernel of a point with itself is 0/0, a NaN, where it should be the signal variance. *)
Lemma feval_zero s : forall b, (forall t, In t (terms b s) -> snd t = TNum f0 \/ snd t = TMul f0 f0) -> exists z, feval s = S754_zero z.
Proof.
  induction s; intros d H; cbn [terms feval] in *.
  - destruct (H _ (or_introl eq_refl)) as [E|E]; cbn in E; inversion E; subst. eexists; reflexivity.
  - destruct (H _ (or_introl eq_refl)) as [E|E]; cbn in E; inversion E; subst. eexists; reflexivity.
  - destruct (IHs1 d) as (z1 & ->); [intros t Ht; apply H, in_or_app; auto|].
    destruct (IHs2 d) as (z2 & ->); [intros t Ht; apply H, in_or_app; auto|]. destruct z1, z2; eexists; reflexivity.
  - destruct (IHs1 d) as (z1 & ->); [intros t Ht; apply H, in_or_app; auto|].
    destruct (IHs2 (negb d)) as (z2 & ->); [intros t Ht; apply H, in_or_app; auto|]. destruct z1, z2; eexists; reflexivity.
  - destruct (H _ (or_introl eq_refl)) as [E|E]; cbn in E; inversion E; subst.
    destruct (IHs d) as (z1 & ->); [intros t Ht; apply H; now right|]. destruct z1; eexists; reflexivity.
  - destruct (H _ (or_introl eq_refl)) as [E|E]; cbn in E; inversion E; subst.
    destruct (IHs d) as (z1 & ->); [intros t Ht; apply H; now right|]. destruct z1; eexists; reflexivity.
Qed.
Definition tiny_l : F := fofZe 1 (-600).
Theorem C70_tiny_scale_refuted : exists l x, fvalid l /\ ffin l /\ 0 < fval l /\ point 1 x /\
  forall p, p = PExp l \/ p = PMatern5 l -> exact f1 p x x = 1 /\
    forall fexp m noise same r, fexp fnan = fnan -> computes fexp m f1 noise p x x same r -> r = fnan.
Proof.
  assert (E0 : fvalid f0 /\ ffin f0 /\ fval f0 = 0) by apply f0_ok.
  assert (E1 : fval f1 = 1) by (cbv -[IZR F2R bpow]; unfold F2R; simpl; lra).
  exists tiny_l, [f0]. split; [apply fofZe_valid|]. split; [reflexivity|]. split.
  { unfold tiny_l, fval. vm_compute (fofZe 1 (-600)). unfold BinarySingleNaN.SF2R. apply F2R_gt_0. reflexivity. }
  split.
  { split; auto. intros a [<-|[]]. destruct E0 as (A1 & A2 & ->). split; auto. split; auto. rewrite Rabs_R0. apply pow_le. lra. }
  assert (Q : sqdist (rpt [f0]) (rpt [f0]) = 0). { unfold sqdist. apply rsum_0. intros. ring. }
  assert (Z : forall m s, sqnorm m (fvsub [f0] [f0]) s -> exists z, s = S754_zero z).
  { intros m s (t & zs & P & Hz & _ & ->). apply feval_zero with false. intros u Hu. apply (Permutation_in u P) in Hu.
    apply in_app_or in Hu. destruct Hu as [[<-|[]]|Hu]; [now right|]. left. rewrite Forall_forall in Hz. now apply Hz. }
  assert (KN : forall noise a same r, kop_f noise (a, fnan) same r -> r = fnan).
  { intros noise a same r Hr. unfold kop_f in Hr. cbn [fst snd] in Hr. destruct Hr as [->| ->].
    - replace (fmul a fnan) with fnan by (destruct a; reflexivity). reflexivity.
    - destruct a; reflexivity. }
  assert (KN2 : forall noise b same r, kop_f noise (fnan, b) same r -> r = fnan).
  { intros noise a same r Hr. unfold kop_f in Hr. cbn [fst snd] in Hr. destruct Hr as [->| ->].
    - replace (fmul fnan a) with fnan by (destruct a; reflexivity). reflexivity.
    - destruct a; reflexivity. }
  intros p [->| ->].
  - split.
    { cbn [exact]. unfold exp_kernel. rewrite Q. cbn [iso_new i_sf2 i_l]. rewrite E1. unfold Rdiv. rewrite Rmult_0_l, Rmult_0_r, exp_0. ring. }
    intros fexp m noise same r Hn (k & (s & Hs & ->) & Hr). destruct (Z m s Hs) as (z & ->).
    replace (fmul mhalf (fdiv (S754_zero z) (fmul tiny_l tiny_l))) with fnan in Hr by (destruct z; vm_compute; reflexivity).
    rewrite Hn in Hr. now apply KN in Hr.
  - split.
    { cbn [exact]. unfold matern5_kernel, dist. rewrite Q, sqrt_0. cbn [iso_new i_sf2 i_l]. rewrite E1. unfold Rdiv.
      rewrite !Rmult_0_r, !Rmult_0_l, Ropp_0, exp_0. ring. }
    intros fexp m noise same r Hn (k & (s & Hs & ->) & Hr). destruct (Z m s Hs) as (z & ->).
    match type of Hr with kop_f _ (?a, _) _ _ => replace a with fnan in Hr by (destruct z; vm_compute; reflexivity) end.
    now apply KN2 in Hr.
Qed.
