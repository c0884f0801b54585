(** Error analysis of the kernels in double precision, continued: the four kernels and the noise. *)
From Coq Require Import Reals ZArith List Bool Lia Lra.
From Coquelicot Require Rcomplements.
From Coq Require Import Floats.SpecFloat.
From Flocq Require Import Core BinarySingleNaN.
From Verif Require Import F64 F64R AdamFloat FpModel FpErr FpChol FpKerModel FpKer.
Import ListNotations.
Open Scope R_scope.

(** the contract assumed of std::exp for arguments that are not positive: a relative error [del], and
    an absolute error of one subnormal number *)
Definition exp_ok (fexp : F -> F) (del : R) : Prop :=
  forall x, fvalid x -> ffin x -> fval x <= 0 ->
    fvalid (fexp x) /\ ffin (fexp x) /\ Rabs (fval (fexp x) - exp (fval x)) <= del * exp (fval x) + bp (-1074).

Section Ker.
  Variable fexp : F -> F.
  Variable del : R.
  Hypothesis Hexp : exp_ok fexp del.
  Hypothesis Hdel : 0 <= del <= bp (-20).
  Variable m : nat.
  Hypothesis Hm : small m.

  Lemma m42 : 2 * INR m + 18 <= bp 42.
  Proof.
    pose proof Hm as H. unfold small in H. rewrite bpow_pos_IZR in H by lia. replace (bp 42) with (4 * bp 40) by (rewrite (bpow_plus _ 40 2 : bp 42 = _); change (bp 2) with 4; ring).
    assert (bp 5 <= bp 40) by (apply bp_le; lia). change (bp 5) with 32 in *. lra.
  Qed.
  Lemma m0 : 0 <= INR m. Proof. apply pos_INR. Qed.

  (** the product of the two factors of a kernel *)
  Lemma product_err a q sf2 A P g arg t' : 0 <= a <= 100 -> (q <= 800)%Z -> scale sf2 ->
    dub a q A (fval sf2 * P) -> 0 <= P -> P * exp (- t') = g -> g <= 1 -> 0 <= t' ->
    fvalid arg -> ffin arg -> fval arg = - t' ->
    fvalid (fexp arg) /\ ffin (fexp arg) /\
    Rabs (fval A * fval (fexp arg) - fval sf2 * g) <= fval sf2 * ((a + 1) * uu + 2 * del).
  Proof.
    intros Ha Hq (Vs & Fs & Bs1 & Bs2) (VA & FA & (BA1 & BA2) & NA) HP Hg Hg1 Ht Va Fa Ea.
    destruct (Hexp arg Va Fa ltac:(lra)) as (V & Fi & Er). rewrite Ea in Er. split; auto. split; auto.
    pose proof (bp_pos (-100)) as B0. pose proof (exp_pos (- t')) as E0. pose proof (bp_pos (- q)) as Q0. pose proof (bp_pos (-1074)) as T0.
    unfold near in NA. rewrite (Rabs_pos_eq (fval sf2 * P)) in NA by lra. set (S := fval sf2) in *. set (y := fval (fexp arg)) in *. set (w := exp (- t')) in *.
    assert (Au : a * uu <= / 2048) by (apply big_uu, hundred; lra). pose proof uu_pos as UP.
    assert (SP : 0 < S * P) by lra.
    assert (AA : Rabs (fval A) <= 2 * (S * P)).
    { replace (fval A) with ((fval A - S * P) + S * P) by ring. apply Rle_trans with (1 := Rabs_triang _ _). rewrite (Rabs_pos_eq (S * P)) by lra.
      assert (a * uu * (S * P) <= / 2048 * (S * P)) by (apply Rmult_le_compat_r; lra). lra. }
    replace (fval A * y - S * g) with ((fval A - S * P) * w + fval A * (y - w)) by (rewrite <- Hg; ring).
    apply Rle_trans with (1 := Rabs_triang _ _). rewrite !Rabs_mult, (Rabs_pos_eq w) by lra.
    assert (G1 : S * P * w <= S * 1) by (rewrite Rmult_assoc, Hg; apply Rmult_le_compat_l; lra).
    assert (X1 : Rabs (fval A - S * P) * w <= a * uu * (S * P) * w) by (apply Rmult_le_compat_r; lra).
    assert (X2 : a * uu * (S * P) * w <= a * uu * S) by (rewrite Rmult_assoc; apply Rmult_le_compat_l; [apply Rmult_le_pos|]; lra).
    assert (X3 : Rabs (fval A) * Rabs (y - w) <= 2 * (S * P) * (del * w + bp (-1074))) by (apply Rmult_le_compat; auto; apply Rabs_pos).
    assert (X4 : del * (S * P * w) <= del * (S * 1)) by (apply Rmult_le_compat_l; lra).
    assert (X5 : 2 * (S * P) * bp (-1074) <= S * uu).
    { apply Rle_trans with (2 * bp q * bp (-1074)); [apply Rmult_le_compat_r; lra|].
      apply Rle_trans with (bp (-100) * uu); [|apply Rmult_le_compat_r; lra].
      change 2 with (bp 1). unfold uu. rewrite <- !bpow_plus. apply bp_le. lia. }
    lra.
  Qed.

  (** from the value at the computed argument to the value at the exact one *)
  Lemma total_err a at_ e g sf2 v t t' : scale sf2 -> 0 <= at_ <= bp 42 -> (e <= -60)%Z ->
    (forall th eta, Rabs (t' - t) <= th * t + eta -> 0 <= th <= 1 / 2 -> 0 <= eta -> Rabs (g t' - g t) <= 4 * th + 2 * eta) ->
    0 <= t -> near at_ (bp e) t' t ->
    Rabs (v - fval sf2 * g t') <= fval sf2 * ((a + 1) * uu + 2 * del) ->
    Rabs (v - fval sf2 * g t) <= fval sf2 * ((a + 4 * at_ + 2) * uu + 2 * del).
  Proof.
    intros (_ & _ & Bs1 & Bs2) Ha He Hg Ht N H. pose proof (bp_pos (-100)) as B0. pose proof uu_pos as UP.
    unfold near in N. rewrite (Rabs_pos_eq t) in N by auto. pose proof (big_uu at_ ltac:(lra)) as U.
    assert (AU : 0 <= at_ * uu) by (apply Rmult_le_pos; lra). pose proof (bp_pos e) as PE.
    specialize (Hg (at_ * uu) (bp e) N ltac:(lra) ltac:(lra)).
    assert (EU : 2 * bp e <= uu). { change 2 with (bp 1). unfold uu. rewrite <- bpow_plus. apply bp_le. lia. }
    replace (v - fval sf2 * g t) with ((v - fval sf2 * g t') + fval sf2 * (g t' - g t)) by ring.
    apply Rle_trans with (1 := Rabs_triang _ _). rewrite Rabs_mult, (Rabs_pos_eq (fval sf2)) by lra.
    assert (fval sf2 * Rabs (g t' - g t) <= fval sf2 * (4 * (at_ * uu) + uu)) by (apply Rmult_le_compat_l; lra). lra.
  Qed.

  Lemma scale_sf2 sf2 : scale sf2 -> dub 0 100 sf2 (fval sf2 * 1).
  Proof. intros H. rewrite Rmult_1_r. now apply scale_dub. Qed.

  Variables x y : fpt.
  Hypothesis Hx : List.Forall coord x.
  Hypothesis Hy : List.Forall coord y.
  Hypothesis Hlen : length x = length y.
  Hypothesis Hd : INR (length x) <= bp 40.
  Variable sf2 : F.
  Hypothesis Hsf2 : scale sf2.

  Definition good_prod (k : prod2) (K : R) : Prop :=
    fvalid (fst k) /\ ffin (fst k) /\ fvalid (snd k) /\ ffin (snd k) /\
    Rabs (fval (fst k) * fval (snd k) - K) <= fval sf2 * ((8 * INR m + 160) * uu + 2 * del).

  Lemma finish v K c : c <= 8 * INR m + 160 -> Rabs (v - K) <= fval sf2 * (c * uu + 2 * del) ->
    Rabs (v - K) <= fval sf2 * ((8 * INR m + 160) * uu + 2 * del).
  Proof.
    intros Hc H. apply Rle_trans with (1 := H). destruct Hsf2 as (_ & _ & B1 & _). pose proof (bp_pos (-100)). pose proof uu_pos.
    apply Rmult_le_compat_l; [lra|]. apply Rplus_le_compat_r. apply Rmult_le_compat_r; lra.
  Qed.

  Lemma iso_sq s : sqnorm m (fvsub x y) s -> apx (2 * INR m + 4) (-914) 242 s (lsq (rdiff x y)) /\ 0 <= fval s.
  Proof.
    intros H. pose proof (sqnorm_apx m 1 (-1060) 101 (fvsub x y) (rdiff x y) s Hm ltac:(lra) ltac:(lia) ltac:(lia) ltac:(lia)) as G.
    rewrite rdiff_length in G by auto. destruct (G Hd (fvsub_apx x y Hx Hy) H) as (A & B). split; auto.
    replace (2 * INR m + 4) with (2 * INR m + 2 * 1 + 2) by ring. exact A.
  Qed.

  Lemma neg_val u v : fvalid u -> ffin u -> fval u <= 0 -> ffin (fmul u v) -> fvalid v -> 0 <= fval v -> fval (fmul u v) <= 0.
  Proof. intros Vu Fu H Fi Vv Hv. destruct (fmul_fin u v Vu Vv Fi) as (_ & _ & ->). apply rnd_nonpos. nra. Qed.
  Lemma mhalf_neg : fval mhalf <= 0.
  Proof. replace (fval mhalf) with (- (1 / 2)); [lra|]. cbv -[IZR F2R bpow]; unfold F2R; simpl; lra. Qed.

  (** squared exponential of a number *)
  Lemma sqexp_err a e p z' z : 0 <= a <= 2 * INR m + 15 -> apx a e p z' z -> 0 <= z -> 0 <= fval z' -> (e <= -80)%Z -> (p <= 800)%Z ->
    good_prod (sf2, fexp (fmul mhalf z')) (fval sf2 * exp (- (1 / 2) * z)).
  Proof.
    intros Ha Hz Hz0 Hz0' He Hp. pose proof m42 as M42. pose proof m0 as M0.
    assert (T : apx (0 + a + 3) (-70) (0 + p) (fmul mhalf z') (- (1 / 2) * z)).
    { destruct (Z_le_gt_dec 0 p) as [Hp0|Hp0].
      - apply apx_mul with (-1000)%Z e; auto; try lia; try lra; [rewrite Rmult_0_l; apply bpow_ge_0|exact mhalf_apx].
      - assert (Hz1 : apx a e 0 z' z). { destruct Hz as (V & Fi & N & B). repeat split; auto. apply Rle_trans with (1 := B). apply bp_le. lia. }
        assert (T : apx (0 + a + 3) (-70) (0 + 0) (fmul mhalf z') (- (1 / 2) * z)).
        { apply apx_mul with (-1000)%Z e; auto; try lia; try lra; [rewrite Rmult_0_l; apply bpow_ge_0|exact mhalf_apx]. }
        destruct T as (V & Fi & N & B). split; auto. split; auto. split; auto.
        destruct Hz as (_ & _ & _ & Bz). rewrite Rabs_mult, Rabs_Ropp, (Rabs_pos_eq (1 / 2)) by lra. pose proof (Rabs_pos z). change (0 + p)%Z with p. lra. }
    destruct T as (V & Fi & N & B). destruct Hz as (Vz & Fz & _ & _).
    assert (Sg : fval (fmul mhalf z') <= 0) by (apply neg_val; auto; [reflexivity|reflexivity|apply mhalf_neg]).
    set (t' := - fval (fmul mhalf z')). assert (T0 : 0 <= t') by (unfold t'; lra).
    assert (E : fval (fmul mhalf z') = - t') by (unfold t'; ring).
    destruct (product_err 0 100 sf2 sf2 1 (g1 t') (fmul mhalf z') t') as (Ve & Fe & Er); auto; try lra; try lia.
    - now apply scale_sf2.
    - unfold g1. ring.
    - unfold g1. now destruct (xexp t' T0) as ((_ & ?) & _).
    - destruct Hsf2 as (Vs & Fs & _). unfold good_prod. cbn [fst snd]. split; auto. split; auto. split; auto. split; auto.
      replace (fval sf2 * exp (- (1 / 2) * z)) with (fval sf2 * g1 (1 / 2 * z)) by (unfold g1; f_equal; f_equal; ring).
      apply finish with (0 + 4 * (a + 3) + 2); [lra|].
      apply (total_err 0 (a + 3) (-70) g1 sf2 _ (1 / 2 * z) t'); auto; try lra; try lia.
      + intros th eta H1 H2 H3. apply g1_pert; auto. lra.
      + unfold near in *. unfold t'. replace (- fval (fmul mhalf z') - 1 / 2 * z) with (- (fval (fmul mhalf z') - - (1 / 2) * z)) by ring.
        rewrite Rabs_Ropp. replace (Rabs (1 / 2 * z)) with (Rabs (- (1 / 2) * z)); [|rewrite <- Rabs_Ropp; f_equal; ring]. now rewrite Rplus_0_l in N.
  Qed.

  Lemma exp_err l k : scale l -> exp_k fexp m sf2 l x y k ->
    good_prod k (fval sf2 * exp (- (1 / 2) * (lsq (rdiff x y) / (fval l * fval l)))).
  Proof.
    intros Hl (s & Hs & ->). destruct (iso_sq s Hs) as (As & S0). pose proof m42 as M42. pose proof m0 as M0.
    pose proof (scale_dub l Hl) as Dl.
    assert (Dl2 : dub (0 + 0 + 4) (100 + 100) (fmul l l) (fval l * fval l)) by (apply dub_mul; auto; try lra; lia).
    assert (R : apx (2 * INR m + 4 + 2 * (0 + 0 + 4) + 3) (-700) (242 + (100 + 100)) (fdiv s (fmul l l)) (lsq (rdiff x y) / (fval l * fval l))).
    { apply apx_div with (-914)%Z; auto; try lra; try lia. }
    assert (L0 : 0 < fval l * fval l). { destruct Hl as (_ & _ & B & _). pose proof (bp_pos (-100)). apply Rmult_lt_0_compat; lra. }
    apply sqexp_err with (2 * INR m + 15) (-700)%Z (242 + (100 + 100))%Z; try lra; try lia.
    - replace (2 * INR m + 15) with (2 * INR m + 4 + 2 * (0 + 0 + 4) + 3) by ring. exact R.
    - apply Rmult_le_pos; [apply lsq_nonneg|]. left. now apply Rinv_0_lt_compat.
    - destruct R as (V & Fi & _). destruct Dl2 as (V2 & F2 & (B1 & B2) & N2).
      destruct As as (Vs & _). destruct (near_inv (0 + 0 + 4) (fval (fmul l l)) (fval l * fval l) ltac:(lra) ltac:(pose proof uu_small; pose proof uu_pos; lra) L0 N2) as (P2 & _).
      destruct (fdiv_fin s (fmul l l) Vs V2 F2 ltac:(lra) Fi) as (_ & ->). apply rnd_nonneg. apply Rmult_le_pos; auto. left. now apply Rinv_0_lt_compat.
  Qed.

  Lemma ard_err ell k : List.Forall scale ell -> length ell = length x -> ard_k fexp m sf2 ell x y k ->
    good_prod k (fval sf2 * exp (- (1 / 2) * lsq (rquot (rdiff x y) ell))).
  Proof.
    intros He Hl (z & Hz & ->). pose proof m42 as M42. pose proof m0 as M0.
    pose proof (sqnorm_apx m 4 (-955) 201 (fvquot (fvsub x y) ell) (rquot (rdiff x y) ell) z Hm ltac:(lra) ltac:(lia) ltac:(lia) ltac:(lia)) as G.
    rewrite rquot_length in G by (rewrite rdiff_length; auto). rewrite rdiff_length in G by auto.
    destruct (G Hd (fvquot_apx _ _ _ (fvsub_apx x y Hx Hy) He) Hz) as (A & B).
    apply (sqexp_err (2 * INR m + 2 * 4 + 2) _ _ _ _) with (2 := A); auto; try lra; try lia. apply lsq_nonneg.
  Qed.

  (** the norm of the difference *)
  Lemma iso_norm s : sqnorm m (fvsub x y) s ->
    apx (2 * INR m + 4 + 2) (-457 + 3) 121 (fsqrt s) (sqrt (lsq (rdiff x y))) /\ 0 <= fval (fsqrt s).
  Proof.
    intros H. destruct (iso_sq s H) as (As & S0). pose proof m42 as M42. pose proof m0 as M0.
    apply fsqrt_apx; auto; try lra; try lia. apply lsq_nonneg.
  Qed.

  (** sqrt(z) * d / l *)
  Definition term_f (z : Z) (d l : F) : F := fdiv (fmul (fsqrt (fof z)) d) l.
  Lemma term_apx z a e p d' d l r : (1 <= z <= 8)%Z -> scale l -> 0 <= a <= 2 * INR m + 10 -> apx a e p d' d -> (e <= 0)%Z -> (0 <= p <= 600)%Z ->
    (-950 <= r <= 0)%Z -> (e + 113 <= r)%Z -> (p - 950 <= r)%Z ->
    apx (3 + a + 3 + 2 * 0 + 3) r (3 + p + 100) (term_f z d' l) (sqrt (IZR z) * d / fval l).
  Proof.
    intros Hz Hl Ha Hap He Hp Hr R1 R2. pose proof m42 as M42. pose proof m0 as M0. pose proof (scale_dub l Hl) as Dl.
    assert (B : apx (3 + a + 3) (r - 105) (3 + p) (fmul (fsqrt (fof z)) d') (sqrt (IZR z) * d)).
    { assert (H3 : 0 <= 3 <= bp 42) by (split; [lra|apply hundred; lra]).
      assert (H3a : 3 * a <= bp 52). { apply Rle_trans with (8 * bp 42); [apply Rmult_le_compat; lra|change 8 with (bp 3); rewrite <- bpow_plus; apply bp_le; lia]. }
      pose proof (dub_apx 3 3 (-1060) _ _ (fsqrt_dub z Hz)) as Dc.
      apply apx_mul with (-1060)%Z e; auto; try lra; try lia. }
    unfold term_f. apply apx_div with (r - 105)%Z; auto; try lra; try lia.
  Qed.
  Lemma term_pos z d l : (1 <= z <= 8)%Z -> scale l -> fvalid d -> 0 <= fval d -> ffin (term_f z d l) -> 0 <= fval (term_f z d l).
  Proof.
    intros Hz (Vl & Fl & B1 & B2) Vd Hd0 Fi. pose proof (bp_pos (-100)) as P0. destruct (fsqrt_dub z Hz) as (Vc & Fc & (C1 & C2) & Nc).
    unfold term_f in *. destruct (fdiv_fin (fmul (fsqrt (fof z)) d) l (fmul_valid _ _ Vc Vd) Vl Fl ltac:(lra) Fi) as (Fm & ->).
    apply rnd_nonneg. apply Rmult_le_pos; [|left; apply Rinv_0_lt_compat; lra].
    destruct (fmul_fin _ _ Vc Vd Fm) as (_ & _ & ->). apply rnd_nonneg. apply Rmult_le_pos; auto.
    destruct (fof_val z Hz) as (V & Fz & E). assert (1 <= IZR z) by (apply IZR_le; lia).
    destruct (fsqrt_correct (fof z) V Fz ltac:(lra)) as (_ & ->). apply rnd_nonneg, sqrt_pos.
  Qed.
  Lemma one_dub q : (0 <= q)%Z -> dub 0 q f1 1.
  Proof.
    intros Hq. assert (E1 : fval f1 = 1) by (cbv -[IZR F2R bpow]; unfold F2R; simpl; lra).
    split; [reflexivity|]. split; [reflexivity|]. split.
    - change 1 with (bp 0). split; apply bp_le; lia.
    - unfold near. rewrite E1. replace (1 - 1) with 0 by ring. rewrite Rabs_R0. lra.
  Qed.
  Lemma near_self a e v : 0 <= a -> near a (bp e) v v.
  Proof. intros Ha. unfold near. replace (v - v) with 0 by ring. rewrite Rabs_R0. pose proof uu_pos. pose proof (bp_pos e). pose proof (Rabs_pos v). assert (0 <= a * uu * Rabs v) by (repeat apply Rmult_le_pos; lra). lra. Qed.

  Lemma opp_arg t : fvalid t -> ffin t -> fvalid (fopp t) /\ ffin (fopp t) /\ fval (fopp t) = - fval t.
  Proof. intros V Fi. split; [now apply fopp_valid|]. split; [now apply fin_opp|]. apply fopp_val. Qed.

  Lemma matern3_err l k : scale l -> matern3_k fexp m sf2 l x y k ->
    good_prod k (fval sf2 * g3 (sqrt 3 * sqrt (lsq (rdiff x y)) / fval l)).
  Proof.
    intros Hl (s & Hs & ->). cbv zeta. fold (term_f 3 (fsqrt s) l). destruct (iso_norm s Hs) as (An & N0). pose proof m42 as M42. pose proof m0 as M0.
    pose proof (term_apx 3 (2 * INR m + 4 + 2) (-457 + 3) 121 (fsqrt s) (sqrt (lsq (rdiff x y))) l (-341) ltac:(lia) Hl ltac:(lra) An ltac:(lia) ltac:(lia) ltac:(lia) ltac:(lia) ltac:(lia)) as T.
    pose proof (term_pos 3 (fsqrt s) l ltac:(lia) Hl (proj1 An) N0 (proj1 (proj2 T))) as T0.
    pose proof (apx_bound (3 + (2 * INR m + 4 + 2) + 3 + 2 * 0 + 3) (-341) (3 + 121 + 100) _ _ ltac:(lra) ltac:(lia) ltac:(lia) T) as TB. rewrite (Rabs_pos_eq _ T0) in TB.
    set (tm := term_f 3 (fsqrt s) l) in *. destruct T as (Vt & Ft & Nt & Bt).
    destruct (opp_arg tm Vt Ft) as (Vo & Fo & Eo).
    assert (D1 : dub (0 + 4) (226 + 2) (fadd f1 tm) (1 + fval tm)).
    { apply dub_add1; auto; try lra; try lia. apply near_self; lra. apply one_dub. lia. }
    assert (DA : dub (0 + (0 + 4) + 4) (100 + (226 + 2)) (fmul sf2 (fadd f1 tm)) (fval sf2 * (1 + fval tm))).
    { apply dub_mul; auto; try lra; try lia. now apply scale_dub. }
    destruct (product_err (0 + (0 + 4) + 4) (100 + (226 + 2)) sf2 (fmul sf2 (fadd f1 tm)) (1 + fval tm) (g3 (fval tm)) (fopp tm) (fval tm) ltac:(lra) ltac:(lia) Hsf2 DA) as (Ve & Fe & Er); auto; try lra.
    { unfold g3. now destruct (xexp _ T0) as (_ & _ & _ & _ & _ & ?). }
    unfold good_prod. cbn [fst snd]. destruct DA as (V1 & F1 & _). split; auto. split; auto. split; auto. split; auto.
    apply finish with (0 + (0 + 4) + 4 + 4 * (3 + (2 * INR m + 4 + 2) + 3 + 2 * 0 + 3) + 2); [lra|].
    apply total_err with (-341)%Z (fval tm); auto; try lra; try lia.
    - intros th eta H1 H2 H3. apply g3_pert; auto.
      destruct Hl as (_ & _ & L1 & _). pose proof (bp_pos (-100)). apply Rmult_le_pos; [apply Rmult_le_pos; apply sqrt_pos|left; apply Rinv_0_lt_compat; lra].
    - destruct Hl as (_ & _ & L1 & _). pose proof (bp_pos (-100)). apply Rmult_le_pos; [apply Rmult_le_pos; apply sqrt_pos|left; apply Rinv_0_lt_compat; lra].
  Qed.

  Lemma dub_weak a b p q v' v : a <= b -> (p <= q)%Z -> dub a p v' v -> dub b q v' v.
  Proof.
    intros Ha Hp (V & Fi & (B1 & B2) & N). split; auto. split; auto. split.
    - split; [apply Rle_trans with (2 := B1)|apply Rle_trans with (1 := B2)]; apply bp_le; lia.
    - apply near_weak with (3 := N); lra.
  Qed.

  (** 5 d^2 / (3 l^2) against the square of the computed sqrt(5) d / l *)
  Lemma term2_near d l : fvalid d -> ffin d -> 0 <= fval d <= bp 123 -> scale l ->
    let t1 := fval (term_f 5 d l) in
    let t2 := fdiv (fmul (fof 5) (fmul d d)) (fmul (fof 3) (fmul l l)) in
    fvalid t2 /\ ffin t2 /\ near 90 (bp (-100)) (fval t2) (t1 * t1 / 3).
  Proof.
    intros Vd Fd (D0 & Db) Hl t1 t2. pose proof m0 as M0. pose proof (scale_dub l Hl) as Dl.
    assert (L0 : 0 < fval l). { destruct Hl as (_ & _ & L1 & _). pose proof (bp_pos (-100)). lra. }
    assert (Ad : apx 0 (-1060) 123 d (fval d)) by (apply apx_exact; auto; rewrite Rabs_pos_eq; auto).
    pose proof (term_apx 5 0 (-1060) 123 d (fval d) l (-820) ltac:(lia) Hl ltac:(lra) Ad ltac:(lia) ltac:(lia) ltac:(lia) ltac:(lia) ltac:(lia)) as T1.
    assert (Z42 : 0 <= 0 <= bp 42) by (split; [lra|apply bpow_ge_0]).
    assert (C42 : forall c, 0 <= c <= 100 -> 0 <= c <= bp 42) by (intros c Hc; split; [lra|apply hundred; lra]).
    assert (P52 : 0 <= bp 52) by apply bpow_ge_0.
    assert (A1 : apx (0 + 0 + 3) (-930) (123 + 123) (fmul d d) (fval d * fval d)).
    { apply apx_mul with (-1060)%Z (-1060)%Z; auto; try lra; try lia. }
    assert (A2 : apx (0 + (0 + 0 + 3) + 3) (-920) (3 + (123 + 123)) (fmul (fof 5) (fmul d d)) (5 * (fval d * fval d))).
    { pose proof (dub_apx 0 3 (-1300) _ _ (fof_dub 5 ltac:(lia))) as A5. apply apx_mul with (-1300)%Z (-930)%Z; auto; try lra; try lia. apply C42. lra. }
    assert (L2 : dub (0 + 0 + 4) (100 + 100) (fmul l l) (fval l * fval l)) by (apply dub_mul; auto; try lra; lia).
    assert (L3 : dub (0 + (0 + 0 + 4) + 4) (3 + (100 + 100)) (fmul (fof 3) (fmul l l)) (3 * (fval l * fval l))).
    { apply dub_mul; auto; try lra; try lia. apply fof_dub. lia. }
    assert (A3 : apx (0 + (0 + 0 + 3) + 3 + 2 * (0 + (0 + 0 + 4) + 4) + 3) (-700) (3 + (123 + 123) + (3 + (100 + 100))) t2 (5 * (fval d * fval d) / (3 * (fval l * fval l)))).
    { apply apx_div with (-920)%Z; auto; try lra; try lia. apply C42. lra. }
    destruct A3 as (V2 & F2 & N2 & B2). split; auto. split; auto.
    destruct T1 as (Vt & Ft & Nt & Bt). fold t1 in Nt.
    set (T := sqrt 5 * fval d / fval l) in *.
    assert (E : 5 * (fval d * fval d) / (3 * (fval l * fval l)) = T * T / 3).
    { unfold T. pose proof (sqrt_def 5 ltac:(lra)) as S5. replace (sqrt 5 * fval d / fval l * (sqrt 5 * fval d / fval l) / 3) with (sqrt 5 * sqrt 5 * (fval d * fval d) / (3 * (fval l * fval l))) by (field; lra). rewrite S5. reflexivity. }
    rewrite E in N2. pose proof (bp_pos (-820)) as Q1. pose proof (bp_pos (-700)) as Q2.
    assert (Nt9 : near 9 (bp (-820)) t1 T) by (apply near_weak with (3 := Nt); lra).
    pose proof uu_pos as UP. pose proof uu_small as US.
    pose proof (near_mul 9 9 (bp (-820)) (bp (-820)) t1 T t1 T ltac:(lra) ltac:(lra) (Rlt_le _ _ Q1) (Rlt_le _ _ Q1) ltac:(lra) ltac:(lra) ltac:(lra) Nt9 Nt9) as N3.
    unfold near in N2, N3 |- *.
    assert (TT : 0 <= T * T) by nra. assert (tt : 0 <= t1 * t1) by nra.
    rewrite (Rabs_pos_eq (T * T / 3)) in N2 by lra. rewrite (Rabs_pos_eq (T * T)) in N3 by lra. rewrite (Rabs_pos_eq (t1 * t1 / 3)) by lra.
    assert (EQ : bp (-820) * (2 * Rabs T + bp (-820)) + 2 * bp (-820) * Rabs T <= bp (-300)).
    { pose proof (Rabs_pos T) as T0. assert (K1 : bp (-820) * Rabs T <= bp (-820) * bp (3 + 123 + 100)) by (apply Rmult_le_compat_l; lra).
      rewrite <- bpow_plus in K1. assert (K2 : bp (-820) * bp (-820) <= bp (-302)) by (rewrite <- bpow_plus; apply bp_le; lia).
      assert (K3 : bp (-820 + (3 + 123 + 100)) <= bp (-310)) by (apply bp_le; lia).
      assert (K4 : bp (-300) = 1024 * bp (-310)) by (rewrite (bpow_plus _ (-310) 10 : bp (-300) = _); change (bp 10) with 1024; ring).
      assert (K5 : bp (-300) = 4 * bp (-302)) by (rewrite (bpow_plus _ (-302) 2 : bp (-300) = _); change (bp 2) with 4; ring).
      pose proof (bp_pos (-300)). lra. }
    set (q := bp (-820) * (2 * Rabs T + bp (-820)) + 2 * bp (-820) * Rabs T) in *.
    pose proof (bp_pos (-300)) as Q3.
    assert (TB : T * T <= 2 * (t1 * t1) + 2 * bp (-300)).
    { apply Rcomplements.Rabs_le_between in N3. assert (uu * (T * T) <= / 1048576 * (T * T)) by (apply Rmult_le_compat_r; lra). lra. }
    replace (fval t2 - t1 * t1 / 3) with ((fval t2 - T * T / 3) - (t1 * t1 - T * T) / 3) by field.
    apply Rle_trans with (Rabs (fval t2 - T * T / 3) + Rabs ((t1 * t1 - T * T) / 3)).
    { unfold Rminus at 1. apply Rle_trans with (1 := Rabs_triang _ _). rewrite Rabs_Ropp. lra. }
    unfold Rdiv at 2. rewrite Rabs_mult, (Rabs_pos_eq (/ 3)) by lra.
    assert (UT : uu * (T * T) <= uu * (2 * (t1 * t1) + 2 * bp (-300))) by (apply Rmult_le_compat_l; lra).
    assert (U3 : uu * bp (-300) <= 1 * bp (-300)) by (apply Rmult_le_compat_r; lra).
    assert (K6 : bp (-700) <= bp (-300)) by (apply bp_le; lia).
    assert (K7 : 64 * bp (-300) <= bp (-100)). { change 64 with (bp 6). rewrite <- bpow_plus. apply bp_le. lia. }
    assert (0 <= uu * (t1 * t1)) by (apply Rmult_le_pos; lra). lra.
  Qed.

  Lemma matern5_err l k : scale l -> matern5_k fexp m sf2 l x y k ->
    good_prod k (fval sf2 * g5 (sqrt 5 * sqrt (lsq (rdiff x y)) / fval l)).
  Proof.
    intros Hl (s & Hs & ->). cbv zeta. fold (term_f 5 (fsqrt s) l). destruct (iso_norm s Hs) as (An & N0). pose proof m42 as M42. pose proof m0 as M0.
    pose proof (term_apx 5 (2 * INR m + 4 + 2) (-457 + 3) 121 (fsqrt s) (sqrt (lsq (rdiff x y))) l (-341) ltac:(lia) Hl ltac:(lra) An ltac:(lia) ltac:(lia) ltac:(lia) ltac:(lia) ltac:(lia)) as T.
    pose proof (term_pos 5 (fsqrt s) l ltac:(lia) Hl (proj1 An) N0 (proj1 (proj2 T))) as T0.
    pose proof (apx_bound (3 + (2 * INR m + 4 + 2) + 3 + 2 * 0 + 3) (-341) (3 + 121 + 100) _ _ ltac:(lra) ltac:(lia) ltac:(lia) T) as TB. rewrite (Rabs_pos_eq _ T0) in TB.
    pose proof (apx_bound (2 * INR m + 4 + 2) (-457 + 3) 121 _ _ ltac:(lra) ltac:(lia) ltac:(lia) An) as DB. rewrite (Rabs_pos_eq _ N0) in DB.
    pose proof (term2_near (fsqrt s) l (proj1 An) (proj1 (proj2 An)) (conj N0 DB) Hl) as T2. cbv zeta in T2.
    set (t2 := fdiv (fmul (fof 5) (fmul (fsqrt s) (fsqrt s))) (fmul (fof 3) (fmul l l))) in *.
    set (tm := term_f 5 (fsqrt s) l) in *. destruct T as (Vt & Ft & Nt & Bt). destruct T2 as (V2 & F2 & N2).
    destruct (opp_arg tm Vt Ft) as (Vo & Fo & Eo).
    assert (D1 : dub (0 + 4) (226 + 2) (fadd f1 tm) (1 + fval tm)).
    { apply dub_add1; auto; try lra; try lia. apply near_self; lra. apply one_dub. lia. }
    assert (SQ : fval tm * fval tm / 3 <= bp 460).
    { assert (fval tm * fval tm <= bp 226 * bp 226) by (apply Rmult_le_compat; auto). rewrite <- bpow_plus in H.
      assert (bp (226 + 226) <= bp 460) by (apply bp_le; lia). pose proof (bp_pos 460). lra. }
    assert (SQ0 : 0 <= fval tm * fval tm) by nra.
    assert (D2 : dub (90 + 4) (460 + 2) (fadd (fadd f1 tm) t2) (1 + fval tm + fval tm * fval tm / 3)).
    { apply dub_add1; auto; try lra; try lia. apply dub_weak with (3 := D1); [lra|lia]. }
    assert (DA : dub (0 + (90 + 4) + 4) (100 + (460 + 2)) (fmul sf2 (fadd (fadd f1 tm) t2)) (fval sf2 * (1 + fval tm + fval tm * fval tm / 3))).
    { apply dub_mul; auto; try lra; try lia. now apply scale_dub. }
    destruct (product_err (0 + (90 + 4) + 4) (100 + (460 + 2)) sf2 (fmul sf2 (fadd (fadd f1 tm) t2)) (1 + fval tm + fval tm * fval tm / 3) (g5 (fval tm)) (fopp tm) (fval tm) ltac:(lra) ltac:(lia) Hsf2 DA) as (Ve & Fe & Er); auto; try lra.
    { unfold g5. now destruct (xexp _ T0) as (_ & _ & _ & _ & ? & _). }
    unfold good_prod. cbn [fst snd]. destruct DA as (V1 & F1 & _). split; auto. split; auto. split; auto. split; auto.
    apply finish with (0 + (90 + 4) + 4 + 4 * (3 + (2 * INR m + 4 + 2) + 3 + 2 * 0 + 3) + 2); [lra|].
    assert (Q0 : 0 <= sqrt 5 * sqrt (lsq (rdiff x y)) / fval l).
    { destruct Hl as (_ & _ & L1 & _). pose proof (bp_pos (-100)). apply Rmult_le_pos; [apply Rmult_le_pos; apply sqrt_pos|left; apply Rinv_0_lt_compat; lra]. }
    apply total_err with (-341)%Z (fval tm); auto; try lra; try lia.
    intros th eta H1 H2 H3. apply g5_pert; auto.
  Qed.

  (** the noise *)
  Lemma jit_val : fvalid jit /\ ffin jit /\ Rabs (fval jit - / 100000000) <= bp (-80).
  Proof.
    split; [apply fofZe_valid|]. split; [reflexivity|].
    assert (E : fval jit = 6044629098073146 * bp (-79)).
    { assert (E0 : jit = S754_finite false 6044629098073146 (-79)) by (vm_compute; reflexivity). rewrite E0. unfold fval, SF2R, F2R. reflexivity. }
    assert (E2 : bp (-79) = 2 * bp (-80)) by (rewrite (bpow_plus _ (-80) 1 : bp (-79) = _); change (bp 1) with 2; ring).
    rewrite E, E2. change (-80)%Z with (Z.opp 80). rewrite bpow_opp. change (bp 80) with (IZR (2 ^ 80)).
    assert (P : 0 < IZR (2 ^ 80)) by (apply IZR_lt; reflexivity).
    assert (B : Rabs (2 * 6044629098073146 * 100000000 - IZR (2 ^ 80)) <= 100000000).
    { rewrite <- !mult_IZR, <- minus_IZR, <- abs_IZR. apply IZR_le. vm_compute. discriminate. }
    set (P80 := (2 ^ 80)%Z) in *.
    replace (6044629098073146 * (2 * / IZR P80) - / 100000000) with ((2 * 6044629098073146 * 100000000 - IZR P80) * (/ IZR P80 * / 100000000)) by (field; lra).
    rewrite Rabs_mult. rewrite (Rabs_pos_eq (/ IZR P80 * / 100000000)) by (apply Rmult_le_pos; left; apply Rinv_0_lt_compat; lra).
    apply Rle_trans with (100000000 * (/ IZR P80 * / 100000000)); [apply Rmult_le_compat_r; auto; apply Rmult_le_pos; left; apply Rinv_0_lt_compat; lra|].
    right. field. lra.
  Qed.

  Definition noise_ok (noise : F) : Prop := fvalid noise /\ ffin noise /\ 0 <= fval noise <= bp 100.

  Lemma kop_err noise k same r K : noise_ok noise -> good_prod k K -> 0 <= K <= fval sf2 -> kop_f noise k same r ->
    let c := if same then fval noise + / 100000000 else 0 in
    fvalid r /\ ffin r /\ Rabs (fval r - (K + c)) <= ((8 * INR m + 170) * uu + 2 * del) * (fval sf2 + c).
  Proof.
    intros (Vn & Fn & N0 & N1) (VA & FA & VB & FB & Ek) (K0 & K1) Hr c.
    destruct jit_val as (Vj & Fj & Ej). pose proof uu_pos as UP. pose proof uu_small as US. pose proof e0_pos as E0p.
    destruct Hsf2 as (_ & _ & S1 & S2). pose proof (bp_pos (-100)) as B0. set (S := fval sf2) in *.
    set (kap := (8 * INR m + 160) * uu + 2 * del) in *. pose proof m0 as M0. pose proof (small_uu' m Hm) as Mu.
    assert (D20 : bp (-20) <= / 8). { apply Rle_trans with (bp (-3)); [apply bp_le; lia|]. right. change (-3)%Z with (Z.opp 3). rewrite bpow_opp. f_equal. }
    assert (Kp : 0 <= kap <= 1) by (unfold kap; split; lra).
    set (v := fval (fst k) * fval (snd k)) in *.
    assert (Vb : Rabs v <= 2 * S).
    { replace v with ((v - K) + K) by ring. apply Rle_trans with (1 := Rabs_triang _ _). rewrite (Rabs_pos_eq K) by auto.
      assert (S * kap <= S * 1) by (apply Rmult_le_compat_l; lra). lra. }
    assert (E0 : e0 <= uu * S). { apply Rle_trans with (uu * bp (-100)); [|apply Rmult_le_compat_l; lra]. unfold e0, uu. rewrite <- bpow_plus. apply bp_le. lia. }
    unfold kop_f in Hr. cbv zeta in Hr. set (cf := if same then fadd noise jit else f0) in *.
    assert (C : fvalid cf /\ ffin cf /\ 0 <= c <= bp 101 /\ Rabs (fval cf - c) <= 3 * uu * c).
    { unfold cf, c. destruct same.
      - assert (BU : bp (-80) <= uu * / 100000000).
        { apply Rle_trans with (uu * bp (-27)); [unfold uu; rewrite <- bpow_plus; apply bp_le; lia|]. apply Rmult_le_compat_l; [lra|].
          change (-27)%Z with (Z.opp 27). rewrite bpow_opp. apply Rinv_le_contravar; [lra|]. change (bp 27) with 134217728. lra. }
        assert (J1 : 0 <= fval jit <= 2 * / 100000000).
        { apply Rcomplements.Rabs_le_between in Ej. assert (uu * / 100000000 <= / 1048576 * / 100000000) by (apply Rmult_le_compat_r; lra). lra. }
        assert (P100 : 1 <= bp 100) by (change 1 with (bp 0); apply bp_le; lia).
        assert (E101 : bp 101 = 2 * bp 100) by (rewrite (bpow_plus _ 100 1 : bp 101 = _); change (bp 1) with 2; ring).
        assert (Rr : Rabs (fval noise + fval jit) <= bp 101) by (rewrite Rabs_pos_eq by lra; lra).
        destruct (fadd_correct noise jit Vn Vj Fn Fj) as (F1 & F2). { apply rnd_fin with (1 := Rr). apply bp_le. lia. }
        split; [now apply fadd_valid|]. split; auto. split; [lra|]. rewrite F2. pose proof (rnd_error (fval noise + fval jit)) as Re.
        rewrite (Rabs_pos_eq (fval noise + fval jit)) in Re by lra.
        assert (E2 : e0 <= bp (-80) * uu). { unfold e0, uu. rewrite <- bpow_plus. apply bp_le. lia. }
        assert (E4 : uu * fval jit <= uu * / 100000000 + uu * bp (-80)). { apply Rcomplements.Rabs_le_between in Ej. rewrite <- Rmult_plus_distr_l. apply Rmult_le_compat_l; lra. }
        assert (E5 : uu * bp (-80) <= / 1048576 * bp (-80)) by (apply Rmult_le_compat_r; [apply bpow_ge_0|lra]).
        assert (UN : 0 <= uu * fval noise) by (apply Rmult_le_pos; lra). pose proof (bp_pos (-80)) as P80.
        replace (rnd (fval noise + fval jit) - (fval noise + / 100000000)) with ((rnd (fval noise + fval jit) - (fval noise + fval jit)) + (fval jit - / 100000000)) by ring.
        apply Rle_trans with (1 := Rabs_triang _ _). lra.
      - split; [reflexivity|]. split; [reflexivity|]. change (fval f0) with 0. replace (0 - 0) with 0 by ring. rewrite Rabs_R0. pose proof (bp_pos 101). lra. }
    destruct C as (Vc & Fc & (C0 & C1) & Ec). set (q := fval cf) in *.
    assert (UC : 0 <= uu * c <= / 1048576 * c) by (split; [apply Rmult_le_pos; lra|apply Rmult_le_compat_r; lra]).
    assert (Q2 : Rabs q <= 2 * c). { replace q with ((q - c) + c) by ring. apply Rle_trans with (1 := Rabs_triang _ _). rewrite (Rabs_pos_eq c) by auto. lra. }
    assert (US2 : 0 <= uu * S <= / 1048576 * S) by (split; [apply Rmult_le_pos; lra|apply Rmult_le_compat_r; lra]).
    assert (P100 : bp 101 = 2 * bp 100) by (rewrite (bpow_plus _ 100 1 : bp 101 = _); change (bp 1) with 2; ring).
    assert (P110 : bp 110 = 1024 * bp 100) by (rewrite (bpow_plus _ 100 10 : bp 110 = _); change (bp 10) with 1024; ring).
    assert (DC : 0 <= del * c) by (apply Rmult_le_pos; lra). assert (MC : 0 <= INR m * (uu * c)) by (apply Rmult_le_pos; lra).
    assert (UV : uu * Rabs v <= uu * (2 * S)) by (apply Rmult_le_compat_l; lra).
    destruct Hr as [->| ->].
    - destruct (fmul_correct (fst k) (snd k) VA VB FA FB) as (F1 & F2). { fold v. apply rnd_fin with (bp 110); [lra|apply bp_le; lia]. }
      fold v in F2. pose proof (rnd_error v) as R1. set (p := rnd v) in *.
      assert (Pb : Rabs p <= 3 * S). { replace p with ((p - v) + v) by ring. apply Rle_trans with (1 := Rabs_triang _ _). lra. }
      assert (Pq : Rabs (p + q) <= 3 * S + 2 * c) by (apply Rle_trans with (1 := Rabs_triang _ _); lra).
      destruct (fadd_correct (fmul (fst k) (snd k)) cf (fmul_valid _ _ VA VB) Vc F1 Fc) as (G1 & G2).
      { rewrite F2. fold q. apply rnd_fin with (bp 110); [lra|apply bp_le; lia]. }
      split; [apply fadd_valid; auto; now apply fmul_valid|]. split; auto. rewrite G2, F2. fold q. pose proof (rnd_error (p + q)) as R2.
      assert (uu * Rabs (p + q) <= uu * (3 * S + 2 * c)) by (apply Rmult_le_compat_l; lra).
      replace (rnd (p + q) - (K + c)) with ((rnd (p + q) - (p + q)) + ((p - v) + ((v - K) + (q - c)))) by ring.
      assert (T4 : forall a b c d : R, Rabs (a + (b + (c + d))) <= Rabs a + Rabs b + Rabs c + Rabs d).
      { intros a0 b0 c0 d0. pose proof (Rabs_triang a0 (b0 + (c0 + d0))). pose proof (Rabs_triang b0 (c0 + d0)). pose proof (Rabs_triang c0 d0). lra. }
      apply Rle_trans with (1 := T4 _ _ _ _). unfold kap in *. lra.
    - assert (Vq : Rabs (v + q) <= 2 * S + 2 * c) by (apply Rle_trans with (1 := Rabs_triang _ _); lra).
      destruct (ffma_correct (fst k) (snd k) cf FA FB Fc) as (G1 & G2).
      { fold v q. apply rnd_fin with (bp 110); [lra|apply bp_le; lia]. }
      split; [now apply ffma_valid|]. split; auto. rewrite G2. fold v q. pose proof (rnd_error (v + q)) as R2.
      assert (uu * Rabs (v + q) <= uu * (2 * S + 2 * c)) by (apply Rmult_le_compat_l; lra).
      replace (rnd (v + q) - (K + c)) with ((rnd (v + q) - (v + q)) + ((v - K) + (q - c))) by ring.
      apply Rle_trans with (1 := Rabs_triang _ _). pose proof (Rabs_triang (v - K) (q - c)). unfold kap in *. lra.
  Qed.
End Ker.
