(** binary64 facts for Adam and GradientAscent (through Flocq): with gradients of bounded size their state stays bounded,
    whatever the number of iterations, so no NaN appears. *)
From Coq Require Import ZArith List Bool Lia Reals Lra.
From Coq Require Import Floats.SpecFloat.
From Flocq Require Import Core BinarySingleNaN.
From Verif Require Import F64 F64R OptModel OptSpec OptFacts OptFloat.
Import ListNotations.
Open Scope R_scope.

Notation bp := (bpow radix2).
(** a binary64 number of absolute value at most [2^k] *)
Definition bnd (k : Z) (x : F) : Prop := fvalid x /\ ffin x /\ Rabs (fval x) <= bp k.

Lemma fmt_bp k : (-1074 <= k)%Z -> generic_format radix2 fexp64 (bp k).
Proof. intro H. apply generic_format_bpow. unfold fexp64, SpecFloat.fexp, SpecFloat.emin, fprec, femax. lia. Qed.
Lemma fmt_fval x : fvalid x -> generic_format radix2 fexp64 (fval x).
Proof. intro V. rewrite <- (rnd_id x V). unfold rnd. apply generic_format_round; typeclasses eauto. Qed.
Lemma fmt_scale x k : (0 <= k)%Z -> generic_format radix2 fexp64 x -> generic_format radix2 fexp64 (x * bp k).
Proof.
  intros K H. change fexp64 with (FLT_exp (-1074) 53) in *. assert (P : Prec_gt_0 53) by reflexivity.
  apply FLT_format_generic in H; [|exact P]. destruct H as [[m e] E1 E2 E3]. apply generic_format_FLT. exists (Float radix2 m (e + k)).
  - rewrite E1. unfold F2R. cbn [Fnum Fexp]. rewrite bpow_plus. ring.
  - exact E2.
  - cbn [Fexp] in *. lia.
Qed.
Lemma rnd_abs k x : (-1074 <= k)%Z -> Rabs x <= bp k -> Rabs (rnd x) <= bp k.
Proof. intros K H. unfold rnd. apply abs_round_le_generic; [typeclasses eauto|typeclasses eauto|now apply fmt_bp|exact H]. Qed.
Lemma rnd_gf x : generic_format radix2 fexp64 x -> rnd x = x.
Proof. intro H. unfold rnd. apply round_generic; [typeclasses eauto|exact H]. Qed.
Lemma rnd_bp k : (-1074 <= k)%Z -> rnd (bp k) = bp k.
Proof. intro H. now apply rnd_gf, fmt_bp. Qed.
Lemma rnd_0 : rnd 0 = 0.
Proof. apply rnd_gf, generic_format_0. Qed.
Lemma fin_bp x k : Rabs x <= bp k -> (k <= 1000)%Z -> Rabs (rnd x) < bp 1024.
Proof. intros H K. apply rnd_fin with (bp k); [exact H|]. now apply bpow_le. Qed.

Lemma bnd_add k x y : (-1075 <= k <= 999)%Z -> bnd k x -> bnd k y -> bnd (k + 1) (fadd x y).
Proof.
  intros K (V & Fx & B) (V' & Fy & B').
  assert (H : Rabs (fval x + fval y) <= bp (k + 1)).
  { apply Rle_trans with (1 := Rabs_triang _ _). rewrite bpow_plus_1. change (IZR radix2) with 2. lra. }
  destruct (fadd_correct x y V V' Fx Fy) as [A E]; [apply (fin_bp _ (k + 1)); [exact H|lia]|].
  split; [now apply fadd_valid|]. split; [exact A|]. rewrite E. apply rnd_abs; [lia|exact H].
Qed.
Lemma bnd_mul a b x y : (-1074 <= a + b <= 1000)%Z -> bnd a x -> bnd b y -> bnd (a + b) (fmul x y).
Proof.
  intros K (V & Fx & B) (V' & Fy & B').
  assert (H : Rabs (fval x * fval y) <= bp (a + b)). { rewrite Rabs_mult, bpow_plus. apply Rmult_le_compat; auto using Rabs_pos. }
  destruct (fmul_correct x y V V' Fx Fy) as [A E]; [apply (fin_bp _ (a + b)); [exact H|lia]|].
  split; [now apply fmul_valid|]. split; [exact A|]. rewrite E. apply rnd_abs; [lia|exact H].
Qed.
Lemma bnd_div a b x y : (-1074 <= a - b <= 1000)%Z -> bnd a x -> fvalid y -> ffin y -> bp b <= fval y ->
  bnd (a - b) (fdiv x y) /\ fval (fdiv x y) = rnd (fval x / fval y).
Proof.
  intros K (V & Fx & B) V' Fy B'. pose proof (bpow_gt_0 radix2 b) as P.
  assert (H : Rabs (fval x / fval y) <= bp (a - b)).
  { unfold Rdiv. rewrite Rabs_mult, (Rabs_pos_eq (/ fval y)) by (left; apply Rinv_0_lt_compat; lra).
    unfold Zminus. rewrite bpow_plus, bpow_opp. apply Rmult_le_compat; auto using Rabs_pos; [left; apply Rinv_0_lt_compat; lra|].
    apply Rinv_le; lra. }
  destruct (fdiv_correct x y V V' Fx Fy) as [A E]; [lra|apply (fin_bp _ (a - b)); [exact H|lia]|].
  split; [|exact E]. split; [now apply fdiv_valid|]. split; [exact A|]. rewrite E. apply rnd_abs; [lia|exact H].
Qed.
Lemma bnd_le a b x : (a <= b)%Z -> bnd a x -> bnd b x.
Proof. intros H (V & Fx & B). split; [exact V|]. split; [exact Fx|]. apply Rle_trans with (1 := B). now apply bpow_le. Qed.
Lemma bnd_0 k : bnd k f0.
Proof. destruct f0_ok as (A & B & C). split; [exact A|]. split; [exact B|]. rewrite C, Rabs_R0. apply bpow_ge_0. Qed.
Lemma bnd_unit x : fvalid x -> in_unit x -> bnd 0 x.
Proof. intros V U. destruct (in_unit_fin x V U) as [A B]. split; [exact V|]. split; [exact A|]. change (bp 0) with 1. rewrite Rabs_pos_eq; lra. Qed.

Lemma fsqrt_correct x : fvalid x -> ffin x -> 0 <= fval x -> ffin (fsqrt x) /\ fval (fsqrt x) = rnd (sqrt (fval x)).
Proof.
  intros V Fx P. pose proof (Bsqrt_correct fprec femax _ _ mode_NE (toB x V)) as (K1 & K2 & _). rewrite toB_R in K1.
  change (round_mode mode_NE) with ZnearestE in K1. fold (rnd (sqrt (fval x))) in K1.
  rewrite <- (toB_SF x V) at 1 2. rewrite fsqrt_B. unfold ffin, fval at 1. rewrite is_finite_SF_B2SF, SF2R_B2SF. split; [|exact K1]. rewrite K2.
  pose proof (toB_SF x V) as Q. pose proof (toB_R x V) as Q2. rewrite <- Q2 in P. rewrite <- Q in Fx.
  destruct (toB x V) as [s|s| |s m e H]; try reflexivity; try discriminate Fx. destruct s; [|reflexivity]. exfalso.
  cbn [B2R] in P. assert (F2R (Float radix2 (cond_Zopp true (Z.pos m)) e) < 0) by (apply F2R_lt_0; reflexivity). lra.
Qed.

(** [b1 < 1]: then [b1 <= 1 - 2^-53], and [1 - b1] is at least [2^-53] *)
Definition rate (b : F) : Prop := fvalid b /\ ffin b /\ 0 <= fval b < 1.
Lemma rate_gap b : rate b -> fval b <= 1 - bp (-53).
Proof.
  intros (V & Fb & P0 & P1). pose proof (pred_ge_gt radix2 fexp64 (fval b) (bp 0) (fmt_fval b V) (fmt_bp 0 ltac:(lia)) P1) as H.
  rewrite pred_bpow in H. exact H.
Qed.
Lemma one_minus b : fvalid b -> ffin b -> 0 <= fval b <= 1 - bp (-53) ->
  fvalid (fsub f1 b) /\ ffin (fsub f1 b) /\ fval (fsub f1 b) = rnd (1 - fval b) /\ bp (-53) <= fval (fsub f1 b) <= 1.
Proof.
  intros V Fb P. destruct f1_ok as (V1 & F1 & E1). pose proof (bpow_gt_0 radix2 (-53)) as P53.
  destruct (fsub_correct f1 b V1 V F1 Fb) as [A E]; [rewrite E1; apply (fin_bp _ 0); [change (bp 0) with 1; rewrite Rabs_pos_eq; lra|lia]|].
  split; [now apply fsub_valid|]. split; [exact A|]. rewrite E, E1. split; [reflexivity|]. split.
  - rewrite <- (rnd_bp (-53)) at 1 by lia. apply rnd_le. lra.
  - change 1 with (bp 0) at 2. rewrite <- (rnd_bp 0) by lia. apply rnd_le. change (bp 0) with 1. lra.
Qed.
Lemma rate_sum b : rate b -> fval b + fval (fsub f1 b) <= 1 + bp (-54).
Proof.
  intros R. pose proof (rate_gap b R) as G. destruct R as (V & Fb & P0 & P1). destruct (one_minus b V Fb) as (_ & _ & E & _); [lra|]. rewrite E.
  pose proof (bpow_gt_0 radix2 (-54)) as P54.
  destruct (Req_dec (fval b) 0) as [Z|N].
  - rewrite Z, Rminus_0_r. change 1 with (bp 0) at 1. rewrite rnd_bp by lia. change (bp 0) with 1. lra.
  - pose proof (error_le_half_ulp radix2 fexp64 (fun x => negb (Z.even x)) (1 - fval b)) as H. fold ZnearestE in H. fold (rnd (1 - fval b)) in H.
    assert (U : ulp radix2 fexp64 (1 - fval b) <= bp (-53)).
    { rewrite ulp_neq_0 by lra. unfold cexp. apply bpow_le.
      assert (M : (mag radix2 (1 - fval b) <= 0)%Z). { apply mag_le_bpow; [lra|]. rewrite Rabs_pos_eq by lra. change (bp 0) with 1. lra. }
      unfold fexp64, SpecFloat.fexp, SpecFloat.emin, fprec, femax. lia. }
    replace (bp (-53)) with (2 * bp (-54)) in U by (change (-53)%Z with (-54 + 1)%Z; rewrite bpow_plus_1; reflexivity).
    apply Rabs_le_inv in H. lra.
Qed.
Lemma rnd_mid k x : (0 <= k <= 1000)%Z -> Rabs x <= bp k * (1 + bp (-54)) -> Rabs (rnd x) <= bp k.
Proof.
  intros K H. unfold rnd. rewrite <- round_NE_abs by typeclasses eauto.
  apply round_N_le_midp; [typeclasses eauto|apply fmt_bp; lia|].
  apply Rle_lt_trans with (1 := H). rewrite succ_eq_pos by apply bpow_ge_0.
  rewrite ulp_bpow. assert (E : fexp64 (k + 1) = (k - 52)%Z). { unfold fexp64, SpecFloat.fexp, SpecFloat.emin, fprec, femax. lia. }
  rewrite E. assert (Q : bp (k - 52) = bp k * (bp (-54) * 4)). { replace (k - 52)%Z with (k + (-54 + 2))%Z by lia. rewrite !bpow_plus. reflexivity. }
  rewrite Q. pose proof (bpow_gt_0 radix2 k). pose proof (bpow_gt_0 radix2 (-54)). nra.
Qed.
(** a moving average of numbers up to 2^k stays below 2^k, in rounded arithmetic too *)
Lemma average k b m g : (0 <= k <= 900)%Z -> rate b -> bnd k m -> bnd k g ->
  bnd k (fadd (fmul b m) (fmul (fsub f1 b) g)) /\ (0 <= fval m -> 0 <= fval g -> 0 <= fval (fadd (fmul b m) (fmul (fsub f1 b) g))).
Proof.
  intros K R (Vm & Fm & Bm) (Vg & Fg & Bg). pose proof (rate_gap b R) as G. pose proof (rate_sum b R) as Q. destruct R as (V & Fb & P0 & P1).
  destruct (one_minus b V Fb) as (Vs & Fs & _ & Bs); [lra|]. set (s := fsub f1 b) in *.
  assert (X : forall c y, fvalid c -> ffin c -> 0 <= fval c <= 1 -> fvalid y -> ffin y -> Rabs (fval y) <= bp k ->
     ffin (fmul c y) /\ Rabs (fval (fmul c y)) <= fval c * bp k /\ (0 <= fval y -> 0 <= fval (fmul c y))).
  { intros c y Vc Fc Bc Vy Fy By.
    assert (H : Rabs (fval c * fval y) <= fval c * bp k). { rewrite Rabs_mult, (Rabs_pos_eq (fval c)) by lra. apply Rmult_le_compat_l; lra. }
    destruct (fmul_correct c y Vc Vy Fc Fy) as [A E].
    { apply (fin_bp _ k); [|lia]. apply Rle_trans with (1 := H). rewrite <- (Rmult_1_l (bp k)) at 2. apply Rmult_le_compat_r; [apply bpow_ge_0|lra]. }
    split; [exact A|]. rewrite E. split; [|intro P; rewrite <- rnd_0; apply rnd_le; nra]. unfold rnd. apply abs_round_le_generic; [typeclasses eauto|typeclasses eauto| |exact H].
    apply fmt_scale; [lia|now apply fmt_fval]. }
  pose proof (bpow_gt_0 radix2 (-53)).
  destruct (X b m V Fb ltac:(lra) Vm Fm Bm) as (A1 & B1 & N1). destruct (X s g Vs Fs ltac:(lra) Vg Fg Bg) as (A2 & B2 & N2).
  assert (H1 : Rabs (fval (fmul b m) + fval (fmul s g)) <= bp k * (1 + bp (-54))).
  { apply Rle_trans with (1 := Rabs_triang _ _). pose proof (bpow_gt_0 radix2 k). nra. }
  assert (H2 : Rabs (rnd (fval (fmul b m) + fval (fmul s g))) <= bp k) by (apply rnd_mid; [lia|exact H1]).
  destruct (fadd_correct (fmul b m) (fmul s g)) as [A E]; [now apply fmul_valid|now apply fmul_valid|exact A1|exact A2| |].
  { apply Rle_lt_trans with (1 := H2). apply bpow_lt. lia. }
  split; [split; [apply fadd_valid; now apply fmul_valid|]; split; [exact A|]; now rewrite E|].
  intros Pm Pg. rewrite E, <- rnd_0. apply rnd_le. specialize (N1 Pm). specialize (N2 Pg). lra.
Qed.

(** ** Adam *)
Lemma adam_eps_ok : fvalid adam_eps /\ ffin adam_eps /\ bp (-27) <= fval adam_eps <= 1.
Proof.
  destruct (fofZ_correct 1) as [A1 E1]; [vm_compute; discriminate|]. destruct (fofZ_correct 100000000) as [A2 E2]; [vm_compute; discriminate|].
  destruct (bnd_div 0 0 (fofZ 1) (fofZ 100000000)) as [(V & Fe & B) E]; [lia| |apply fofZ_valid|exact A2|rewrite E2; change (bp 0) with 1; lra|].
  { split; [apply fofZ_valid|]. split; [exact A1|]. rewrite E1, Rabs_R1. apply Rle_refl. }
  fold adam_eps in *. split; [exact V|]. split; [exact Fe|]. change (bp (0 - 0)) with 1 in B. apply Rabs_le_inv in B. split; [|lra].
  rewrite E, E1, E2. rewrite <- (rnd_bp (-27)) at 1 by lia. apply rnd_le. replace (bp (-27)) with (/ 134217728) by reflexivity. lra.
Qed.
Definition decayed (b bt : F) : Prop := fvalid bt /\ ffin bt /\ 0 <= fval bt <= fval b.
Lemma decay b bt : rate b -> decayed b bt -> decayed b (fmul bt b).
Proof.
  intros (V & Fb & P) (Vt & Ft & Pt). assert (H : 0 <= fval bt * fval b <= fval bt) by nra.
  destruct (fmul_correct bt b Vt V Ft Fb) as [A E]; [apply (fin_bp _ 0); [change (bp 0) with 1; rewrite Rabs_pos_eq; lra|lia]|].
  split; [now apply fmul_valid|]. split; [exact A|]. rewrite E. split; [rewrite <- rnd_0; apply rnd_le; lra|].
  apply Rle_trans with (2 := proj2 Pt). rewrite <- (rnd_id bt Vt) at 2. apply rnd_le. lra.
Qed.
Lemma decay_start b : rate b -> decayed b b.
Proof. intros (V & Fb & P). split; [exact V|]. split; [exact Fb|]. lra. Qed.
Lemma decayed_gap b bt : rate b -> decayed b bt -> fvalid (fsub f1 bt) /\ ffin (fsub f1 bt) /\ bp (-53) <= fval (fsub f1 bt).
Proof.
  intros R (V & Ft & P). pose proof (rate_gap b R). destruct (one_minus bt V Ft) as (A & B & _ & C); [lra|]. tauto.
Qed.

Section AdamStep.
Variables b1 b2 alpha : F.
Hypotheses (R1 : rate b1) (R2 : rate b2) (Ha : bnd 400 alpha).
(** state of one coordinate *)
Definition mom (m : F) : Prop := bnd 400 m.
Definition sqm (v : F) : Prop := bnd 800 v /\ 0 <= fval v.
Lemma mom_next m g : mom m -> bnd 400 g -> mom (fadd (fmul b1 m) (fmul (fsub f1 b1) g)).
Proof. intros H1 H2. apply average; [lia|exact R1|exact H1|exact H2]. Qed.
Lemma sqm_next v g : sqm v -> bnd 400 g -> sqm (fadd (fmul b2 v) (fmul (fsub f1 b2) (fmul g g))).
Proof.
  intros [H1 P1] H2. assert (G : bnd 800 (fmul g g)) by (apply (bnd_mul 400 400); [lia|exact H2|exact H2]).
  assert (P : 0 <= fval (fmul g g)).
  { destruct H2 as (V & Fg & B). destruct (fmul_correct g g V V Fg Fg) as [_ E]; [|rewrite E, <- rnd_0; apply rnd_le; nra].
    apply (fin_bp _ 800); [|lia]. rewrite Rabs_mult. change 800%Z with (400 + 400)%Z. rewrite bpow_plus. apply Rmult_le_compat; auto using Rabs_pos. }
  destruct (average 800 b2 v (fmul g g)) as [A N]; [lia|exact R2|exact H1|exact G|]. split; [exact A|now apply N].
Qed.
Lemma step_fin m v p b1t b2t : mom m -> sqm v -> fvalid p -> in_unit p -> decayed b1 b1t -> decayed b2 b2t ->
  let upd := fdiv (fmul alpha (fdiv m (fsub f1 b1t))) (fadd (fsqrt (fdiv v (fsub f1 b2t))) adam_eps) in
  fvalid (fadd p upd) /\ ffin (fadd p upd).
Proof.
  intros Hm [Hv Pv] Vp Up D1 D2 upd.
  destruct (decayed_gap b1 b1t R1 D1) as (V1 & F1 & G1). destruct (decayed_gap b2 b2t R2 D2) as (V2 & F2 & G2).
  destruct (bnd_div 400 (-53) m (fsub f1 b1t)) as [Hmh _]; [lia|exact Hm|exact V1|exact F1|exact G1|].
  destruct (bnd_div 800 (-53) v (fsub f1 b2t)) as [Hvh Evh]; [lia|exact Hv|exact V2|exact F2|exact G2|].
  set (vh := fdiv v (fsub f1 b2t)) in *. pose proof (bpow_gt_0 radix2 (-53)).
  assert (Pvh : 0 <= fval vh). { rewrite Evh, <- rnd_0. apply rnd_le. apply Rmult_le_pos; [exact Pv|]. left. apply Rinv_0_lt_compat. lra. }
  destruct Hvh as (Vvh & Fvh & Bvh). destruct (fsqrt_correct vh Vvh Fvh Pvh) as [Fs Es].
  assert (Bs : 0 <= fval (fsqrt vh) <= bp 853).
  { rewrite Es. split; [rewrite <- rnd_0; apply rnd_le, sqrt_pos|]. rewrite <- (rnd_bp 853) by lia. apply rnd_le.
    change (800 - -53)%Z with 853%Z in Bvh. rewrite Rabs_pos_eq in Bvh by exact Pvh. apply Rle_trans with (sqrt (bp 853 * bp 853)).
    - apply sqrt_le_1_alt. assert (1 <= bp 853) by (change 1 with (bp 0); apply bpow_le; lia). nra.
    - rewrite sqrt_square by apply bpow_ge_0. apply Rle_refl. }
  destruct adam_eps_ok as (Ve & Fe & Be).
  assert (Hd : fvalid (fadd (fsqrt vh) adam_eps) /\ ffin (fadd (fsqrt vh) adam_eps) /\ bp (-27) <= fval (fadd (fsqrt vh) adam_eps)).
  { destruct (fadd_correct (fsqrt vh) adam_eps) as [A E]; [now apply fsqrt_valid|exact Ve|exact Fs|exact Fe| |].
    - apply (fin_bp _ 854); [|lia]. change 854%Z with (853 + 1)%Z. rewrite bpow_plus_1. change (IZR radix2) with 2.
      assert (1 <= bp 853) by (change 1 with (bp 0); apply bpow_le; lia). pose proof (bpow_gt_0 radix2 (-27)). rewrite Rabs_pos_eq; lra.
    - split; [apply fadd_valid; [now apply fsqrt_valid|exact Ve]|]. split; [exact A|]. rewrite E. rewrite <- (rnd_bp (-27)) at 1 by lia. apply rnd_le. lra. }
  destruct Hd as (Vd & Fd & Bd).
  destruct (bnd_div 853 (-27) (fmul alpha (fdiv m (fsub f1 b1t))) (fadd (fsqrt vh) adam_eps)) as [Hu _]; [lia| |exact Vd|exact Fd|exact Bd|].
  { apply (bnd_mul 400 453); [lia|exact Ha|exact Hmh]. }
  fold upd in Hu. destruct (bnd_add 880 p upd) as (A & B & _); [lia| |exact Hu|split; [exact A|exact B]].
  apply (bnd_le 0); [lia|]. now apply bnd_unit.
Qed.
End AdamStep.

(** the gradient has binary64 components of size at most 2^400 at every point of the unit box *)
Definition bounded_grad (f : nat -> vec -> F * option vec) : Prop :=
  forall i x lik g, good_point x -> f i x = (lik, Some g) -> Forall (bnd 400) g.

Lemma Forall_map2 {A B C} (P : A -> Prop) (Q : B -> Prop) (R : C -> Prop) (h : A -> B -> C) : (forall a b, P a -> Q b -> R (h a b)) ->
  forall l l', Forall P l -> Forall Q l' -> Forall R (map2 h l l').
Proof.
  intros H. induction l as [|a l IH]; intros [|b l'] HP HQ; cbn [map2]; try constructor; apply Forall_cons_iff in HP, HQ; [now apply H|now apply IH].
Qed.
Lemma Forall_repeat {A} (P : A -> Prop) x n : P x -> Forall P (repeat x n).
Proof. intro H. apply Forall_forall. intros y I. apply repeat_spec in I. now subst. Qed.
Lemma clamp_good v : Forall (fun x => fvalid x /\ notnan x) v -> good_point (clamp true v).
Proof.
  intro H. unfold clamp, good_point. induction v as [|x l IH]; cbn [map]; constructor; apply Forall_cons_iff in H; [|now apply IH].
  destruct H as [[V N] _]. split; [now apply clamp1_valid|now apply clamp1_unit].
Qed.

Section AdamLoop.
Variable f : nat -> vec -> F * option vec.
Variable norm : vec -> F.
Variables b1 b2 alpha stop : F.
Hypotheses (R1 : rate b1) (R2 : rate b2) (Ha : bnd 400 alpha) (Hf : bounded_grad f).
Lemma adam_loop_good k : forall i m v p x y tr r, Forall mom m -> Forall sqm v -> good_point p -> decayed b1 x -> decayed b2 y -> Forall (fun e => in_box (fst e)) tr ->
  length m = length p -> length v = length p ->
  adam_loop f norm b1 b2 alpha stop true k i m v p x y tr = Some r -> (good_point (fst r) /\ length (fst r) = length p) /\ Forall (fun e => in_box (fst e)) (snd r).
Proof.
  induction k as [|k IH]; intros i m v p x y tr r Hm Hv Hp Hx Hy Ht Lm Lv E; cbn [adam_loop] in E; [injection E as <-; cbn [fst snd]; auto|].
  destruct (f i p) as [lik [g|]] eqn:Ef; [|discriminate]. pose proof (Hf i p lik g Hp Ef) as Hg.
  destruct (negb _) eqn:El; [discriminate|]. apply negb_false_iff, Nat.eqb_eq in El.
  set (m' := map2 _ m g) in E. set (v' := map2 _ v g) in E.
  assert (Hm' : Forall mom m'). { eapply Forall_map2; [|exact Hm|exact Hg]. intros a b A B. now apply mom_next. }
  assert (Hv' : Forall sqm v'). { eapply Forall_map2; [|exact Hv|exact Hg]. intros a b A B. now apply sqm_next. }
  set (q := map2 fadd p _) in E.
  assert (Lm' : length m' = length p) by (unfold m'; rewrite map2_length; lia). assert (Lv' : length v' = length p) by (unfold v'; rewrite map2_length; lia).
  assert (Lq : length q = length p) by (unfold q; rewrite !map2_length, !map_length; lia).
  assert (Hq : good_point (clamp true q)).
  { apply clamp_good. unfold q. clearbody m' v'. clear - R1 R2 Ha Hx Hy Hm' Hv' Hp. revert v' p Hv' Hp. induction m' as [|a m1 IH]; intros [|b v1] [|c p] Hv' Hp; cbn [map map2]; try constructor.
    - apply Forall_cons_iff in Hm', Hv', Hp. destruct Hp as [[Vc Uc] _].
      destruct (step_fin b1 b2 alpha R1 R2 Ha a b c x y) as [A B]; try tauto. split; [exact A|now apply ffin_notnan].
    - apply Forall_cons_iff in Hm', Hv', Hp. apply IH; tauto. }
  assert (Lc : length (clamp true q) = length p) by (rewrite clamp_length; exact Lq).
  assert (Ht' : Forall (fun e : vec * F => in_box (fst e)) (tr ++ [(p, lik)])). { apply Forall_app. split; [exact Ht|]. constructor; [now apply good_point_box|constructor]. }
  destruct (flt _ stop).
  - injection E as <-. split; [split; [exact Hq|exact Lc]|exact Ht'].
  - apply IH in E; auto using decay; try lia. rewrite Lc in E. exact E.
Qed.
Lemma adam_good iterations init p tr : Forall fvalid init -> Forall notnan init ->
  adam f norm b1 b2 alpha stop true iterations init = Some (p, tr) -> (good_point p /\ length p = length init) /\ Forall (fun e => in_box (fst e)) tr.
Proof.
  intros V N E. unfold adam in E. apply adam_loop_good in E; rewrite ?repeat_length, ?clamp_length; auto using decay_start.
  - rewrite clamp_length in E. exact E.
  - apply Forall_repeat, bnd_0.
  - apply Forall_repeat. split; [apply bnd_0|]. rewrite (proj2 (proj2 f0_ok)). lra.
  - apply clamp_good. clear - V N. induction init; constructor; apply Forall_cons_iff in V, N; [tauto|apply IHinit; tauto].
Qed.
End AdamLoop.

(** ** GradientAscent *)
Lemma velocity gamma alpha v g : rate gamma -> bnd 400 alpha -> bnd 853 v -> bnd 400 g -> bnd 853 (fadd (fmul gamma v) (fmul alpha g)).
Proof.
  intros R Ha (Vv & Fv & Bv) Hg. pose proof (rate_gap gamma R) as G. destruct R as (V & Fg & P0 & P1).
  assert (Hag : bnd 800 (fmul alpha g)) by (apply (bnd_mul 400 400); [lia|exact Ha|exact Hg]).
  assert (H : Rabs (fval gamma * fval v) <= fval gamma * bp 853). { rewrite Rabs_mult, (Rabs_pos_eq (fval gamma)) by lra. apply Rmult_le_compat_l; lra. }
  destruct (fmul_correct gamma v V Vv Fg Fv) as [A E].
  { apply (fin_bp _ 853); [|lia]. apply Rle_trans with (1 := H). rewrite <- (Rmult_1_l (bp 853)) at 2. apply Rmult_le_compat_r; [apply bpow_ge_0|lra]. }
  assert (Bm : Rabs (fval (fmul gamma v)) <= fval gamma * bp 853).
  { rewrite E. unfold rnd. apply abs_round_le_generic; [typeclasses eauto|typeclasses eauto| |exact H]. apply fmt_scale; [lia|now apply fmt_fval]. }
  destruct Hag as (Va & Fa & Ba).
  assert (HS : Rabs (fval (fmul gamma v) + fval (fmul alpha g)) <= bp 853).
  { apply Rle_trans with (1 := Rabs_triang _ _). assert (Q : bp 800 = bp (-53) * bp 853) by (rewrite <- bpow_plus; reflexivity). rewrite Q in Ba.
    pose proof (bpow_gt_0 radix2 853). nra. }
  destruct (fadd_correct (fmul gamma v) (fmul alpha g)) as [A' E']; [now apply fmul_valid|exact Va|exact A|exact Fa|apply (fin_bp _ 853); [exact HS|lia]|].
  split; [apply fadd_valid; [now apply fmul_valid|exact Va]|]. split; [exact A'|]. rewrite E'. apply rnd_abs; [lia|exact HS].
Qed.
Lemma move_fin p u k : (0 <= k <= 900)%Z -> fvalid p -> in_unit p -> bnd k u -> fvalid (fadd p u) /\ notnan (fadd p u).
Proof.
  intros K Vp Up H. destruct (bnd_add k p u) as (A & B & _); [lia| |exact H|split; [exact A|now apply ffin_notnan]]. apply (bnd_le 0); [lia|]. now apply bnd_unit.
Qed.
Section GaLoop.
Variable f : nat -> vec -> F * option vec.
Variable norm : vec -> F.
Variables gamma alpha stop : F.
Variable nesterov : bool.
Hypotheses (R1 : rate gamma) (Ha : bnd 400 alpha) (Hf : bounded_grad f).
Lemma ga_loop_good k : forall i v p tr r, Forall (bnd 853) v -> good_point p -> Forall (fun e => in_box (fst e)) tr -> length v = length p ->
  ga_loop f norm gamma alpha stop nesterov true k i v p tr = Some r -> (good_point (fst r) /\ length (fst r) = length p) /\ Forall (fun e => in_box (fst e)) (snd r).
Proof.
  induction k as [|k IH]; intros i v p tr r Hv Hp Ht Lv E; cbn [ga_loop] in E; [injection E as <-; cbn [fst snd]; auto|].
  set (q := if nesterov then _ else _) in E.
  assert (Hq : good_point q).
  { unfold q. destruct nesterov; [|exact Hp]. apply clamp_good. eapply Forall_map2; [|exact Hp|exact Hv]. intros a b [Va Ua] Hb. cbn beta.
    apply (move_fin a _ 853); [lia|exact Va|exact Ua|]. destruct R1 as (V & Fg & B).
    apply (bnd_mul 0 853); [lia| |exact Hb]. split; [exact V|]. split; [exact Fg|]. change (bp 0) with 1. rewrite Rabs_pos_eq; lra. }
  destruct (f i q) as [lik [g|]] eqn:Ef; [|discriminate]. pose proof (Hf i q lik g Hq Ef) as Hg.
  destruct (negb _) eqn:El; [discriminate|]. apply negb_false_iff, Nat.eqb_eq in El.
  set (v' := map2 _ v g) in E. assert (Hv' : Forall (bnd 853) v'). { eapply Forall_map2; [|exact Hv|exact Hg]. intros a b A B. now apply velocity. }
  assert (Lv' : length v' = length p) by (unfold v'; rewrite map2_length; lia).
  assert (Hp' : good_point (clamp true (map2 fadd p v'))).
  { apply clamp_good. eapply Forall_map2; [|exact Hp|exact Hv']. intros a b [Va Ua] Hb. now apply (move_fin a b 853). }
  assert (Lp' : length (clamp true (map2 fadd p v')) = length p) by (rewrite clamp_length, map2_length; lia).
  assert (Ht' : Forall (fun e : vec * F => in_box (fst e)) (tr ++ [(q, lik)])). { apply Forall_app. split; [exact Ht|]. constructor; [now apply good_point_box|constructor]. }
  destruct (flt _ stop).
  - injection E as <-. cbn [fst snd]. auto.
  - apply IH in E; auto; [|lia]. rewrite Lp' in E. exact E.
Qed.
Lemma ga_good iterations init p tr : Forall fvalid init -> Forall notnan init ->
  gradient_ascent f norm gamma alpha stop nesterov true iterations init = Some (p, tr) -> (good_point p /\ length p = length init) /\ Forall (fun e => in_box (fst e)) tr.
Proof.
  intros V N E. unfold gradient_ascent in E. apply ga_loop_good in E; rewrite ?repeat_length, ?clamp_length; auto.
  - rewrite clamp_length in E. exact E.
  - apply Forall_repeat, bnd_0.
  - apply clamp_good. clear - V N. induction init; constructor; apply Forall_cons_iff in V, N; [tauto|apply IHinit; tauto].
Qed.
End GaLoop.
