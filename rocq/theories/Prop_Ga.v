(** C79: opt::GradientAscent in double precision, without momentum: how far the result is from the
    maximum after a number of iterations. *)
From Coq Require Import ZArith List Bool Lia Reals Lra.
From Coq Require Import Floats.SpecFloat.
From Flocq Require Import Core.
From Verif Require Import F64 F64R OptModel OptSpec OptFacts OptFloat AdamFloat FpErr LinAlgModel LinAlg FpAlg FpChol FpSolve FpGp Prop_Fp.
Import ListNotations.
Open Scope R_scope.

(** ** Specification *)
(** points of R^n are functions of the index; [at_ q] = the exact coordinates of a vector of doubles *)
Definition at_ (q : vec) : nat -> R := fun j => fval (nth j q f0).
Definition boxed (n : nat) (lo hi : R) (x : nat -> R) : Prop := forall j, (j < n)%nat -> lo <= x j <= hi.
Definition sqdist (n : nat) (x y : nat -> R) : R := rsum n (fun j => (x j - y j) * (x j - y j)).
(** the gradient [G] of [phi] is Lipschitz with constant [K] on [lo,hi]^n, in the form of the quadratic lower bound *)
Definition smooth (n : nat) (lo hi : R) (phi : (nat -> R) -> R) (G : (nat -> R) -> nat -> R) (K : R) : Prop :=
  forall x y, boxed n lo hi x -> boxed n lo hi y -> phi x + rsum n (fun j => G x j * (y j - x j)) - K / 2 * sqdist n y x <= phi y.
Definition concave (n : nat) (lo hi : R) (phi : (nat -> R) -> R) (G : (nat -> R) -> nat -> R) : Prop :=
  forall x y, boxed n lo hi x -> boxed n lo hi y -> phi y <= phi x + rsum n (fun j => G x j * (y j - x j)).
(** the objective returns a gradient of [n] finite doubles of magnitude at most [M], with error at most [eg] *)
Definition returns_gradient (n : nat) (lo hi : R) (f : nat -> vec -> F * option vec) (G : (nat -> R) -> nat -> R) (M eg : R) : Prop :=
  forall i q, length q = n -> Forall fvalid q -> Forall ffin q -> boxed n lo hi (at_ q) ->
    exists lik g, f i q = (lik, Some g) /\ length g = n /\
      forall j, (j < n)%nat -> fvalid (nth j g f0) /\ ffin (nth j g f0) /\ Rabs (at_ g j) <= M /\ Rabs (at_ g j - G (at_ q) j) <= eg.
(** when the computed norm of a step is below the stopping threshold, the step is short *)
Definition stop_means (n : nat) (norm : vec -> F) (stop : F) (s : R) : Prop :=
  forall w, length w = n -> Forall fvalid w -> Forall ffin w -> flt (norm w) stop = true -> rsum n (fun j => Rabs (at_ w j)) <= s.
(** rounding in one iteration, per coordinate of magnitude at most [P]; and the loss it causes in a box of
    width [W] *)
Definition ga_round (P a M : R) : R := 4 / 10 ^ 16 * (P + a * M).
Definition ga_loss (n : nat) (W P a M eg : R) : R := INR n * W * (eg + ga_round P a M / a).

(** ** One coordinate *)
Lemma sqdist_pos n x y : 0 <= sqdist n x y.
Proof. apply rsum_nonneg. intros j _. apply Rle_0_sqr. Qed.
Lemma uu_dec : 0 < uu <= 12 / 10 ^ 17.
Proof. split; [apply uu_pos|]. rewrite uu_inv. replace (IZR (2 ^ 53)) with 9007199254740992 by reflexivity. lra. Qed.
Lemma e0_uu : 0 < e0 <= uu / 10 ^ 10.
Proof.
  split; [apply e0_pos|]. unfold e0, uu. apply Rle_trans with (bpow radix2 (-53 + -40)); [apply bpow_le; lia|]. rewrite bpow_plus.
  pose proof (bpow_gt_0 radix2 (-53)). replace (bpow radix2 (-40)) with (/ 1099511627776) by (simpl; lra).
  apply Rle_trans with (bpow radix2 (-53) * / 10 ^ 10); [|right; unfold Rdiv; ring]. apply Rmult_le_compat_l; lra.
Qed.
Lemma bp_1000 : 4 * bp 900 <= bp 1000 /\ 1 <= bp 900.
Proof. split; [change 4 with (bp 2); rewrite <- bpow_plus; apply bpow_le; lia|]. change 1 with (bp 0). apply bpow_le. lia. Qed.

Lemma clamp1_proj y : fvalid y -> ffin y ->
  fvalid (clamp1 y) /\ 0 <= fval (clamp1 y) <= 1 /\ forall t, 0 <= t <= 1 -> (fval y - fval (clamp1 y)) * (t - fval (clamp1 y)) <= 0.
Proof.
  intros V Fy. destruct f0_ok as (V0 & F0 & E0), f1_ok as (V1 & F1 & E1).
  split; [now apply clamp1_valid|]. unfold clamp1. destruct (flt y f0) eqn:L0.
  - apply flt_R in L0; auto. destruct (flt f1 f0) eqn:L1; [apply flt_R in L1; auto; lra|]. rewrite E0 in *. split; [lra|]. intros t Ht. nra.
  - apply flt_R_false in L0; auto. destruct (flt f1 y) eqn:L1.
    + apply flt_R in L1; auto. rewrite E1 in *. split; [lra|]. intros t Ht. nra.
    + apply flt_R_false in L1; auto. split; [lra|]. intros t Ht. nra.
Qed.
Lemma one_coord gamma alpha P M v g p : 1 <= P <= bp 900 -> fvalid gamma -> ffin gamma -> fval gamma = 0 -> fvalid alpha -> ffin alpha -> 0 < fval alpha ->
  fval alpha * M <= bp 900 -> fvalid v -> ffin v -> fvalid g -> ffin g -> Rabs (fval g) <= M -> fvalid p -> ffin p -> Rabs (fval p) <= P ->
  let w := fadd (fmul gamma v) (fmul alpha g) in
  (fvalid w /\ ffin w) /\ fvalid (fadd p w) /\ ffin (fadd p w) /\
  Rabs (fval (fadd p w) - (fval p + fval alpha * fval g)) <= ga_round P (fval alpha) M.
Proof.
  intros HP Vg Fg Zg Va Fa Pa BM Vv Fv V Fi B Vp Fp Bp w. unfold w.
  pose proof uu_dec as U. pose proof e0_uu as E0. destruct bp_1000 as [B1 B9].
  assert (Bm : Rabs (fval alpha * fval g) <= fval alpha * M). { rewrite Rabs_mult, (Rabs_pos_eq (fval alpha)) by lra. apply Rmult_le_compat_l; lra. }
  assert (Z : fval gamma * fval v = 0) by (rewrite Zg; ring).
  destruct (fmul_correct gamma v Vg Vv Fg Fv) as [F1 E1]; [rewrite Z; apply (rnd_fin _ 0); [rewrite Rabs_R0; lra|lra]|].
  assert (R0 : rnd 0 = 0). { unfold rnd. apply round_0. typeclasses eauto. }
  rewrite Z, R0 in E1.
  destruct (fmul_correct alpha g Va V Fa Fi) as [F2 E2]; [apply (rnd_fin _ (bp 900)); lra|].
  set (a := fval alpha) in *. set (x := a * fval g) in *. set (m := fmul alpha g) in *.
  assert (Em : Rabs (fval m - x) <= uu * Rabs x + e0) by (rewrite E2; apply rnd_error).
  assert (Bx : uu * Rabs x <= uu * (a * M)) by (apply Rmult_le_compat_l; lra).
  assert (PM : 0 <= a * M). { apply Rle_trans with (2 := Bm). apply Rabs_pos. }
  assert (S : 0 <= uu * (a * M) <= 12 / 10 ^ 17 * (a * M)) by (split; [apply Rmult_le_pos; lra|apply Rmult_le_compat_r; lra]).
  assert (Bfm : Rabs (fval m) <= (1 + 13 / 10 ^ 17) * (a * M) + / 10 ^ 20).
  { replace (fval m) with ((fval m - x) + x) by ring. apply Rle_trans with (1 := Rabs_triang _ _). lra. }
  assert (Vm : fvalid m) by now apply fmul_valid.
  assert (V1 : fvalid (fmul gamma v)) by now apply fmul_valid.
  destruct (fadd_correct (fmul gamma v) m V1 Vm F1 F2) as [F3 E3]; [rewrite E1; apply (rnd_fin _ (2 * bp 900)); [rewrite Rplus_0_l; lra|lra]|].
  rewrite E1, Rplus_0_l, (rnd_id m Vm) in E3.
  assert (V3 : fvalid (fadd (fmul gamma v) m)) by now apply fadd_valid.
  split; [split; assumption|]. split; [now apply fadd_valid|].
  assert (Bs : Rabs (fval p + fval (fadd (fmul gamma v) m)) <= P + ((1 + 13 / 10 ^ 17) * (a * M) + / 10 ^ 20)).
  { rewrite E3. apply Rle_trans with (1 := Rabs_triang _ _). lra. }
  destruct (fadd_correct p (fadd (fmul gamma v) m) Vp V3 Fp F3) as [F4 E4]; [apply (rnd_fin _ (4 * bp 900)); lra|].
  split; [exact F4|]. rewrite E4. pose proof (rnd_error (fval p + fval (fadd (fmul gamma v) m))) as Er.
  set (s := fval p + fval (fadd (fmul gamma v) m)) in *.
  assert (Q : uu * Rabs s <= 12 / 10 ^ 17 * (P + ((1 + 13 / 10 ^ 17) * (a * M) + / 10 ^ 20))) by (apply Rmult_le_compat; try lra; apply Rabs_pos).
  replace (rnd s - (fval p + x)) with ((rnd s - s) + (fval m - x)) by (unfold s; rewrite E3; ring).
  apply Rle_trans with (1 := Rabs_triang _ _). unfold ga_round. lra.
Qed.

(** ** One step, and sequences of steps *)
Section Steps.
  Variable n : nat.
  Variable G : (nat -> R) -> nat -> R.
  Variables lo hi a rho B : R.
  (** [x'] is the projection to the box of a perturbation of [x + a G(x)] *)
  Definition gstep (x x' : nat -> R) : Prop :=
    boxed n lo hi x /\ boxed n lo hi x' /\ exists y, forall j, (j < n)%nat ->
      Rabs (y j - (x j + a * G x j)) <= rho /\ Rabs (y j - x j) <= B /\ forall t, lo <= t <= hi -> (y j - x' j) * (t - x' j) <= 0.
  Inductive gpath : nat -> (nat -> R) -> (nat -> R) -> Prop :=
  | gp0 x : gpath 0 x x
  | gpS m x x' z : gstep x x' -> gpath m x' z -> gpath (S m) x z.
  Hypotheses (Pa : 0 < a) (Pr : 0 <= rho) (Pw : lo <= hi).
  Let W := hi - lo.

  (** the projection inequality *)
  Lemma step_proj x x' z : gstep x x' -> boxed n lo hi z ->
    a * rsum n (fun j => G x j * (z j - x' j)) <= rsum n (fun j => (x' j - x j) * (z j - x' j)) + INR n * (W * rho).
  Proof.
    intros (Hx & Hx' & y & Hy) Hz. rewrite <- rsum_scal_l, <- (rsum_const n (W * rho)), <- rsum_plus. apply rsum_le. intros j Hj.
    destruct (Hy j Hj) as (A & _ & C). specialize (C (z j) (Hz j Hj)). apply Rabs_le_inv in A. pose proof (Hx' j Hj). pose proof (Hz j Hj).
    set (d := y j - (x j + a * G x j)) in *. replace (y j) with (d + (x j + a * G x j)) in C by (unfold d; ring).
    assert (- d * (z j - x' j) <= W * rho). { assert (Rabs (- d * (z j - x' j)) <= rho * W). { rewrite Rabs_mult, Rabs_Ropp. apply Rmult_le_compat; try apply Rabs_pos; apply Rabs_le; unfold W; lra. } apply Rabs_le_inv in H1. lra. }
    lra.
  Qed.
  Lemma step_moves x x' : gstep x x' -> forall j, (j < n)%nat -> Rabs (x' j - x j) <= B.
  Proof.
    clear Pa Pr Pw.
    intros (Hx & Hx' & y & Hy) j Hj. destruct (Hy j Hj) as (_ & A & C). specialize (C (x j) (Hx j Hj)).
    destruct (Rle_or_lt (y j) (x' j)), (Rle_or_lt (x' j) (x j)); unfold Rabs in *; repeat destruct Rcase_abs; nra.
  Qed.
  Lemma path_moves m x z : gpath m x z -> forall j, (j < n)%nat -> Rabs (z j - x j) <= INR m * B.
  Proof.
    clear Pa Pr Pw.
    induction 1 as [x|m x x' z S P IH]; intros j Hj; [simpl; rewrite Rminus_diag_eq, Rabs_R0 by auto; lra|].
    rewrite S_INR. replace (z j - x j) with ((z j - x' j) + (x' j - x j)) by ring. apply Rle_trans with (1 := Rabs_triang _ _).
    pose proof (IH j Hj). pose proof (step_moves _ _ S j Hj). lra.
  Qed.
  Lemma gpath_snoc m x y z : gpath m x y -> gstep y z -> gpath (S m) x z.
  Proof. induction 1; intro; econstructor; eauto; constructor. Qed.

  Variable phi : (nat -> R) -> R.
  Variable K : R.
  Hypothesis Hs : smooth n lo hi phi G K.
  Hypothesis HK : a * K <= 1.
  Let del := INR n * (W * rho) / a.
  Lemma del_a : a * del = INR n * (W * rho). Proof. unfold del. field. lra. Qed.
  Lemma del_pos : 0 <= del. Proof. unfold del. apply Rmult_le_pos; [apply Rmult_le_pos; [apply pos_INR|apply Rmult_le_pos; auto; unfold W; lra]|]. left. now apply Rinv_0_lt_compat. Qed.

  Lemma step_up x x' : gstep x x' -> phi x + sqdist n x' x / (2 * a) - del <= phi x'.
  Proof.
    intros S. pose proof (step_proj x x' x S (proj1 S)) as H. destruct S as (Hx & Hx' & _). pose proof (Hs x x' Hx Hx') as Q.
    assert (E1 : rsum n (fun j => G x j * (x j - x' j)) = - rsum n (fun j => G x j * (x' j - x j))) by (rewrite <- rsum_opp; apply rsum_ext; intros; ring).
    assert (E2 : rsum n (fun j => (x' j - x j) * (x j - x' j)) = - sqdist n x' x) by (unfold sqdist; rewrite <- rsum_opp; apply rsum_ext; intros; ring).
    rewrite E1, E2, <- del_a in H. set (g := rsum n (fun j => G x j * (x' j - x j))) in *.
    assert (D : 0 <= sqdist n x' x) by apply sqdist_pos. set (d := sqdist n x' x) in *.
    assert (g >= d / a - del). { apply Rle_ge, Rmult_le_reg_l with a; auto. replace (a * (d / a - del)) with (d - a * del) by (field; lra). lra. }
    assert (K / 2 * d <= d / (2 * a)).
    { apply Rmult_le_reg_l with (2 * a); [lra|]. replace (2 * a * (K / 2 * d)) with (a * K * d) by field. replace (2 * a * (d / (2 * a))) with (1 * d) by (field; lra). apply Rmult_le_compat_r; lra. }
    assert (d / a = d / (2 * a) + d / (2 * a)) by (field; lra). lra.
  Qed.
  Lemma path_up m x z : gpath m x z -> phi x - INR m * del <= phi z.
  Proof.
    induction 1 as [x|m x x' z S P IH]; [simpl; lra|]. rewrite S_INR. pose proof (step_up _ _ S).
    assert (0 <= sqdist n x' x / (2 * a)). { apply Rmult_le_pos; [apply sqdist_pos|left; apply Rinv_0_lt_compat; lra]. } lra.
  Qed.

  Hypothesis Hc : concave n lo hi phi G.
  Variable z : nat -> R.
  Hypothesis Hz : boxed n lo hi z.
  Lemma step_near x x' : gstep x x' -> 2 * a * (phi z - phi x') <= sqdist n z x - sqdist n z x' + 2 * a * del.
  Proof.
    intros S. pose proof (step_proj x x' z S Hz) as H. destruct S as (Hx & Hx' & _). pose proof (Hs x x' Hx Hx') as Q. pose proof (Hc x z Hx Hz) as C.
    assert (E1 : rsum n (fun j => G x j * (z j - x j)) = rsum n (fun j => G x j * (z j - x' j)) + rsum n (fun j => G x j * (x' j - x j))) by (rewrite <- rsum_plus; apply rsum_ext; intros; ring).
    assert (E2 : 2 * rsum n (fun j => (x' j - x j) * (z j - x' j)) = sqdist n z x - sqdist n z x' - sqdist n x' x).
    { unfold sqdist. rewrite <- rsum_scal_l, <- !rsum_minus. apply rsum_ext. intros; ring. }
    rewrite <- del_a in H. assert (D : 0 <= sqdist n x' x) by apply sqdist_pos. set (d := sqdist n x' x) in *.
    assert (a * K * d <= 1 * d) by (apply Rmult_le_compat_r; lra).
    set (g := rsum n (fun j => G x j * (z j - x' j))) in *. set (g' := rsum n (fun j => G x j * (x' j - x j))) in *. rewrite E1 in C.
    assert (phi z - phi x' <= g + K / 2 * d) by lra.
    apply Rle_trans with (2 * a * (g + K / 2 * d)); [apply Rmult_le_compat_l; lra|]. lra.
  Qed.
  Lemma path_near m x x' : gpath m x x' -> 2 * a * INR m * (phi z - phi x') <= sqdist n z x - sqdist n z x' + a * del * (INR m * (INR m + 1)).
  Proof.
    induction 1 as [x|m x x1 x' S P IH]; [simpl; lra|]. rewrite S_INR. pose proof (step_near _ _ S) as H. pose proof (path_up _ _ _ P) as U.
    assert (2 * a * (phi z - phi x') <= 2 * a * (phi z - phi x1 + INR m * del)) by (apply Rmult_le_compat_l; lra). lra.
  Qed.
  (** when the last step was short *)
  Lemma step_short x x' l : gstep x x' -> rsum n (fun j => Rabs (x j - x' j)) <= l -> phi z - phi x' <= W * l / a + del.
  Proof.
    intros S Hl. pose proof (step_near _ _ S) as H. destruct S as (Hx & Hx' & _).
    assert (E : sqdist n z x - sqdist n z x' <= 2 * (W * l)).
    { apply Rle_trans with (rsum n (fun j => 2 * W * Rabs (x j - x' j))); [|rewrite rsum_scal_l, Rmult_assoc; apply Rmult_le_compat_l; [lra|]; apply Rmult_le_compat_l; [unfold W; lra|exact Hl]].
      unfold sqdist. rewrite <- rsum_minus. apply rsum_le. intros j Hj. specialize (Hx j Hj). specialize (Hx' j Hj). pose proof (Hz j Hj).
      replace ((z j - x j) * (z j - x j) - (z j - x' j) * (z j - x' j)) with ((x j - x' j) * (x j + x' j - 2 * z j)) by ring.
      apply Rle_trans with (1 := Rle_abs _). rewrite Rabs_mult, (Rmult_comm (2 * W)). apply Rmult_le_compat_l; [apply Rabs_pos|]. apply Rabs_le. unfold W. lra. }
    apply Rmult_le_reg_l with (2 * a); [lra|]. replace (2 * a * (W * l / a + del)) with (2 * (W * l) + 2 * a * del) by (field; lra). lra.
  Qed.
End Steps.

(** ** The loop *)
Lemma nth_map2 {A B C} (g : A -> B -> C) u v j da db dc : (j < length u)%nat -> (j < length v)%nat -> nth j (map2 g u v) dc = g (nth j u da) (nth j v db).
Proof. revert v j. induction u; intros [|b v] [|j]; simpl; intros; try lia; auto. apply IHu; lia. Qed.
Lemma Forall_nth' {A} (P : A -> Prop) l d : (forall j, (j < length l)%nat -> P (nth j l d)) -> Forall P l.
Proof. intro H. apply Forall_nth. intros i d' Hi. rewrite (nth_indep l d' d Hi). now apply H. Qed.
Definition point (n : nat) (lo hi : R) (q : vec) : Prop := length q = n /\ Forall fvalid q /\ Forall ffin q /\ boxed n lo hi (at_ q).

Section Loop.
  Variable n : nat.
  Variable bounded : bool.
  Variable f : nat -> vec -> F * option vec.
  Variable norm : vec -> F.
  Variables gamma alpha stop : F.
  Variable G : (nat -> R) -> nat -> R.
  Variables lo hi P M eg s : R.
  Hypotheses (Vg : fvalid gamma) (Fg : ffin gamma) (Zg : fval gamma = 0) (Va : fvalid alpha) (Fa : ffin alpha) (Pa : 0 < fval alpha).
  Hypothesis BM : fval alpha * M <= bp 900.
  Hypothesis PM : 0 <= M.
  Hypothesis Hf : returns_gradient n lo hi f G M eg.
  Hypothesis Hstop : stop_means n norm stop s.
  Hypothesis Hbox : bounded = true -> lo = 0 /\ hi = 1.
  Hypothesis HP : 1 <= P <= bp 900.
  Hypothesis HPb : forall t, lo <= t <= hi -> Rabs t <= P.
  Let a := fval alpha.
  Let W := hi - lo.
  Hypothesis HW : 1 <= W <= bp 900.
  Let rho := a * eg + ga_round P a M.
  Let B := a * M + ga_round P a M.
  (** room for [k] steps, without projection *)
  Definition room (k : R) (q : vec) : Prop := bounded = false -> forall j, (j < n)%nat -> lo + k * B <= at_ q j <= hi - k * B.

  Lemma loop_step v p g : length v = n -> Forall fvalid v -> Forall ffin v -> point n lo hi p -> room 1 p -> length g = n ->
    (forall j, (j < n)%nat -> fvalid (nth j g f0) /\ ffin (nth j g f0) /\ Rabs (at_ g j) <= M /\ Rabs (at_ g j - G (at_ p) j) <= eg) ->
    let v' := map2 (fun vi gi => fadd (fmul gamma vi) (fmul alpha gi)) v g in
    let p' := clamp bounded (map2 fadd p v') in
    length v' = n /\ Forall fvalid v' /\ Forall ffin v' /\ point n lo hi p' /\ gstep n G lo hi a rho B (at_ p) (at_ p').
  Proof.
    intros Lv Vv Fv (Lp & Vp & Fp & Bp) Hr Lg Hg v' p'.
    assert (Lv' : length v' = n) by (unfold v'; rewrite map2_length; lia).
    assert (Ly : length (map2 fadd p v') = n) by (rewrite map2_length; lia).
    assert (Lp' : length p' = n) by (unfold p'; rewrite clamp_length; exact Ly).
    assert (K : forall j, (j < n)%nat -> fvalid (nth j v' f0) /\ ffin (nth j v' f0) /\ fvalid (nth j (map2 fadd p v') f0) /\ ffin (nth j (map2 fadd p v') f0) /\
        Rabs (fval (nth j (map2 fadd p v') f0) - (at_ p j + a * at_ g j)) <= ga_round P a M).
    { intros j Hj. destruct (Hg j Hj) as (V1 & F1 & M1 & _).
      rewrite (nth_map2 _ p v' j f0 f0) by lia. unfold v'. rewrite (nth_map2 _ v g j f0 f0) by lia.
      pose proof (one_coord gamma alpha P M (nth j v f0) (nth j g f0) (nth j p f0)) as H. cbv zeta in H.
      destruct H as ((A1 & A2) & A3 & A4 & A5); auto.
      - apply (proj1 (Forall_nth _ _) Vv). lia.
      - apply (proj1 (Forall_nth _ _) Fv). lia.
      - apply (proj1 (Forall_nth _ _) Vp). lia.
      - apply (proj1 (Forall_nth _ _) Fp). lia.
      - exact (HPb _ (Bp j Hj)). }
    set (y := map2 fadd p v') in *.
    assert (Y : forall j, (j < n)%nat -> Rabs (at_ y j - at_ p j) <= B).
    { intros j Hj. destruct (K j Hj) as (_ & _ & _ & _ & E). destruct (Hg j Hj) as (_ & _ & M1 & _).
      replace (at_ y j - at_ p j) with ((at_ y j - (at_ p j + a * at_ g j)) + a * at_ g j) by ring.
      apply Rle_trans with (1 := Rabs_triang _ _). rewrite Rabs_mult, (Rabs_pos_eq a) by (unfold a; lra). unfold B.
      assert (a * Rabs (at_ g j) <= a * M) by (apply Rmult_le_compat_l; auto; unfold a; lra). unfold at_ at 1. lra. }
    assert (C : forall j, (j < n)%nat -> fvalid (nth j p' f0) /\ ffin (nth j p' f0) /\ lo <= at_ p' j <= hi /\ forall t, lo <= t <= hi -> (at_ y j - at_ p' j) * (t - at_ p' j) <= 0).
    { intros j Hj. destruct (K j Hj) as (_ & _ & V2 & F2 & _). unfold p', clamp, at_. destruct bounded eqn:Eb.
      - destruct (Hbox eq_refl) as [-> ->]. rewrite (nth_indep _ f0 (clamp1 f0)) by (rewrite map_length, Ly; exact Hj). rewrite map_nth.
        destruct (clamp1_proj _ V2 F2) as (C1 & C2 & C3). split; auto. split; [|split; auto].
        unfold clamp1. destruct (flt _ f0); [destruct (flt f1 f0)|destruct (flt f1 _)]; auto; reflexivity.
      - split; auto. split; auto. specialize (Hr Eb j Hj). specialize (Y j Hj). apply Rabs_le_inv in Y. unfold at_ in Y, Hr. split; [lra|]. intros t _. rewrite Rminus_diag_eq by reflexivity. lra. }
    split; auto. split; [apply (Forall_nth' _ _ f0); intros j Hj; apply K; lia|]. split; [apply (Forall_nth' _ _ f0); intros j Hj; apply K; lia|].
    assert (Bx : boxed n lo hi (at_ p')) by (intros j Hj; apply C; auto).
    split.
    - split; auto. split; [apply (Forall_nth' _ _ f0); intros j Hj; apply C; lia|]. split; auto. apply (Forall_nth' _ _ f0). intros j Hj. apply C. lia.
    - split; [exact Bp|]. split; [exact Bx|]. exists (at_ y). intros j Hj.
      destruct (K j Hj) as (_ & _ & _ & _ & E). destruct (Hg j Hj) as (_ & _ & M1 & G1). split; [|split; [now apply Y|now apply C]].
      replace (at_ y j - (at_ p j + a * G (at_ p) j)) with ((at_ y j - (at_ p j + a * at_ g j)) + a * (at_ g j - G (at_ p) j)) by ring.
      apply Rle_trans with (1 := Rabs_triang _ _). rewrite Rabs_mult, (Rabs_pos_eq a) by (unfold a; lra). unfold rho.
      assert (a * Rabs (at_ g j - G (at_ p) j) <= a * eg) by (apply Rmult_le_compat_l; auto; unfold a; lra). unfold at_ at 1. lra.
  Qed.

  Lemma stop_short p p' : point n lo hi p -> point n lo hi p' -> flt (norm (map2 fsub p p')) stop = true ->
    0 <= s /\ rsum n (fun j => Rabs (at_ p j - at_ p' j)) <= s + INR n * (2 / 10 ^ 16 * W).
  Proof.
    intros (Lp & Vp & Fp & Bp) (Lp' & Vp' & Fp' & Bp') H.
    assert (Lm : length (map2 fsub p p') = n) by (rewrite map2_length; lia).
    assert (K : forall j, (j < n)%nat -> fvalid (nth j (map2 fsub p p') f0) /\ ffin (nth j (map2 fsub p p') f0) /\
      Rabs (at_ p j - at_ p' j) <= Rabs (at_ (map2 fsub p p') j) + 2 / 10 ^ 16 * W).
    { intros j Hj. unfold at_. rewrite (nth_map2 _ p p' j f0 f0) by lia.
      assert (V1 : fvalid (nth j p f0)) by (apply (proj1 (Forall_nth _ _) Vp); lia). assert (V2 : fvalid (nth j p' f0)) by (apply (proj1 (Forall_nth _ _) Vp'); lia).
      assert (F1 : ffin (nth j p f0)) by (apply (proj1 (Forall_nth _ _) Fp); lia). assert (F2 : ffin (nth j p' f0)) by (apply (proj1 (Forall_nth _ _) Fp'); lia).
      pose proof (Bp j Hj) as B1. pose proof (Bp' j Hj) as B2. unfold at_ in B1, B2. set (x := nth j p f0) in *. set (y := nth j p' f0) in *.
      assert (D : Rabs (fval x - fval y) <= W) by (apply Rabs_le; unfold W; lra).
      destruct (fsub_correct x y V1 V2 F1 F2) as [A E]; [apply (rnd_fin _ (bp 900)); [lra|apply bpow_le; lia]|].
      split; [now apply fsub_valid|]. split; [exact A|]. rewrite E. pose proof (rnd_error (fval x - fval y)) as Er. pose proof uu_dec. pose proof e0_uu.
      set (t := fval x - fval y) in *. replace t with (rnd t - (rnd t - t)) at 1 by ring. apply Rle_trans with (1 := Rabs_triang _ _). rewrite Rabs_Ropp.
      assert (uu * Rabs t <= 12 / 10 ^ 17 * W) by (apply Rmult_le_compat; try apply Rabs_pos; lra). lra. }
    assert (S1 : rsum n (fun j => Rabs (at_ (map2 fsub p p') j)) <= s).
    { apply Hstop; auto; apply (Forall_nth' _ _ f0); intros j Hj; apply K; lia. }
    split; [apply Rle_trans with (2 := S1), rsum_nonneg; intros; apply Rabs_pos|].
    rewrite <- rsum_const. apply Rle_trans with (rsum n (fun j => Rabs (at_ (map2 fsub p p') j) + 2 / 10 ^ 16 * W)); [|rewrite rsum_plus; lra].
    apply rsum_le. intros j Hj. now apply K.
  Qed.

  Lemma B_pos : 0 <= B.
  Proof. unfold B, ga_round. assert (0 <= a * M) by (apply Rmult_le_pos; auto; unfold a; lra). lra. Qed.
  Lemma loop_path k : forall i v p tr, length v = n -> Forall fvalid v -> Forall ffin v -> point n lo hi p -> room (INR k) p ->
    exists p' tr' m, ga_loop f norm gamma alpha stop false bounded k i v p tr = Some (p', tr') /\ length tr' = (length tr + m)%nat /\ (m <= k)%nat /\
      point n lo hi p' /\ gpath n G lo hi a rho B m (at_ p) (at_ p') /\
      (m = k \/ exists x1, gstep n G lo hi a rho B x1 (at_ p') /\ 0 <= s /\ rsum n (fun j => Rabs (x1 j - at_ p' j)) <= s + INR n * (2 / 10 ^ 16 * W)).
  Proof.
    induction k as [|k IH]; intros i v p tr Lv Vv Fv Hp Hr; cbn [ga_loop].
    - exists p, tr, O. split; [reflexivity|]. split; [lia|]. split; [lia|]. split; [exact Hp|]. split; [constructor|now left].
    - pose proof Hp as (Lp & Vp & Fp & Bp). destruct (Hf i p Lp Vp Fp Bp) as (lik & g & Ef & Lg & Hg). rewrite Ef.
      replace (length g =? length v)%nat with true by (symmetry; apply Nat.eqb_eq; lia). cbn [negb].
      assert (Hr1 : room 1 p). { intros Eb j Hj. specialize (Hr Eb j Hj). rewrite S_INR in Hr. pose proof B_pos. assert (0 <= INR k * B) by (apply Rmult_le_pos; auto; apply pos_INR). lra. }
      pose proof (loop_step v p g Lv Vv Fv Hp Hr1 Lg Hg) as H. cbv zeta in H. set (v' := map2 _ v g) in *. set (p' := clamp bounded _) in *.
      destruct H as (Lv' & Vv' & Fv' & Hp' & St). destruct (flt _ stop) eqn:Es.
      + exists p', (tr ++ [(p, lik)]), 1%nat. split; auto. split; [rewrite app_length; simpl; lia|]. split; [lia|]. split; auto.
        split; [econstructor; [exact St|constructor]|]. right. exists (at_ p). split; auto. now apply stop_short.
      + assert (Hr' : room (INR k) p').
        { intros Eb j Hj. specialize (Hr Eb j Hj). rewrite S_INR in Hr. pose proof (step_moves _ _ _ _ _ _ _ _ _ St j Hj) as Mv. apply Rabs_le_inv in Mv. lra. }
        destruct (IH (S i) v' p' (tr ++ [(p, lik)]) Lv' Vv' Fv' Hp' Hr') as (q & tr' & m & E & L & Hm & Hq & Pt & End).
        exists q, tr', (S m). split; auto. split; [rewrite L, app_length; simpl; lia|]. split; [lia|]. split; auto.
        split; [econstructor; eauto|]. destruct End as [->|End]; [now left|now right].
  Qed.
End Loop.

(** ** Theorems *)
(** the box in which a run stays: the unit box if [bounded]; otherwise [-Rd, Rd]^n, where [Rd] leaves room for
    all iterations *)
Definition run_box (n : nat) (bounded : bool) (iterations : Z) (init : vec) (a M lo hi P : R) : Prop :=
  if bounded then Forall notnan init /\ lo = 0 /\ hi = 1 /\ P = 1
  else Forall ffin init /\ 1 <= P <= 2 ^ 800 /\ lo = - P /\ hi = P /\
    forall j, (j < n)%nat -> Rabs (at_ init j) + INR (Z.to_nat iterations) * (a * M + ga_round P a M) <= P.

Lemma start_point n init : length init = n -> Forall fvalid init -> Forall notnan init -> point n 0 1 (clamp true init).
Proof.
  intros L V N. assert (Lc : length (clamp true init) = n) by now rewrite clamp_length.
  assert (K : forall j, (j < n)%nat -> fvalid (nth j (clamp true init) f0) /\ ffin (nth j (clamp true init) f0) /\ 0 <= at_ (clamp true init) j <= 1).
  { intros j Hj. unfold at_, clamp. rewrite (nth_indep _ f0 (clamp1 f0)) by (rewrite map_length, L; exact Hj). rewrite map_nth.
    assert (V1 : fvalid (nth j init f0)) by (apply (proj1 (Forall_nth _ _) V); lia). assert (N1 : notnan (nth j init f0)) by (apply (proj1 (Forall_nth _ _) N); lia).
    split; [now apply clamp1_valid|]. apply in_unit_fin; [now apply clamp1_valid|now apply clamp1_unit]. }
  split; auto. split; [apply (Forall_nth' _ _ f0); intros j Hj; apply K; lia|]. split; [apply (Forall_nth' _ _ f0); intros j Hj; apply K; lia|]. intros j Hj. now apply K.
Qed.
Lemma run_start n bounded iterations init a M lo hi P : length init = n -> Forall fvalid init -> 0 < a -> 0 <= M -> run_box n bounded iterations init a M lo hi P ->
  (bounded = true -> lo = 0 /\ hi = 1) /\ 1 <= P <= bp 900 /\ (forall t, lo <= t <= hi -> Rabs t <= P) /\ 1 <= hi - lo <= bp 900 /\
  point n lo hi (clamp bounded init) /\ (bounded = false -> forall j, (j < n)%nat -> lo + INR (Z.to_nat iterations) * (a * M + ga_round P a M) <= at_ (clamp bounded init) j <= hi - INR (Z.to_nat iterations) * (a * M + ga_round P a M)).
Proof.
  intros L V Ha HM H. pose proof (proj2 bp_1000) as B9. destruct bounded; unfold run_box in H.
  - destruct H as (N & -> & -> & ->). split; [auto|]. split; [lra|]. split; [intros t Ht; apply Rabs_le; lra|]. split; [lra|]. split; [now apply start_point|discriminate].
  - destruct H as (N & HP & -> & -> & Hr). assert (B8 : 2 * 2 ^ 800 <= bp 900).
    { rewrite <- (bp_pow 800). change 2 with (bp 1) at 1. rewrite <- bpow_plus. apply bpow_le. lia. }
    split; [discriminate|]. split; [lra|]. split; [intros t Ht; apply Rabs_le; lra|]. split; [lra|].
    assert (Hr' : forall j, (j < n)%nat -> - P + INR (Z.to_nat iterations) * (a * M + ga_round P a M) <= at_ init j <= P - INR (Z.to_nat iterations) * (a * M + ga_round P a M)).
    { intros j Hj. specialize (Hr j Hj). assert (Q : Rabs (at_ init j) <= P - INR (Z.to_nat iterations) * (a * M + ga_round P a M)) by lra. apply Rabs_le_inv in Q. lra. }
    split; [|intros _; exact Hr']. split; [exact L|]. split; [exact V|]. split; [exact N|]. intros j Hj. specialize (Hr' j Hj). cbn [clamp].
    assert (0 <= a * M) by (apply Rmult_le_pos; lra). assert (0 <= INR (Z.to_nat iterations) * (a * M + ga_round P a M)) by (apply Rmult_le_pos; [apply pos_INR|unfold ga_round; lra]). lra.
Qed.
Lemma loss_eq n W P a M eg : 0 < a -> INR n * (W * (a * eg + ga_round P a M)) / a = ga_loss n W P a M eg.
Proof. intro. unfold ga_loss. field. lra. Qed.

(** Every run ends, in the box, after at most [iterations] evaluations; for an objective with Lipschitz
    gradient (concave or not) and [alpha] at most the inverse of the constant, the objective does not get
    lower than at the start, up to the effect of rounding and of the error of the gradients; and no
    coordinate moves by more than [alpha * M] per iteration. *)
Theorem C79_ascends : forall n bounded f norm gamma alpha stop iterations init phi G lo hi P K M eg s,
  length init = n -> Forall fvalid init -> run_box n bounded iterations init (fval alpha) M lo hi P ->
  fvalid gamma -> ffin gamma -> fval gamma = 0 -> fvalid alpha -> ffin alpha -> 0 < fval alpha -> 0 <= M -> fval alpha * M <= 2 ^ 900 -> 0 <= eg ->
  returns_gradient n lo hi f G M eg -> stop_means n norm stop s -> smooth n lo hi phi G K -> fval alpha * K <= 1 ->
  exists p tr, gradient_ascent f norm gamma alpha stop false bounded iterations init = Some (p, tr) /\
    (length tr <= Z.to_nat iterations)%nat /\ length p = n /\ Forall fvalid p /\ Forall ffin p /\ boxed n lo hi (at_ p) /\
    phi (at_ (clamp bounded init)) - INR (length tr) * ga_loss n (hi - lo) P (fval alpha) M eg <= phi (at_ p) /\
    forall j, (j < n)%nat -> Rabs (at_ p j - at_ (clamp bounded init) j) <= INR (length tr) * (fval alpha * M + ga_round P (fval alpha) M).
Proof.
  intros n bounded f norm gamma alpha stop iterations init phi G lo hi P K M eg s L V Hb Vg Fg Zg Va Fa Pa PM BM Pe Hf Hstop Hs HK.
  rewrite <- (bp_pow 900) in BM. change (bp (Z.of_nat 900)) with (bp 900) in BM.
  destruct (run_start _ _ _ _ _ _ _ _ _ L V Pa PM Hb) as (Hbx & HP & HPb & HW & H0 & Hr).
  assert (Pr : 0 <= ga_round P (fval alpha) M) by (unfold ga_round; assert (0 <= fval alpha * M) by (apply Rmult_le_pos; lra); lra).
  assert (Pq : 0 <= fval alpha * eg + ga_round P (fval alpha) M) by (assert (0 <= fval alpha * eg) by (apply Rmult_le_pos; lra); lra).
  destruct (loop_path n bounded f norm gamma alpha stop G lo hi P M eg s Vg Fg Zg Va Fa Pa BM PM Hf Hstop Hbx HP HPb HW (Z.to_nat iterations) 0 (repeat f0 (length init)) (clamp bounded init) []) as (p & tr & m & E & Lt & Hm & Hp & Pt & _); auto.
  { now rewrite repeat_length. } { apply Forall_repeat, f0_ok. } { apply Forall_repeat, f0_ok. }
  cbn [length Nat.add] in Lt. rewrite <- Lt in Pt, Hm. exists p, tr. split; [exact E|]. split; auto. destruct Hp as (A1 & A2 & A3 & A4). split; auto. split; auto. split; auto. split; auto. split.
  - rewrite <- loss_eq by auto. eapply path_up; eauto; lra.
  - intros j Hj. eapply path_moves; eauto.
Qed.

(** For a concave objective: the loss after [T] iterations is at most |z - start|^2 / (2 alpha T), up to the
    effect of rounding and of the error of the gradients; after an early stop (impossible when [s < 0]: the
    stopping test never succeeds) it is at most the length of the last step times the width of the box
    divided by [alpha]. *)
Theorem C79_converges : forall n bounded f norm gamma alpha stop iterations init phi G lo hi P K M eg s p tr z,
  length init = n -> Forall fvalid init -> run_box n bounded iterations init (fval alpha) M lo hi P ->
  fvalid gamma -> ffin gamma -> fval gamma = 0 -> fvalid alpha -> ffin alpha -> 0 < fval alpha -> 0 <= M -> fval alpha * M <= 2 ^ 900 -> 0 <= eg ->
  returns_gradient n lo hi f G M eg -> stop_means n norm stop s -> smooth n lo hi phi G K -> fval alpha * K <= 1 -> concave n lo hi phi G -> boxed n lo hi z ->
  gradient_ascent f norm gamma alpha stop false bounded iterations init = Some (p, tr) ->
  let T := length tr in
  ((0 < T)%nat -> phi z - phi (at_ p) <= sqdist n z (at_ (clamp bounded init)) / (2 * fval alpha * INR T) + ga_loss n (hi - lo) P (fval alpha) M eg * ((INR T + 1) / 2)) /\
  (T = Z.to_nat iterations \/ 0 <= s /\ phi z - phi (at_ p) <= (hi - lo) * (s + INR n * (2 / 10 ^ 16 * (hi - lo))) / fval alpha + ga_loss n (hi - lo) P (fval alpha) M eg).
Proof.
  intros n bounded f norm gamma alpha stop iterations init phi G lo hi P K M eg s p tr z L V Hb Vg Fg Zg Va Fa Pa PM BM Pe Hf Hstop Hs HK Hc Hz Run T. unfold T. clear T.
  rewrite <- (bp_pow 900) in BM. change (bp (Z.of_nat 900)) with (bp 900) in BM.
  destruct (run_start _ _ _ _ _ _ _ _ _ L V Pa PM Hb) as (Hbx & HP & HPb & HW & H0 & Hr).
  assert (Pr : 0 <= ga_round P (fval alpha) M) by (unfold ga_round; assert (0 <= fval alpha * M) by (apply Rmult_le_pos; lra); lra).
  assert (Pq : 0 <= fval alpha * eg + ga_round P (fval alpha) M) by (assert (0 <= fval alpha * eg) by (apply Rmult_le_pos; lra); lra).
  assert (Pw : lo <= hi) by lra.
  destruct (loop_path n bounded f norm gamma alpha stop G lo hi P M eg s Vg Fg Zg Va Fa Pa BM PM Hf Hstop Hbx HP HPb HW (Z.to_nat iterations) 0 (repeat f0 (length init)) (clamp bounded init) []) as (p' & tr' & m & E & Lt & Hm & Hp & Pt & End); auto.
  { now rewrite repeat_length. } { apply Forall_repeat, f0_ok. } { apply Forall_repeat, f0_ok. }
  unfold gradient_ascent in Run. rewrite Run in E. injection E as <- <-. cbn [length Nat.add] in Lt. rewrite <- Lt in Pt, Hm, End. clear m Lt. split.
  - intros HT. apply lt_0_INR in HT. set (t := INR (length tr)) in *.
    assert (Q : 2 * fval alpha * t * (phi z - phi (at_ p)) <= sqdist n z (at_ (clamp bounded init)) - sqdist n z (at_ p) + fval alpha * (INR n * ((hi - lo) * (fval alpha * eg + ga_round P (fval alpha) M)) / fval alpha) * (t * (t + 1))) by (eapply path_near; eauto).
    rewrite loss_eq in Q by auto. pose proof (sqdist_pos n z (at_ p)).
    set (a := fval alpha) in *. set (d := ga_loss n (hi - lo) P a M eg) in *. set (q := sqdist n z (at_ (clamp bounded init))) in *.
    apply Rmult_le_reg_l with (2 * a * t); [apply Rmult_lt_0_compat; lra|].
    replace (2 * a * t * (q / (2 * a * t) + d * ((t + 1) / 2))) with (q + a * d * (t * (t + 1))) by (field; lra). lra.
  - destruct End as [->|(x1 & S & Ps & Sh)]; [now left|right]. split; auto. rewrite <- loss_eq by auto. eapply step_short; eauto.
Qed.

(** ** The default parameters *)
(** defaults::opt_gradient_ascent (opt/gradient_ascent.hpp:60-79): 300 iterations, alpha 0.001, gamma 0, no
    Nesterov momentum, threshold 0 *)
Definition ga_alpha : F := fdiv f1 (fofZ 1000).
Lemma ga_alpha_ok : fvalid ga_alpha /\ ffin ga_alpha /\ 999 / 10 ^ 6 <= fval ga_alpha <= 1001 / 10 ^ 6.
Proof. split; [reflexivity|]. split; [reflexivity|]. cbv -[IZR F2R bpow Rdiv Rle pow]. unfold F2R. simpl. lra. Qed.
(** With the default parameters no coordinate moves by more than 0.31 times the largest slope, whatever
    the objective. *)
Theorem C79_default_reach : forall n f norm init G M eg s,
  length init = n -> Forall fvalid init -> Forall notnan init -> / 1000 <= M <= 2 ^ 800 -> 0 <= eg ->
  returns_gradient n 0 1 f G M eg -> stop_means n norm f0 s ->
  exists p tr, gradient_ascent f norm f0 ga_alpha f0 false true 300 init = Some (p, tr) /\ length p = n /\
    forall j, (j < n)%nat -> Rabs (at_ p j - at_ (clamp true init) j) <= 31 / 100 * M.
Proof.
  intros n f norm init G M eg s L V N HM Pe Hf Hstop. destruct ga_alpha_ok as (Va & Fa & Ba). destruct f0_ok as (V0 & F0 & E0).
  assert (BM : fval ga_alpha * M <= bp 900).
  { apply Rle_trans with (1 * 2 ^ 800); [apply Rmult_le_compat; lra|]. rewrite Rmult_1_l, <- (bp_pow 800). apply bpow_le. lia. }
  destruct (run_start n true 300 init (fval ga_alpha) M 0 1 1 L V ltac:(lra) ltac:(lra) (conj N (conj eq_refl (conj eq_refl eq_refl)))) as (Hbx & HP & HPb & HW & H0 & Hr).
  destruct (loop_path n true f norm f0 ga_alpha f0 G 0 1 1 M eg s V0 F0 E0 Va Fa ltac:(lra) BM ltac:(lra) Hf Hstop Hbx HP HPb HW (Z.to_nat 300) 0 (repeat f0 (length init)) (clamp true init) []) as (p & tr & m & E & Lt & Hm & Hp & P & _); auto.
  { now rewrite repeat_length. } { apply Forall_repeat, f0_ok. } { apply Forall_repeat, f0_ok. }
  exists p, tr. split; [exact E|]. split; [apply Hp|]. intros j Hj. assert (Q : Rabs (at_ p j - at_ (clamp true init) j) <= INR m * (fval ga_alpha * M + ga_round 1 (fval ga_alpha) M)) by (eapply path_moves; eauto). apply Rle_trans with (1 := Q).
  apply le_INR in Hm. replace (INR (Z.to_nat 300)) with 300 in Hm by (rewrite INR_IZR_INZ; reflexivity).
  assert (A : fval ga_alpha * M <= 1001 / 10 ^ 6 * M) by (apply Rmult_le_compat_r; lra).
  apply Rle_trans with (300 * (fval ga_alpha * M + ga_round 1 (fval ga_alpha) M)); [|unfold ga_round; lra].
  apply Rmult_le_compat_r; auto. assert (0 <= fval ga_alpha * M) by (apply Rmult_le_pos; lra). unfold ga_round. lra.
Qed.

(** ** Examples *)
(** the Euclidean norm *)
Definition norm2 (w : vec) : F := fsqrt (fold_right (fun x s => fadd (fmul x x) s) f0 w).
Lemma fsqrt_nonneg x : fvalid x -> flt (fsqrt x) f0 = false.
Proof.
  intros V. destruct x as [[]|[]| |[] m e]; try reflexivity. destruct f0_ok as (V0 & F0 & E0).
  assert (P : 0 <= fval (S754_finite false m e)). { cbn. unfold F2R. cbn [Fnum Fexp]. apply Rmult_le_pos; [apply IZR_le; lia|apply bpow_ge_0]. }
  destruct (fsqrt_correct (S754_finite false m e) V eq_refl P) as [A E]. apply flt_R_false; auto; [now apply fsqrt_valid|]. rewrite E, E0.
  unfold rnd. apply round_ge_generic; [typeclasses eauto|typeclasses eauto|apply generic_format_0|apply sqrt_pos].
Qed.
Lemma norm2_never n s : stop_means n norm2 f0 s.
Proof.
  intros w _ V _ H. exfalso. assert (Vs : fvalid (fold_right (fun x s => fadd (fmul x x) s) f0 w)).
  { clear H. induction V; cbn [fold_right]; [apply f0_ok|]. apply fadd_valid; [now apply fmul_valid|assumption]. }
  unfold norm2 in H. rewrite (fsqrt_nonneg _ Vs) in H. discriminate.
Qed.

(** the objective x_0: from 0, the default parameters leave more than 2/3 of the way to the maximum *)
Theorem C79_default_stops_short : exists f phi G p tr,
  returns_gradient 1 0 1 f G 1 0 /\ smooth 1 0 1 phi G 0 /\ concave 1 0 1 phi G /\
  gradient_ascent f norm2 f0 ga_alpha f0 false true 300 [f0] = Some (p, tr) /\ boxed 1 0 1 (at_ p) /\ phi (fun _ => 1) - phi (at_ p) >= 2 / 3.
Proof.
  set (f := fun (_ : nat) (_ : vec) => (f0, Some [f1])). set (phi := fun x : nat -> R => x O). set (G := fun (_ : nat -> R) (_ : nat) => 1).
  destruct f0_ok as (V0 & F0 & E0). destruct f1_ok as (V1 & F1 & E1).
  assert (Hf : returns_gradient 1 0 1 f G 1 0).
  { intros i q Lq Vq Fq Bq. exists f0, [f1]. split; [reflexivity|]. split; [reflexivity|]. intros j Hj. replace j with O by lia. unfold at_. cbn [nth]. rewrite E1.
    split; auto. split; auto. unfold G. rewrite Rabs_R1, Rminus_diag_eq, Rabs_R0 by reflexivity. lra. }
  destruct ga_alpha_ok as (Va & Fa & Ba). assert (W1 : Forall fvalid [f0]) by (repeat constructor). assert (W2 : Forall notnan [f0]) by (repeat apply Forall_cons; try apply Forall_nil; now apply ffin_notnan).
  assert (B8 : / 1000 <= 1 <= 2 ^ 800) by (split; [lra|]; rewrite <- (bp_pow 800); change 1 with (bp 0); apply bpow_le; lia).
  assert (B9 : fval ga_alpha * 1 <= 2 ^ 900) by (rewrite <- (bp_pow 900); change (bp (Z.of_nat 900)) with (bp 900); pose proof (proj2 bp_1000); lra).
  destruct (C79_default_reach 1 f norm2 [f0] G 1 0 0) as (p & tr & E & Lp & R); auto; [lra|apply norm2_never|].
  assert (Hs : smooth 1 0 1 phi G 0) by (intros x y _ _; unfold phi, G; simpl; lra).
  destruct (C79_ascends 1 true f norm2 f0 ga_alpha f0 300 [f0] phi G 0 1 1 0 1 0 0) as (p' & tr' & E' & _ & _ & _ & _ & Bx & _); auto; try lra; try apply norm2_never; try (repeat split; auto; fail).
  rewrite E in E'. injection E' as <- <-.
  exists f, phi, G, p, tr. split; auto. split; auto. split; [intros x y _ _; unfold phi, G; simpl; lra|]. split; [exact E|]. split; auto.
  specialize (R O ltac:(lia)). replace (at_ (clamp true [f0]) 0) with 0 in R by (vm_compute; reflexivity). apply Rabs_le_inv in R. unfold phi. lra.
Qed.

(** the objective x_0 - x_0^2/2 + x_1 - x_1^2/2, maximal at (1, 1), with alpha = 1/2: after 1000
    iterations from (0, 0) the loss is below 2/1000 *)
Example C79_example : exists p tr,
  gradient_ascent (fun _ q => (f0, Some (map (fsub f1) q))) norm2 f0 (fdiv f1 (fofZ 2)) f0 false true 1000 [f0; f0] = Some (p, tr) /\
  1 - (at_ p 0 - at_ p 0 * at_ p 0 / 2 + (at_ p 1 - at_ p 1 * at_ p 1 / 2)) <= 21 / 10000.
Proof.
  set (f := fun (_ : nat) (q : vec) => (f0, Some (map (fsub f1) q))).
  set (phi := fun x : nat -> R => x 0%nat - x 0%nat * x 0%nat / 2 + (x 1%nat - x 1%nat * x 1%nat / 2)). set (G := fun (x : nat -> R) (j : nat) => 1 - x j).
  destruct f0_ok as (V0 & F0 & E0). destruct f1_ok as (V1 & F1 & E1). set (al := fdiv f1 (fofZ 2)).
  assert (W1 : Forall fvalid [f0; f0]) by (repeat constructor). assert (W2 : Forall notnan [f0; f0]) by (repeat apply Forall_cons; try apply Forall_nil; now apply ffin_notnan).
  assert (Va : fvalid al) by reflexivity. assert (Fa : ffin al) by reflexivity.
  assert (Ea : fval al = 1 / 2) by (vm_compute; lra).
  assert (Hf : returns_gradient 2 0 1 f G 1 (2 / 10 ^ 16)).
  { intros i q Lq Vq Fq Bq. exists f0, (map (fsub f1) q). split; [reflexivity|]. split; [now rewrite map_length|]. intros j Hj.
    unfold at_. rewrite (nth_indep _ f0 (fsub f1 f0)) by (rewrite map_length, Lq; exact Hj). rewrite map_nth.
    assert (Vj : fvalid (nth j q f0)) by (apply (proj1 (Forall_nth _ _) Vq); lia). specialize (Bq j Hj). unfold at_ in Bq.
    assert (Fj : ffin (nth j q f0)) by (apply (proj1 (Forall_nth _ _) Fq); lia). set (x := nth j q f0) in *.
    assert (D : Rabs (fval f1 - fval x) <= 1) by (rewrite E1; apply Rabs_le; lra). pose proof (proj2 bp_1000) as B9.
    destruct (fsub_correct f1 x V1 Vj F1 Fj) as [A E]; [apply (rnd_fin _ (bp 900)); [lra|apply bpow_le; lia]|].
    split; [now apply fsub_valid|]. split; [exact A|]. rewrite E. split.
    - change 1 with (bp 0). apply rnd_abs; [lia|]. exact D.
    - unfold G, at_. fold x. rewrite E1 in *. pose proof (rnd_error (1 - fval x)) as Er. pose proof uu_dec. pose proof e0_uu.
      assert (uu * Rabs (1 - fval x) <= uu * 1) by (apply Rmult_le_compat_l; lra). lra. }
  assert (Hs : smooth 2 0 1 phi G 1). { intros x y _ _. unfold phi, G, sqdist. simpl. pose proof (Rle_0_sqr (y O - x O)). lra. }
  assert (Hc : concave 2 0 1 phi G).
  { intros x y _ _. unfold phi, G. simpl. pose proof (Rle_0_sqr (y O - x O)) as Q0. pose proof (Rle_0_sqr (y 1%nat - x 1%nat)) as Q1. unfold Rsqr in Q0, Q1. lra. }
  assert (BM : fval al * 1 <= 2 ^ 900). { rewrite <- (bp_pow 900). change (bp (Z.of_nat 900)) with (bp 900). pose proof (proj2 bp_1000). rewrite Ea. lra. }
  destruct (C79_ascends 2 true f norm2 f0 al f0 1000 [f0; f0] phi G 0 1 1 1 1 (2 / 10 ^ 16) (-1)) as (p & tr & E & _); auto; try (rewrite ?Ea; lra); try apply norm2_never; try (repeat split; auto; fail).
  exists p, tr. split; [exact E|].
  pose proof (C79_converges 2 true f norm2 f0 al f0 1000 [f0; f0] phi G 0 1 1 1 1 (2 / 10 ^ 16) (-1) p tr (fun _ => 1)) as H. cbv zeta in H.
  destruct H as [A B]; auto; try (rewrite ?Ea; lra); try apply norm2_never; try (repeat split; auto; fail). { intros j _. lra. }
  destruct B as [B|[B _]]; [|lra]. rewrite B in A. replace (INR (Z.to_nat 1000)) with 1000 in A by (rewrite INR_IZR_INZ; reflexivity).
  specialize (A ltac:(lia)). unfold sqdist, ga_loss, ga_round in A. cbn [rsum] in A. rewrite Ea in A.
  replace (at_ (clamp true [f0; f0]) 0) with 0 in A by (vm_compute; reflexivity). replace (at_ (clamp true [f0; f0]) 1) with 0 in A by (vm_compute; reflexivity).
  unfold phi in A. simpl INR in A. lra.
Qed.
(** the objective x_0 - x_0^2/2 without bounds, with the default parameters, from 0 *)
Example C79_unbounded_example : exists p tr,
  gradient_ascent (fun _ q => (f0, Some (map (fsub f1) q))) norm2 f0 ga_alpha f0 false false 300 [f0] = Some (p, tr) /\
  length tr = 300%nat /\ at_ p 0 - at_ p 0 * at_ p 0 / 2 >= - / 10 ^ 8 /\ Rabs (at_ p 0) <= 61 / 100.
Proof.
  set (f := fun (_ : nat) (q : vec) => (f0, Some (map (fsub f1) q))).
  set (phi := fun x : nat -> R => x 0%nat - x 0%nat * x 0%nat / 2). set (G := fun (x : nat -> R) (j : nat) => 1 - x j).
  destruct f0_ok as (V0 & F0 & E0). destruct f1_ok as (V1 & F1 & E1). destruct ga_alpha_ok as (Va & Fa & Ba).
  assert (W1 : Forall fvalid [f0]) by (repeat constructor).
  assert (Hf : returns_gradient 1 (-1) 1 f G 2 (4 / 10 ^ 16)).
  { intros i q Lq Vq Fq Bq. exists f0, (map (fsub f1) q). split; [reflexivity|]. split; [now rewrite map_length|]. intros j Hj.
    unfold at_. rewrite (nth_indep _ f0 (fsub f1 f0)) by (rewrite map_length, Lq; exact Hj). rewrite map_nth.
    assert (Vj : fvalid (nth j q f0)) by (apply (proj1 (Forall_nth _ _) Vq); lia). specialize (Bq j Hj). unfold at_ in Bq.
    assert (Fj : ffin (nth j q f0)) by (apply (proj1 (Forall_nth _ _) Fq); lia). set (x := nth j q f0) in *.
    assert (D : Rabs (fval f1 - fval x) <= 2) by (rewrite E1; apply Rabs_le; lra). destruct bp_1000 as [B1 B9].
    destruct (fsub_correct f1 x V1 Vj F1 Fj) as [A E]; [apply (rnd_fin _ (2 * bp 900)); lra|].
    split; [now apply fsub_valid|]. split; [exact A|]. rewrite E. split.
    - change 2 with (bp 1). apply rnd_abs; [lia|]. exact D.
    - unfold G, at_. fold x. rewrite E1 in *. pose proof (rnd_error (1 - fval x)) as Er. pose proof uu_dec. pose proof e0_uu.
      assert (uu * Rabs (1 - fval x) <= uu * 2) by (apply Rmult_le_compat_l; lra). lra. }
  assert (Hs : smooth 1 (-1) 1 phi G 1). { intros x y _ _. unfold phi, G, sqdist. simpl. lra. }
  assert (Hc : concave 1 (-1) 1 phi G). { intros x y _ _. unfold phi, G. simpl. pose proof (Rle_0_sqr (y O - x O)) as Q0. unfold Rsqr in Q0. lra. }
  assert (BM : fval ga_alpha * 2 <= 2 ^ 900). { rewrite <- (bp_pow 900). change (bp (Z.of_nat 900)) with (bp 900). pose proof (proj2 bp_1000). lra. }
  assert (I3 : INR (Z.to_nat 300) = 300) by (rewrite INR_IZR_INZ; reflexivity).
  assert (Rb : run_box 1 false 300 [f0] (fval ga_alpha) 2 (-1) 1 1).
  { split; [now repeat constructor|]. split; [split; [lra|]; rewrite <- (bp_pow 800); change 1 with (bp 0) at 1; apply bpow_le; lia|]. split; [lra|]. split; [lra|].
    intros j Hj. replace j with O by lia. unfold at_. cbn [nth]. rewrite E0, Rabs_R0, I3. unfold ga_round. lra. }
  destruct (C79_ascends 1 false f norm2 f0 ga_alpha f0 300 [f0] phi G (-1) 1 1 1 2 (4 / 10 ^ 16) (-1)) as (p & tr & E & LT & Lp & _ & _ & Bx & Up & Mv); auto; try lra; try apply norm2_never.
  exists p, tr. split; [exact E|].
  pose proof (C79_converges 1 false f norm2 f0 ga_alpha f0 300 [f0] phi G (-1) 1 1 1 2 (4 / 10 ^ 16) (-1) p tr (fun _ => 1)) as H. cbv zeta in H.
  destruct H as [_ B]; auto; try lra; try apply norm2_never. { intros j _. lra. }
  destruct B as [B|[B _]]; [|lra]. split; [exact B|]. specialize (Mv O ltac:(lia)). rewrite B in Mv, Up. rewrite I3 in Mv, Up.
  replace (at_ (clamp false [f0]) 0) with 0 in Mv by (vm_compute; reflexivity). rewrite Rminus_0_r in Mv. split.
  - unfold phi in Up. replace (at_ (clamp false [f0]) 0) with 0 in Up by (vm_compute; reflexivity). unfold ga_loss in Up. simpl INR in Up.
    assert (Q : ga_round 1 (fval ga_alpha) 2 / fval ga_alpha <= / 10 ^ 12).
    { apply Rmult_le_reg_r with (fval ga_alpha); [lra|]. unfold Rdiv. rewrite Rmult_assoc, Rinv_l by lra. unfold ga_round. lra. }
    lra.
  - apply Rle_trans with (1 := Mv). unfold ga_round. lra.
Qed.
