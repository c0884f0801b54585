(** C80: convergence of whole optimizer runs in double precision with any inner optimizer that nearly
    maximises the computed acquisition function: after enough iterations the best sample is nearly a global
    maximum of the objective. *)
From Coq Require Import ZArith List Bool Lia Permutation Reals Lra.
From Coq Require Import Floats.SpecFloat.
From Flocq Require Import Core IEEE754.BinarySingleNaN.
From Verif Require Import F64 F64R AdamFloat OptFloat OptModel OptSpec Prop_Opt FpModel FpErr LinAlgModel LinAlg FpAlg FpChol FpSolve FpGp FpFin Prop_Fp.
From Verif Require Import KernelModel KernelFacts FpKerModel FpKer FpKer2 Prop_FpKer FpAcqModel FpAcq Prop_FpAcq FpLip Prop_Next FpMeanModel FpLife FpImpl Prop_FpMean.
From Verif Require Import FpLikModel Prop_FpLik InitModel InitFacts BOModel BOSpec BOFacts Prop_BO BORun BOCount FpBand Prop_BoFp Prop_Conv.
Import ListNotations.
Open Scope R_scope.

(** ** Specification *)
(** kernel, noise and dimension as in C70, length scales of [lam] or more, data up to [M] *)
Definition gp_setting (fexp : F -> F) (mk d : nat) (sf2 noise : F) (p : kpar) (m : nat) (mf : meanf) (M lam : R) : Prop :=
  regular fexp mk d sf2 noise p /\ (2 * d <= mk)%nat /\ INR m <= 3000 /\ 0 <= M <= 2 ^ 198 /\ const_ok M mf /\
  0 < lam /\ (forall l, In l (scales p) -> lam <= fval l) /\ (1 <= d)%nat.
(** what the best of [N] samples may miss at most, when a cell of side [1 / r] was visited again after [k]
    visits: the confidence band at that cell, the loss [zeta] of the inner optimizer, and rounding *)
Definition any_loss (alpha sf2 noise : F) (p : kpar) (N d m : nat) (M lam : R) (r k : nat) (zeta : R) : R :=
  let W := sqrt (INR N / nugget noise) * fval alpha + shift noise N m M in
  2 * fval alpha * sqrt (nugget noise / INR k + fval sf2 * (gap p d (/ INR r) lam * gap p d (/ INR r) lam))
  + zeta
  + 2 * (7 / 10 ^ 6 * W + 2 / 10 ^ 12 * (1 + (M + centre m M)) + 11 / 10 ^ 7 * fval alpha / sqrt (var_floor sf2 noise N))
  + 2 * (centre m M + fval sf2 * shift noise N m M).

(** ** The variance near points that were sampled *)
Lemma pvar_near {T} (k : T -> T -> R) (G : T -> Prop) (ksym : forall x y, G x -> G y -> k x y = k y x)
    (kpsd : forall n pts, (forall i, (i < n)%nat -> G (pts i)) -> psd n (fun i j => k (pts i) (pts j)))
    n pts B eta (Gp : forall i, (i < n)%nat -> G (pts i)) (He : 0 < eta) (HB : is_inv n (noisy (fun i j => k (pts i) (pts j)) eta) B)
    v (I : nat -> bool) c s e : (1 <= c)%nat -> rsum n (fun i => if I i then 1 else 0) = INR c ->
  k v v <= s -> (forall i j, (i < n)%nat -> (j < n)%nat -> k (pts i) (pts j) <= s) -> (forall i, (i < n)%nat -> I i = true -> 2 * (s - k (pts i) v) <= e) ->
  pvar k n pts B v <= eta / INR c + e.
Proof.
  intros Hc HI Hv Hs Hn. assert (Pc : 0 < INR c) by (apply lt_0_INR; lia). set (ind := fun i => if I i then 1 else 0) in *. set (w := fun i => / INR c * ind i).
  assert (W1 : rsum n w = 1) by (unfold w; rewrite rsum_scal_l, HI; field; lra).
  assert (W2 : ssq n w = / INR c).
  { unfold ssq. rewrite (rsum_ext n (fun i => w i * w i) (fun i => / INR c * w i)); [rewrite rsum_scal_l, W1; ring|]. intros i _. unfold w, ind. destruct (I i); ring. }
  assert (W0 : forall i, 0 <= w i) by (intros i; unfold w, ind; apply Rmult_le_pos; [left; now apply Rinv_0_lt_compat|destruct (I i); lra]).
  pose proof (pvar_least k G ksym kpsd n pts B eta Gp He HB v w) as P.
  assert (Q : quad n (fun i j => k (pts i) (pts j)) w <= s).
  { unfold quad. apply Rle_trans with (rsum n (fun i => w i * s)); [|rewrite rsum_scal_r, W1; lra]. apply rsum_le. intros i Hi.
    apply Rle_trans with (rsum n (fun j => (w i * s) * w j)); [|rewrite rsum_scal_l, W1; lra]. apply rsum_le. intros j Hj.
    replace (w i * s * w j) with (w i * w j * s) by ring. apply Rmult_le_compat_l; [now apply Rmult_le_pos|]. now apply Hs. }
  assert (L : rsum n (fun i => w i * (s - e / 2)) <= rsum n (fun i => w i * k (pts i) v)).
  { apply rsum_le. intros i Hi. unfold w, ind. destruct (I i) eqn:Ei; [|lra]. rewrite Rmult_1_r. specialize (Hn i Hi Ei).
    apply Rmult_le_compat_l; [left; now apply Rinv_0_lt_compat|lra]. }
  rewrite rsum_scal_r, W1 in L. rewrite W2 in P. unfold Rdiv at 1. lra.
Qed.

(** ** Cells *)
Section Cells.
  Variable r : nat.
  Hypothesis Hr : (1 <= r)%nat.
  Definition cell (x : F) : nat := Z.to_nat (Z.min (Z.of_nat r - 1) (Zfloor (INR r * fval x))).
  Fixpoint key (v : fpt) : nat := match v with [] => 0%nat | x :: t => (cell x + r * key t)%nat end.

  Lemma cell_lt x : (cell x < r)%nat.
  Proof. unfold cell. lia. Qed.
  Lemma cell_range x : 0 <= fval x <= 1 -> INR (cell x) <= INR r * fval x <= INR (cell x) + 1.
  Proof.
    intros Hx. assert (R1 : 1 <= INR r) by (change 1 with (INR 1); now apply le_INR). unfold cell.
    assert (B : 0 <= INR r * fval x <= INR r). { split; [apply Rmult_le_pos; lra|]. rewrite <- (Rmult_1_r (INR r)) at 2. apply Rmult_le_compat_l; lra. }
    assert (F0 : (0 <= Zfloor (INR r * fval x))%Z) by (apply Zfloor_lub; lra).
    pose proof (Zfloor_lb (INR r * fval x)) as Lb. pose proof (Zfloor_ub (INR r * fval x)) as Ub. set (z := Zfloor (INR r * fval x)) in *.
    rewrite INR_IZR_INZ, Z2Nat.id by lia. destruct (Z.min_spec (Z.of_nat r - 1) z) as [(H & ->)|(H & ->)]; [|lra].
    rewrite minus_IZR, <- INR_IZR_INZ. split; [|lra]. apply Rle_trans with (2 := Lb). rewrite INR_IZR_INZ, <- minus_IZR. apply IZR_le. lia.
  Qed.
  Lemma key_lt v : (key v < r ^ length v)%nat.
  Proof. induction v as [|x v IH]; cbn [key length Nat.pow]; [lia|]. pose proof (cell_lt x). nia. Qed.
  Lemma key_near d v w : box d v -> box d w -> key v = key w -> near_pt (/ INR r) v w.
  Proof.
    intros (Lv & Hv) (Lw & Hw) Hk. assert (P : 0 < INR r) by (apply lt_0_INR; lia). split; [lia|].
    assert (Lvw : length v = length w) by lia. clear Lv Lw. revert w Lvw Hw Hk. induction v as [|x v IH]; intros w L Hw Hk i Hi; [cbn in Hi; lia|].
    destruct w as [|y w]; [discriminate|]. cbn [key] in Hk. pose proof (cell_lt x) as Cx. pose proof (cell_lt y) as Cy.
    assert (E : cell x = cell y /\ key v = key w).
    { assert (key v = key w) by nia. split; [nia|auto]. }
    destruct E as (E1 & E2). destruct i as [|i].
    - unfold rpt, vget. cbn [map nth]. pose proof (cell_range x ltac:(now apply Hv; left)) as Rx. pose proof (cell_range y ltac:(now apply Hw; left)) as Ry. rewrite E1 in Rx.
      apply Rmult_le_reg_l with (INR r); auto. rewrite Rinv_r by lra. rewrite <- (Rabs_pos_eq (INR r)) at 1 by lra. rewrite <- Rabs_mult. apply Rabs_le. lra.
    - assert (A : forall a, In a v -> fvalid a /\ ffin a /\ 0 <= fval a <= 1) by (intros a Ha; apply Hv; now right).
      specialize (IH A w ltac:(cbn in L; lia) ltac:(intros a Ha; apply Hw; now right) E2 i ltac:(cbn in Hi; lia)). exact IH.
  Qed.
End Cells.

(** a list longer than [k * P] with keys below [P] takes some key after having taken it [k] times *)
Lemma revisit_key (ky : F64.vec -> nat) (l : list F64.vec) P k : (forall q, In q l -> (ky q < P)%nat) -> (k * P < length l)%nat ->
  exists l1 p l2, l = l1 ++ p :: l2 /\ (k <= length (filter (fun q => (ky q =? ky p)%nat) l1))%nat.
Proof.
  intros HP Hk. set (f := fun q : F64.vec => repeat f0 (ky q)).
  assert (Inj : forall a b, f a = f b <-> ky a = ky b).
  { intros a b. unfold f. split; [|congruence]. intros E. apply (f_equal (@length F)) in E. now rewrite !repeat_length in E. }
  destruct (revisit (map f l) (map (repeat f0) (seq 0 P)) k) as (l1' & p' & l2' & El & Ho).
  - intros x Hx. apply in_map_iff in Hx. destruct Hx as (q & <- & Hq). apply (in_map (repeat f0) (seq 0 P) (ky q)). apply in_seq. specialize (HP q Hq). lia.
  - rewrite !map_length, seq_length. exact Hk.
  - destruct (map_eq_app _ _ _ _ El) as (l1 & ll & -> & <- & E2). destruct ll as [|p l2]; [discriminate|]. cbn [map] in E2. injection E2 as <- _.
    exists l1, p, l2. split; auto. apply Nat.le_trans with (1 := Ho). clear - Inj. induction l1 as [|a l1 IH]; cbn [map count_occ filter]; auto.
    destruct (vec_dec (f a) (f p)) as [E|E].
    + apply Inj in E. rewrite E, Nat.eqb_refl. cbn. lia.
    + destruct (Nat.eqb_spec (ky a) (ky p)) as [E'|_]; auto. apply Inj in E'. contradiction.
Qed.
(** a part of a list has at most as many elements of a kind *)
Lemma occ_filter (b : F64.vec -> bool) (l X : list F64.vec) : (forall p, (count_occ vec_dec l p <= count_occ vec_dec X p)%nat) -> (length (filter b l) <= length (filter b X))%nat.
Proof.
  revert X. induction l as [|a l IH]; intros X H; cbn [filter]; [cbn; lia|].
  assert (Ia : In a X). { apply (count_occ_In vec_dec). specialize (H a). cbn in H. destruct (vec_dec a a); [lia|congruence]. }
  destruct (in_split _ _ Ia) as (X1 & X2 & ->).
  assert (Le : (length (filter b l) <= length (filter b (X1 ++ X2)))%nat).
  { apply IH. intros p. specialize (H p). rewrite count_occ_app in *. cbn [count_occ] in H. destruct (vec_dec a p); lia. }
  rewrite filter_app, app_length in *. cbn [filter]. destruct (b a); cbn [length]; lia.
Qed.
Lemma filter_rsum (b : fpt -> bool) (xs : list fpt) : rsum (length xs) (fun i => if b (ptsf xs i) then 1 else 0) = INR (length (filter b xs)).
Proof.
  transitivity (lsum (fun x : fpt => if b x then 1 else 0) xs); [symmetry; exact (lsum_nth (fun x : fpt => if b x then 1 else 0) xs (nth 0 xs []))|].
  induction xs as [|x xs IH]; [reflexivity|]. cbn [lsum filter]. rewrite IH. destruct (b x); cbn [length]; [rewrite S_INR; ring|ring].
Qed.
Lemma setting_of fexp mk d sf2 noise p m mf M lam : gp_setting fexp mk d sf2 noise p m mf M lam -> setting_ok fexp mk d sf2 noise p m mf M lam 1 4.
Proof. intros (A1 & A2 & A3 & A4 & A5 & A6 & A7 & A8). repeat (split; [assumption|]). split; [lia|]. cbn. lia. Qed.

(** ** One more visit of a cell *)
Section Step.
  Variables (fexp : F -> F) (mk d : nat) (sf2 noise : F) (p : kpar) (m : nat) (mf : meanf) (M lam : R).
  Hypothesis HS : gp_setting fexp mk d sf2 noise p m mf M lam.
  Variables (xs : list fpt) (ys : list F) (g : fgp).
  Hypothesis HL : gp_life fexp mk sf2 noise p m mf xs ys g.
  Hypothesis Hn : (0 < length xs <= 1000)%nat.
  Hypothesis Hx : List.Forall (point d) xs.
  Hypothesis Hy : List.Forall (dbl M) ys.
  Hypothesis Hfix : fixed mf.
  Variables (h : list (R * fpt)) (Lam eps : R) (alpha : F) (N : nat).
  Hypothesis Hh : norm_le d sf2 p h Lam.
  Hypothesis He : 0 <= eps.
  Let H := objective sf2 p (prior mf []) h.
  Hypothesis Hobs : forall i, (i < length xs)%nat -> Rabs (fval (nth i ys f0) - H (ptsf xs i)) <= eps.
  Hypothesis HN : (length xs <= N)%nat.
  Hypothesis HA : dbl (2 ^ 20) alpha.
  Hypothesis Hal : Lam + sqrt (INR N / nugget noise) * eps <= fval alpha.
  Let n := length xs.
  Let eta := nugget noise.

  Lemma any_regret (f : fpt -> F) q (b : fpt -> bool) r k zeta : computes_ucb fexp mk d sf2 noise p m alpha g f -> box d q ->
    (forall v, box d v -> fval (f v) <= fval (f q) + zeta) -> (1 <= r)%nat -> (forall x, In x xs -> b x = true -> near_pt (/ INR r) x q) ->
    (1 <= k <= length (filter b xs))%nat ->
    forall w, box d w -> H w <= H q + any_loss alpha sf2 noise p N d m M lam r k zeta.
  Proof.
    intros Hf Bq Hmax Hr Hb Hk w Hw. pose proof (setting_of _ _ _ _ _ _ _ _ _ _ HS) as HS1.
    assert (Pa : 0 <= fval alpha). { apply Rle_trans with (2 := Hal). apply Rplus_le_le_0_compat; [apply Hh|]. apply Rmult_le_pos; [apply sqrt_pos|auto]. }
    destruct (step_facts fexp mk d sf2 noise p m mf M lam 1 4 HS1 xs ys g HL Hn Hx Hy) as (HU & Hm & HG & E1 & E2 & Hrs & Dm & C0 & S0 & Bm & HB').
    assert (HS' := HS). destruct HS' as (HR & _ & _ & _ & _ & Hl & Hs & Hd). unfold computes_ucb, gp_query in Hf. rewrite E1 in Hf. fold n in HU, HG, Hrs, HB', Hf, S0.
    destruct HR as (_ & _ & _ & Hs2 & S1 & Hp & _ & _ & Bn). assert (Pe : 0 < eta) by (unfold eta, nugget; lra). pose proof (param_pos sf2 Hs2) as Sp.
    destruct (C73_ucb _ _ _ _ _ _ _ _ _ _ _ _ _ HU Hm HG Hrs HA Pa) as (B & HB & HC).
    destruct (in_band fexp mk d sf2 noise p m mf M lam 1 4 HS1 xs ys g HL Hx Hfix h Lam eps alpha N Hh He Hobs HN Hal B HB) as (Band & WB). destruct (HB' B HB) as (W1 & W2).
    pose proof (box_point d q Bq) as Pq. pose proof (box_point d w Hw) as Pw. pose proof (Hmax w Hw) as Le.
    (* rounding *)
    assert (In' : 0 < / eta) by now apply Rinv_0_lt_compat. pose proof (le_INR _ _ HN) as LN. fold n in LN. assert (Nn : 0 <= INR n) by apply pos_INR.
    assert (Sh : shift noise n m M <= shift noise N m M). { unfold shift. apply Rmult_le_compat_r; auto. apply Rmult_le_compat_r; [|exact LN]. fold eta. lra. }
    fold n eta in WB, Band. set (sh := shift noise N m M) in *. set (ce := centre m M) in *.
    set (W := sqrt (INR N / eta) * fval alpha + sh).
    assert (Vn : 0 < var_floor sf2 noise N <= var_floor sf2 noise n).
    { unfold var_floor. fold eta. assert (P0 : 0 < fval sf2 * eta) by now apply Rmult_lt_0_compat.
      assert (Q0 : 0 <= INR n * fval sf2) by (apply Rmult_le_pos; lra). assert (Q2 : INR n * fval sf2 <= INR N * fval sf2) by (apply Rmult_le_compat_r; lra).
      split; [apply Rmult_lt_0_compat; auto; apply Rinv_0_lt_compat; lra|]. apply Rmult_le_compat_l; [lra|]. apply Rinv_le_contravar; lra. }
    set (Rd := 7 / 10 ^ 6 * W + 2 / 10 ^ 12 * (1 + (M + ce)) + 11 / 10 ^ 7 * fval alpha / sqrt (var_floor sf2 noise N)).
    assert (Fl : forall v, point d v -> var_floor sf2 noise N <= post_var sf2 p n (ptsf xs) B v).
    { intros u Pu. destruct (C73_variance_floor _ _ _ _ _ _ _ _ HU) as (B' & HBB & H'). pose proof (H' u Pu) as Q.
      assert (E : post_var sf2 p n (ptsf xs) B' u = post_var sf2 p n (ptsf xs) B u).
      { unfold post_var. f_equal. apply rsum_ext. intros i Hi. f_equal. apply rsum_ext. intros j Hj. now rewrite (inv_unique n _ B' B HBB HB i j Hi Hj). }
      rewrite E in Q. apply Rle_trans with (1 := proj2 Vn). apply Q. }
    assert (Rb : forall u, point d u -> fvalid (f u) /\ ffin (f u) /\
      Rabs (fval (f u) - (post_mean sf2 p n (ptsf xs) B (residual ys (fg_mean g)) (fg_mean g) u + fval alpha * sqrt (post_var sf2 p n (ptsf xs) B u))) <= Rd).
    { intros u Pu. destruct (Hf u Pu) as (mu & sg & Qu & Uu). destruct (HC u (fg_mean g) mu sg (f u) Pu Dm Qu Uu) as (A1 & A2 & _ & A4). split; auto. split; auto.
      apply Rle_trans with (1 := A4). unfold ucb_bound, Rd. apply Rplus_le_compat; [apply Rplus_le_compat|].
      - apply Rmult_le_compat_l; [lra|]. unfold W. lra.
      - apply Rmult_le_compat_l; [lra|]. lra.
      - apply Rmult_le_compat_l; [apply Rmult_le_pos; lra|]. apply (inv_sqrt_le _ _ (proj1 Vn) (Fl u Pu)). }
    destruct (Rb w Pw) as (V1 & F1 & U1). destruct (Rb q Pq) as (V2 & F2 & U2).
    pose proof (Band w Pw) as Bw. pose proof (Band q Pq) as Bqq. pose proof (W2 w Pw) as Dw. pose proof (W2 q Pq) as Dq.
    assert (Sf : fval sf2 * shift noise n m M <= fval sf2 * sh) by (apply Rmult_le_compat_l; lra).
    (* the variance at the sample *)
    set (gg := fval sf2 * (gap p d (/ INR r) lam * gap p d (/ INR r) lam)).
    assert (Vq : post_var sf2 p n (ptsf xs) B q <= eta / INR k + gg).
    { assert (Sy : forall x y, point d x -> point d y -> exact sf2 p x y = exact sf2 p y x) by (intros x y; apply exact_sym).
      assert (Ps : forall n pts, (forall i, (i < n)%nat -> point d (pts i)) -> psd n (fun i j => exact sf2 p (pts i) (pts j))) by (intros n' pts Hi; now apply exact_psd with d).
      assert (Ip : forall i, (i < n)%nat -> In (ptsf xs i) xs) by (intros i Hi; unfold ptsf; now apply nth_In).
      assert (Gp : forall i, (i < n)%nat -> point d (ptsf xs i)) by (intros i Hi; rewrite List.Forall_forall in Hx; apply Hx; auto).
      set (c := length (filter b xs)) in *.
      apply Rle_trans with (eta / INR c + gg).
      - apply (pvar_near (exact sf2 p) (point d) Sy Ps n (ptsf xs) B eta Gp Pe HB q (fun i => b (ptsf xs i)) c (fval sf2) gg ltac:(lia) (filter_rsum b xs)).
        + rewrite (exact_diag d) by auto. lra.
        + intros i j Hi Hj. apply (exact_bounds d); auto.
        + intros i Hi Ei. pose proof (exact_close d sf2 p (ptsf xs i) q (/ INR r) lam Hs2 Hp (proj1 (Gp i Hi)) (Hb _ (Ip i Hi) Ei) Hl Hs) as Cl.
          apply Rle_trans with (1 := Cl). unfold gg, gap. apply Rmult_le_compat_l; [lra|].
          assert (0 <= slope p * INR d) by (apply Rmult_le_pos; [left; apply slope_pos|apply pos_INR]).
          replace (sqrt (slope p * INR d) * (/ INR r / lam) * (sqrt (slope p * INR d) * (/ INR r / lam))) with (sqrt (slope p * INR d) * sqrt (slope p * INR d) * (/ INR r / lam * (/ INR r / lam))) by ring.
          rewrite sqrt_sqrt by auto. lra.
      - apply Rplus_le_compat_r. apply Rmult_le_compat_l; [lra|]. apply Rinv_le_contravar; [apply lt_0_INR; lia|apply le_INR; lia]. }
    pose proof (sqrt_le_1_alt _ _ Vq) as Sq.
    assert (Aq : fval alpha * sqrt (post_var sf2 p n (ptsf xs) B q) <= fval alpha * sqrt (eta / INR k + gg)) by now apply Rmult_le_compat_l.
    apply Rabs_le_inv in U1, U2, Bw, Bqq, Dw, Dq. unfold any_loss. fold eta sh ce W Rd gg. fold H in Bw, Bqq. lra.
  Qed.
End Step.

(** ** Runs *)
Section Runs.
  Context {W E : Type}.
  Variables (fexp : F -> F) (mk d : nat) (sf2 noise : F) (p : kpar) (m : nat) (mf : meanf) (M lam : R).
  Notation vec := F64.vec.
  Variable sfun : W -> vec -> (vec + E) * W.
  Variable m_fresh : fgp.
  Variable m_compute : W -> fgp -> list vec -> list vec -> fgp * W.
  Variable m_add : W -> fgp -> vec -> vec -> fgp * W.
  Variable m_hp : W -> fgp -> fgp * W.
  Variable acq : W -> fgp -> Z -> vec * W.
  Variable init_n : nat.
  Variable init_pt : nat -> W -> vec * W.
  Variable hp_period : Z.
  Notation run := (run_ops sfun m_fresh m_compute m_add m_hp acq init_n init_pt hp_period).
  Notation life := (gp_life fexp mk sf2 noise p m mf).

  (** the inner optimizer: a point of the box whose computed acquisition value, [A g f]: [f] is that function
      for the GP [g], is within [zeta] of those of all points of the box *)
  Definition runs_inner (A : fgp -> (fpt -> F) -> Prop) (zeta : R) : Prop :=
    forall w g c xs ys, life xs (firsts ys) g -> (length xs <= 1000)%nat -> List.Forall2 (datum d M) xs ys ->
      box d (fst (acq w g c)) /\
      (xs <> [] -> exists f, A g f /\ forall v, box d v -> fval (f v) <= fval (f (fst (acq w g c))) + zeta).

  Lemma run_inner (Ok : vec -> vec -> Prop) A zeta cs os g0 w s : (forall x y, Ok x y -> datum d M x y) ->
    runs_gp fexp mk d sf2 noise p m mf M m_fresh m_compute m_add -> runs_inner A zeta -> objective_ok d sfun Ok -> (forall i w, point d (fst (init_pt i w))) -> (hp_period <= 0)%Z ->
    List.Forall (op_ok d Ok) os -> run cs os (new_bo g0 w) = Some s ->
    D Ok (samples s) (observations s) /\
    forall X Y g c q, In (EvAcq X Y g c q) (trace s) -> (length X <= 1000)%nat ->
      List.Forall2 Ok X Y /\ life X (firsts Y) g /\ box d q /\
      (X <> [] -> exists f, A g f /\ forall v, box d v -> fval (f v) <= fval (f q) + zeta).
  Proof.
    intros HOk (F1 & F2 & HC & HA) HG HO HI Hhp Hops Hrun.
    assert (Fd : forall xs ys, List.Forall2 Ok xs ys -> List.Forall2 (datum d M) xs ys) by (intros xs ys H; induction H; constructor; auto).
    assert (Fit : forall xs ys x, D Ok xs ys -> ((length xs <= 1000)%nat -> point d x) -> fits sfun (D Ok) xs ys x).
    { intros xs ys x (HD1 & HD2) Px w1 v w2 Es Ev. destruct (Nat.leb_spec (length xs) 1000) as [Le|Gt].
      - apply D_snoc; [split; auto|]. exact (HO w1 x v w2 (Px Le) Es Ev).
      - split; [rewrite !app_length; cbn; lia|]. rewrite app_length. cbn. lia. }
    assert (Ch : D Ok (samples s) (observations s) /\ List.Forall (chosen acq (D Ok) (Rm fexp mk sf2 noise p m mf)) (trace s)).
    { apply (run_inv sfun m_fresh m_compute m_add m_hp acq init_n init_pt hp_period (D Ok) (Rm fexp mk sf2 noise p m mf)) with (cs := cs) (os := os) (m := g0) (w := w); auto.
      - split; auto.
      - intros xs ys H. apply H.
      - intros _. cbn. now constructor.
      - intros w1 g xs ys Hn (HD1 & HD2) Le. apply life_compute; auto. unfold firsts. now rewrite map_length.
      - intros w1 g xs ys x y HR (HD1 & HD2) (HD3 & HD4) Le. specialize (HD4 Le). unfold firsts. rewrite map_app. cbn [map].
        assert (Le' : (length xs < 1000)%nat) by (rewrite app_length in Le; cbn in Le; rewrite Nat.add_1_r in Le; exact Le).
        destruct (List.Forall2_app_inv_l _ _ HD4) as (y1 & y2 & Fa1 & Fa2 & Ey).
        inversion Fa2 as [|? yy ? ? Hd T]; subst. inversion T; subst. apply app_inj_tail in Ey. destruct Ey as (-> & ->).
        apply life_add with g; [apply HR, Nat.lt_le_incl, Le'|]. apply HA with xs y1; auto. apply HR, Nat.lt_le_incl, Le'.
      - intros; lia.
      - intros w1 g c xs ys HD HR. apply Fit; auto. intros Le. destruct HD as (_ & HD2). destruct (HG w1 g c xs ys (HR Le) Le (Fd _ _ (HD2 Le))) as (Bx & _). now apply box_point.
      - apply List.Forall_forall. intros o Ho. rewrite List.Forall_forall in Hops. specialize (Hops o Ho).
        destruct o as [r f|x|x y]; cbn [fit_op op_ok] in *; [exact I| |].
        + intros xs ys HD. apply Fit; auto.
        + intros Ey xs ys HD. apply D_snoc; auto. }
    destruct Ch as (HD & Ch). split; [exact HD|].
    intros X Y g c q Hin Le. rewrite List.Forall_forall in Ch. destruct (Ch _ Hin) as ((_ & HD2) & HR & wq & ->). specialize (HD2 Le). specialize (HR Le).
    destruct (HG wq g c X Y HR Le (Fd _ _ HD2)) as (Bx & Hf). auto.
  Qed.

  (** After more than [k * r^d] iterations, [best_sample()] is a global maximum of the objective up to
      [any_loss], for every [k] and [r]. *)
  Theorem C80_converges : forall alpha h Lam eps zeta cs os g0 w s r k,
    gp_setting fexp mk d sf2 noise p m mf M lam -> fixed mf -> dbl (2 ^ 20) alpha ->
    let H := objective sf2 p (prior mf []) h in
    norm_le d sf2 p h Lam -> 0 <= eps ->
    runs_gp fexp mk d sf2 noise p m mf M m_fresh m_compute m_add -> runs_inner (computes_ucb fexp mk d sf2 noise p m alpha) zeta ->
    objective_ok d sfun (measured d M eps H) -> (forall i w, point d (fst (init_pt i w))) -> (hp_period <= 0)%Z ->
    List.Forall (op_ok d (measured d M eps H)) os ->
    run cs os (new_bo g0 w) = Some s -> (length (samples s) <= 1000)%nat ->
    Lam + sqrt (INR (length (samples s)) / nugget noise) * eps <= fval alpha ->
    (1 <= r)%nat -> (1 <= k)%nat -> (Z.of_nat (k * r ^ d) < iters (trace s))%Z ->
    exists b, best_sample (fun y => nth 0 y f0) s = Some b /\ In b (samples s) /\
      forall w, box d w -> H w <= H b + any_loss alpha sf2 noise p (length (samples s)) d m M lam r k zeta + 2 * eps.
  Proof.
    intros alpha h Lam eps zeta cs os g0 w s r k HS Hfix HA H Hh He HG HQ HO HI Hhp Hops Hrun Hlen Hal Hr Hk Hit.
    set (Ok := measured d M eps H) in *. assert (HOk : forall x y, Ok x y -> datum d M x y) by (intros x y O; apply O).
    destruct (run_inner Ok _ zeta cs os g0 w s HOk HG HQ HO HI Hhp Hops Hrun) as ((DL & HD) & HS2).
    specialize (HD Hlen).
    destruct (run_counted sfun m_fresh m_compute m_add m_hp acq init_n init_pt hp_period cs os g0 w s Hrun) as (CA & CB & CC & CD).
    (* every completed iteration *)
    assert (Pick : forall xs0, In xs0 (stats (trace s)) -> exists X Y g c q, xs0 = X ++ [q] /\ (length X <= length (samples s))%nat /\ List.Forall2 Ok X Y /\
      gp_life fexp mk sf2 noise p m mf X (firsts Y) g /\ box d q /\
      (X <> [] -> exists f, computes_ucb fexp mk d sf2 noise p m alpha g f /\ forall v, box d v -> fval (f v) <= fval (f q) + zeta) /\ In (EvAcq X Y g c q) (trace s)).
    { intros xs0 Hin. destruct (CA xs0 Hin) as (rr & Er). destruct (CD xs0 Hin) as (X & Y & g & c & q & -> & Ha).
      assert (Lx : (length X <= length (samples s))%nat) by (rewrite Er, !app_length; lia).
      destruct (HS2 X Y g c q Ha (Nat.le_trans _ _ _ Lx Hlen)) as (F1 & F2 & F3 & F4).
      exists X, Y, g, c, q. auto 10. }
    assert (Bp : forall q, In q (picks (trace s)) -> box d q).
    { intros q Hq. apply in_map_iff in Hq. destruct Hq as (xs0 & <- & Hq). destruct (Pick xs0 Hq) as (X & Y & g & c & q & -> & _ & _ & _ & Gq & _). now rewrite last_last. }
    assert (Hl : (k * r ^ d < length (picks (trace s)))%nat).
    { unfold picks. rewrite map_length. rewrite <- stats_iters in Hit. apply Nat2Z.inj_lt in Hit. exact Hit. }
    destruct (revisit_key (key r) (picks (trace s)) (r ^ d) k) as (l1 & q & l2 & El & Hocc); auto.
    { intros q Hq. destruct (Bp q Hq) as (<- & _). now apply key_lt. }
    assert (B1 : forall v, In v l1 -> box d v) by (intros v Hv; apply Bp; rewrite El; apply in_or_app; now left).
    unfold picks in El. destruct (map_eq_app _ _ _ _ El) as (L1 & LL & ES & El1 & El2). destruct LL as [|xs0 L2]; [discriminate|]. cbn [map] in El2. injection El2 as Eq _.
    assert (Hin : In xs0 (stats (trace s))) by (rewrite ES; apply in_elt).
    destruct (Pick xs0 Hin) as (X & Y & g & c & q' & -> & Lx & FX & Lf & Bq & Fc & Ha). rewrite last_last in Eq. subst q'.
    set (inb := fun v : vec => (length v =? d)%nat && forallb (fun a => if Rle_dec 0 (fval a) then if Rle_dec (fval a) 1 then true else false else false) v).
    set (b := fun v : vec => inb v && (key r v =? key r q)%nat).
    assert (Ko : (k <= length (filter b X))%nat).
    { apply Nat.le_trans with (1 := Hocc). apply Nat.le_trans with (length (filter b l1)).
      - apply Nat.eq_le_incl. f_equal. apply filter_ext_in. intros v Hv. unfold b. replace (inb v) with true; [reflexivity|]. symmetry.
        destruct (B1 v Hv) as (V1 & V2). unfold inb. rewrite V1, Nat.eqb_refl. apply forallb_forall. intros a Ia. destruct (V2 a Ia) as (_ & _ & A1 & A2).
        destruct (Rle_dec 0 (fval a)); [|contradiction]. destruct (Rle_dec (fval a) 1); [reflexivity|contradiction].
      - apply occ_filter. intros v. pose proof (CC L1 _ L2 ES v) as Oc. rewrite removelast_last in Oc. rewrite <- El1. exact Oc. }
    assert (Xn : X <> []) by (intros ->; cbn in Ko; lia).
    destruct (Fc Xn) as (f & Hf & Hmax).
    assert (Fd : List.Forall2 (datum d M) X Y) by (clear - FX HOk; induction FX; constructor; auto).
    destruct (datum_points d M X Y Fd) as (Px & Py).
    assert (Ln : (0 < length X <= 1000)%nat) by (split; [destruct X; [congruence|cbn; lia]|exact (Nat.le_trans _ _ _ Lx Hlen)]).
    assert (Hobs : forall i, (i < length X)%nat -> Rabs (fval (nth i (firsts Y) f0) - H (ptsf X i)) <= eps).
    { assert (Q : forall dd i, (i < length X)%nat -> Rabs (fval (nth i (firsts Y) f0) - H (nth i X dd)) <= eps); [|intros i Hi; now apply Q].
      clear - FX. induction FX as [|x y X Y O _ IH]; intros dd i Hi; [cbn in Hi; lia|]. destruct i as [|i]; cbn [firsts map nth]; [apply O|]. apply IH. cbn in Hi. lia. }
    assert (Nb : forall x, In x X -> b x = true -> near_pt (/ INR r) x q).
    { intros x Ix Hb. unfold b, inb in Hb. apply andb_prop in Hb. destruct Hb as (Hb & Hkq). apply andb_prop in Hb. destruct Hb as (L1' & Fb).
      apply Nat.eqb_eq in L1', Hkq. rewrite forallb_forall in Fb. rewrite List.Forall_forall in Px. destruct (Px x Ix) as (_ & Px2).
      apply key_near with d; auto. split; auto. intros a Ia. destruct (Px2 a Ia) as (A1 & A2 & _). specialize (Fb a Ia).
      destruct (Rle_dec 0 (fval a)); [|discriminate]. destruct (Rle_dec (fval a) 1); [|discriminate]. auto. }
    pose proof (any_regret fexp mk d sf2 noise p m mf M lam HS X (firsts Y) g Lf Ln Px Py Hfix h Lam eps alpha (length (samples s)) Hh He Hobs Lx HA Hal
      f q b r k zeta Hf Bq Hmax Hr Nb (conj Hk Ko)) as Rg.
    (* the best sample *)
    assert (Iq : In q (samples s)). { destruct (CA _ Hin) as (rr & ->). apply in_or_app. left. apply in_elt. }
    assert (Fo : List.Forall (fun y => dbl M (nth 0 y f0)) (observations s)).
    { clear - HD HOk. induction HD as [|x y X Y O _ IH]; constructor; auto. destruct (HOk _ _ O) as (_ & o & -> & Do). exact Do. }
    destruct (In_nth_error _ _ Iq) as (iq & Eiq).
    assert (Pair : forall i x, nth_error (samples s) i = Some x -> exists y, nth_error (observations s) i = Some y /\ Ok x y).
    { clear - HD. induction HD as [|x0 y0 X Y O _ IH]; intros i x Hi; [destruct i; discriminate|]. destruct i as [|i]; cbn in *; [injection Hi as <-; eauto|auto]. }
    destruct (Pair iq q Eiq) as (yq & Eyq & Oq).
    destruct (C08_incumbent (fun y => nth 0 y f0) s DL) as (i & o & bb & Eo & Eb & _ & Bs & Max & _).
    { intros Z. rewrite Z in Eyq. destruct iq; discriminate. }
    { rewrite Forall_map. apply List.Forall_impl with (2 := Fo). intros y (_ & Fy & _). unfold notnan. destruct (nth 0 y f0); try reflexivity; discriminate. }
    exists bb. split; [exact Bs|]. split; [now apply nth_error_In with i|]. intros v Hv.
    destruct (Pair i bb Eb) as (ob & Eob & Ob). assert (ob = o) as -> by congruence.
    pose proof (Max yq (nth_error_In _ _ Eyq)) as Le. rewrite List.Forall_forall in Fo.
    destruct (Fo _ (nth_error_In _ _ Eo)) as (V1 & F1 & _). destruct (Fo _ (nth_error_In _ _ Eyq)) as (V2 & F2 & _).
    apply flt_R_false in Le; auto. destruct Ob as (_ & Ob). destruct Oq as (_ & Oq). apply Rabs_le_inv in Ob, Oq. specialize (Rg v Hv). fold H in Rg. lra.
  Qed.

  (** The same for any objective [T] within [del] of such a combination of kernel functions. *)
  Theorem C80_approximated : forall alpha h Lam del eps zeta T cs os g0 w s r k,
    gp_setting fexp mk d sf2 noise p m mf M lam -> fixed mf -> dbl (2 ^ 20) alpha ->
    norm_le d sf2 p h Lam -> 0 <= eps -> (forall v, point d v -> Rabs (T v - objective sf2 p (prior mf []) h v) <= del) ->
    runs_gp fexp mk d sf2 noise p m mf M m_fresh m_compute m_add -> runs_inner (computes_ucb fexp mk d sf2 noise p m alpha) zeta ->
    objective_ok d sfun (measured d M eps T) -> (forall i w, point d (fst (init_pt i w))) -> (hp_period <= 0)%Z ->
    List.Forall (op_ok d (measured d M eps T)) os ->
    run cs os (new_bo g0 w) = Some s -> (length (samples s) <= 1000)%nat ->
    Lam + sqrt (INR (length (samples s)) / nugget noise) * (eps + del) <= fval alpha ->
    (1 <= r)%nat -> (1 <= k)%nat -> (Z.of_nat (k * r ^ d) < iters (trace s))%Z ->
    exists b, best_sample (fun y => nth 0 y f0) s = Some b /\ In b (samples s) /\
      forall w, box d w -> T w <= T b + any_loss alpha sf2 noise p (length (samples s)) d m M lam r k zeta + 2 * eps + 4 * del.
  Proof.
    intros alpha h Lam del eps zeta T cs os g0 w s r k HS Hfix HA Hh He HT HG HQ HO HI Hhp Hops Hrun Hlen Hal Hr Hk Hit.
    assert (D0 : 0 <= del). { apply Rle_trans with (2 := HT (fst (init_pt 0 w)) (HI 0%nat w)). apply Rabs_pos. }
    assert (Mm : forall x y, measured d M eps T x y -> measured d M (eps + del) (objective sf2 p (prior mf []) h) x y).
    { intros x y (O1 & O2). split; [exact O1|]. pose proof (HT x (proj1 O1)) as O3. apply Rabs_le_inv in O2, O3. apply Rabs_le. lra. }
    destruct (C80_converges alpha h Lam (eps + del) zeta cs os g0 w s r k HS Hfix HA Hh ltac:(lra) HG HQ) as (b & B1 & B2 & B3); auto.
    - intros w1 x v w2 Px Es Ev. exact (Mm x v (HO w1 x v w2 Px Es Ev)).
    - apply List.Forall_impl with (2 := Hops). intros [rr f|x|x y] Ho; cbn in *; auto.
    - exists b. split; auto. split; auto. intros v Hv. specialize (B3 v Hv).
      assert (Pb : point d b).
      { destruct (run_inner (measured d M eps T) _ zeta cs os g0 w s (fun x y O => proj1 O) HG HQ HO HI Hhp Hops Hrun) as ((_ & HD) & _).
        specialize (HD Hlen). clear - HD B2. induction HD as [|x y X Y O _ IH]; [destruct B2|]. destruct B2 as [<-|B2]; auto. apply O. }
      pose proof (HT v (box_point d v Hv)) as T1. pose proof (HT b Pb) as T2. apply Rabs_le_inv in T1, T2. lra.
  Qed.
End Runs.

(** ** The hypotheses hold: the default parameters of the kernels, constant mean functions, two input
    dimensions, UCB with alpha = 1, an exhaustive inner optimizer over all doubles of the box, the objective
    of C78; 900 iterations, i.e. 3 and more for each of the 17 * 17 cells *)
Definition unit_ok (a : F) : bool := valid_binary fprec femax a && is_finite_SF a && (if Rle_dec 0 (fval a) then if Rle_dec (fval a) 1 then true else false else false).
Definition two53 : nat := Z.to_nat (2 ^ 53).
Definition unit_doubles : list F := filter unit_ok (S754_zero false :: S754_zero true ::
  flat_map (fun j => map (fun i => S754_finite false (Pos.of_nat i) (Z.of_nat j - 1074)) (seq 1 two53)) (seq 0 (Z.to_nat 2046))).
Fixpoint unit_box (d : nat) : list fpt := match d with O => [[]] | S d => flat_map (fun a => map (cons a) (unit_box d)) unit_doubles end.
Fixpoint argmax (f : fpt -> F) (b : fpt) (l : list fpt) : fpt := match l with [] => b | v :: t => argmax f (if flt (f b) (f v) then v else b) t end.
Definition ex_inner p (g : fgp) : F64.vec := argmax (ex_ucb p g) [f0; f0] (unit_box 2).
Definition ex_run3 p mf (qf : fgp -> F64.vec) := run_ops (W := unit) (M := fgp) (E := unit) (ex_obj2 p mf) ex_empty
  (fun _ _ xs ys => (computeF best_exp f1 ex_noise p mf xs (firsts ys), tt)) (fun _ g x y => (addF best_exp f1 ex_noise p mf g x (nth 0 y f0), tt)) (fun _ g => (g, tt))
  (fun _ g _ => (qf g, tt)) 1 (fun _ _ => ([fhalf; fhalf], tt)) (-1).
Lemma two53_val : Z.of_nat two53 = (2 ^ 53)%Z.
Proof. unfold two53. apply Z2Nat.id. lia. Qed.
Local Opaque two53.

Lemma in_tail m e : bounded fprec femax m e = true ->
  In (S754_finite false m e) (flat_map (fun j => map (fun i => S754_finite false (Pos.of_nat i) (Z.of_nat j - 1074)) (seq 1 two53)) (seq 0 (Z.to_nat 2046))).
Proof.
  intros V. unfold bounded in V. apply andb_prop in V. destruct V as (Cn & Em). apply Zeq_bool_eq in Cn. apply Zle_bool_imp_le in Em.
  unfold SpecFloat.fexp, SpecFloat.emin, fprec, femax in *.
  assert (E0 : (-1074 <= e <= 971)%Z) by lia.
  assert (Dg : (Z.pos (digits2_pos m) <= 53)%Z) by lia.
  assert (Lt : (Z.pos m < 2 ^ 53)%Z).
  { rewrite Digits.Zpos_digits2_pos in Dg. pose proof (Digits.Zdigits_correct radix2 (Z.pos m)) as (_ & Up). rewrite Z.abs_eq in Up by lia.
    apply Z.lt_le_trans with (1 := Up). apply (Zpower_le radix2). exact Dg. }
  assert (T53 : (Pos.to_nat m < two53)%nat) by (apply Nat2Z.inj_lt; rewrite two53_val, positive_nat_Z; exact Lt).
  assert (K : (Z.to_nat (e + 1074) < Z.to_nat 2046)%nat) by lia. revert T53 K. generalize two53 (Z.to_nat 2046). intros n53 k T53 K.
  rewrite in_flat_map. exists (Z.to_nat (e + 1074)). split; [apply in_seq; lia|].
  rewrite in_map_iff. exists (Pos.to_nat m). split; [rewrite Pos2Nat.id; f_equal; lia|]. apply in_seq. lia.
Qed.
Lemma in_unit a : In a unit_doubles <-> fvalid a /\ ffin a /\ 0 <= fval a <= 1.
Proof.
  unfold unit_doubles. rewrite filter_In. unfold unit_ok, fvalid, ffin. rewrite !andb_true_iff.
  pose proof in_tail as Tl. set (tl := flat_map _ _) in *. clearbody tl.
  assert (Rr : (if Rle_dec 0 (fval a) then if Rle_dec (fval a) 1 then true else false else false) = true <-> 0 <= fval a <= 1).
  { destruct (Rle_dec 0 (fval a)); [destruct (Rle_dec (fval a) 1)|]; split; intros; try discriminate; auto; tauto. }
  rewrite Rr. split; [tauto|]. intros (V & Fi & B0 & B1). split; [|auto].
  destruct a as [[]|s| |[] m e]; [right; now left|now left|discriminate|discriminate| |right; right; now apply Tl].
  exfalso. assert (fval (S754_finite true m e) < 0); [|lra]. unfold fval, SF2R, F2R. cbn [Defs.Fnum Defs.Fexp cond_Zopp].
  pose proof (bpow_gt_0 radix2 e) as Pb. assert (IZR (- Z.pos m) <= -1) by (apply IZR_le; lia). change (Z.neg m) with (- Z.pos m)%Z. nra.
Qed.
Local Opaque unit_doubles.
Lemma in_unit_box d v : In v (unit_box d) <-> box d v.
Proof.
  revert v. induction d as [|d IH]; intros v; cbn [unit_box].
  - split; [intros [<-|[]]; split; [reflexivity|intros a []]|]. intros (L & _). destruct v; [now left|discriminate].
  - rewrite in_flat_map. split.
    + intros (a & Ia & Hv). apply in_map_iff in Hv. destruct Hv as (t & <- & Ht). apply IH in Ht. destruct Ht as (L & Ht). apply in_unit in Ia.
      split; [cbn; lia|]. intros x [<-|Hx]; auto.
    + intros (L & Hv). destruct v as [|a t]; [discriminate|]. exists a. split; [apply in_unit, Hv; now left|]. apply in_map. apply IH. split; [cbn in L; lia|]. intros x Hx. apply Hv. now right.
Qed.
Lemma argmax_in f l : forall b, In (argmax f b l) (b :: l).
Proof.
  induction l as [|v l IH]; intros b; cbn [argmax]; [now left|]. destruct (IH (if flt (f b) (f v) then v else b)) as [<-|H]; [|now right; right].
  destruct (flt (f b) (f v)); [right; now left|now left].
Qed.
Lemma argmax_max f l : forall b, (forall v, In v (b :: l) -> fvalid (f v) /\ ffin (f v)) -> forall v, In v (b :: l) -> fval (f v) <= fval (f (argmax f b l)).
Proof.
  induction l as [|u l IH]; intros b Hf v Hv; cbn [argmax]; [destruct Hv as [<-|[]]; lra|].
  assert (Fu : fvalid (f u) /\ ffin (f u)) by (apply Hf; right; now left). assert (Fb : fvalid (f b) /\ ffin (f b)) by (apply Hf; now left).
  destruct (flt (f b) (f u)) eqn:Ef.
  - apply flt_R in Ef; try tauto. assert (Hu : fval (f u) <= fval (f (argmax f u l))) by (apply IH; [intros x Hx; apply Hf; now right|now left]).
    destruct Hv as [<-|Hv]; [lra|]. apply IH; [intros x Hx; apply Hf; now right|exact Hv].
  - apply flt_R_false in Ef; try tauto. assert (Hb : fval (f b) <= fval (f (argmax f b l))) by (apply IH; [intros x [<-|Hx]; apply Hf; [now left|right; now right]|now left]).
    destruct Hv as [<-|[<-|Hv]]; [lra|lra|]. apply IH; [intros x [<-|Hx]; apply Hf; [now left|right; now right]|now right].
Qed.

Lemma ex_run3_done p mf qf n : exists s, ex_run3 p mf qf [max_iterations (Z.of_nat n)] [OpOptimize true (S n)] (new_bo ex_empty tt) = Some s /\
  iters (trace s) = Z.of_nat n /\ length (samples s) = S n.
Proof.
  unfold ex_run3. set (mc := fun (_ : unit) (_ : fgp) xs ys => _). set (ma := fun (_ : unit) g x y => _). set (mh := fun (_ : unit) (g : fgp) => (g, tt)).
  set (aq := fun (_ : unit) (g : fgp) (_ : Z) => (qf g, tt)).
  assert (Fin : forall x, is_nan_or_inf [ex_val p mf x] = false).
  { intros x. destruct (ex_val_ok p mf x) as ((_ & Fx & _) & _). destruct (ex_val p mf x); try discriminate; reflexivity. }
  assert (Ev : forall (s : bo unit fgp unit) x, exists y, eval_and_add (ex_obj2 p mf) s x = Ret (push (log (set_world s tt) (EvEval x (inl y))) x y)).
  { intros s x. eexists. unfold eval_and_add, ex_obj2, add_new_sample. rewrite Fin. reflexivity. }
  set (cs := [max_iterations (Z.of_nat n)]).
  assert (Loop : forall j (s : bo unit fgp unit) c, cur s = Some c -> (c + Z.of_nat j = Z.of_nat n)%Z ->
    exists s', loop (ex_obj2 p mf) ma mh aq (-1) cs (S j) s = Ret s' /\ iters (trace s') = (iters (trace s) + Z.of_nat j)%Z /\ length (samples s') = (length (samples s) + j)%nat).
  { induction j as [|j IH]; intros s c Hc Ej.
    - cbn [loop]. rewrite Hc. unfold stop_now, cs. cbn [chain max_iterations crit_op crit_val]. rewrite Hc. destruct (Z.leb_spec (Z.of_nat n) c) as [_|L]; [|exfalso; lia]. cbn.
      eexists. split; [reflexivity|]. cbn [trace samples log set_world]. unfold iters. rewrite fold_left_app. cbn. split; [lia|apply plus_n_O].
    - remember (S j) as j1 eqn:Ej1. cbn [loop]. rewrite Hc. unfold stop_now, cs. cbn [chain max_iterations crit_op crit_val]. rewrite Hc. destruct (Z.leb_spec (Z.of_nat n) c) as [L|_]; [exfalso; lia|].
      unfold iteration, aq at 1.
      match goal with |- context [eval_and_add (ex_obj2 p mf) ?s ?x] => destruct (Ev s x) as (y & ->) end. cbn [Z.ltb Z.compare andb ma fst].
      match goal with |- context [loop _ _ _ _ _ _ j1 ?s'] => destruct (IH s' (c + 1)%Z) as (s2 & E2 & I2 & L2) end; [reflexivity|lia|].
      exists s2. split; [exact E2|]. rewrite I2, L2, Ej1. cbn [cur samples trace set_tot set_cur set_model set_world log push observations world model].
      unfold iters. rewrite !fold_left_app. cbn [fold_left iters_step]. rewrite !app_length. cbn [length]. split; [lia|]. now rewrite <- Nat.add_assoc. }
  cbn [run_ops run_op]. unfold optimize, init_phase. cbn [run_init Z.eqb tot log set_tot set_cur clear_data new_bo].
  match goal with |- context [eval_and_add (ex_obj2 p mf) ?s ?x] => destruct (Ev s x) as (y0 & ->) end. cbn [observations push app log set_world samples mc world model].
  match goal with |- context [loop _ _ _ _ _ _ (S n) ?s] => destruct (Loop n s 0%Z eq_refl ltac:(lia)) as (s2 & -> & I2 & L2) end.
  exists s2. split; [reflexivity|]. rewrite I2, L2. split; reflexivity.
Qed.

Example C80_example : forall p mf, In p [PExp f1; PMatern3 f1; PMatern5 f1; PArd [f1; fofZe 1 (-1)]] -> In mf [MNull; MConst fhalf] ->
  let H := objective f1 p (prior mf []) ex_h in let n := Z.to_nat 900 in
  gp_setting best_exp 4 2 f1 ex_noise p ex_m mf 1 (1 / 2) /\ fixed mf /\ dbl (2 ^ 20) f1 /\ norm_le 2 f1 p ex_h (1 / 2) /\
  runs_gp (W := unit) best_exp 4 2 f1 ex_noise p ex_m mf 1 ex_empty
    (fun _ _ xs ys => (computeF best_exp f1 ex_noise p mf xs (firsts ys), tt)) (fun _ g x y => (addF best_exp f1 ex_noise p mf g x (nth 0 y f0), tt)) /\
  runs_inner (W := unit) best_exp 4 2 f1 ex_noise p ex_m mf 1 (fun _ g _ => (ex_inner p g, tt)) (computes_ucb best_exp 4 2 f1 ex_noise p ex_m f1) 0 /\
  objective_ok 2 (ex_obj2 p mf) (measured 2 1 (/ 2 ^ 50) H) /\ point 2 [fhalf; fhalf] /\
  (exists s, ex_run3 p mf (ex_inner p) [max_iterations (Z.of_nat n)] [OpOptimize true (S n)] (new_bo ex_empty tt) = Some s /\ (length (samples s) <= 1000)%nat /\
     1 / 2 + sqrt (INR (length (samples s)) / nugget ex_noise) * / 2 ^ 50 <= fval f1 /\ (Z.of_nat (3 * 17 ^ 2) < iters (trace s))%Z) /\
  any_loss f1 f1 ex_noise (PExp f1) (Z.to_nat 901) 2 ex_m 1 1 17 3 0 <= 22 / 100.
Proof.
  intros p mf Hp Hmf H n. assert (Hmf' : In mf [MNull; MConst fhalf; MData]) by (destruct Hmf as [<-|[<-|[]]]; cbn; auto).
  destruct (C78_example p mf Hp Hmf) as (HS & Hfx & Hd1 & Hno & HG & _ & HO & PH & _). destruct (C77_example p mf Hp Hmf') as (_ & _ & _ & _ & _ & _ & _). cbv zeta in HO, Hno.
  assert (E1 : fval f1 = 1) by (cbv -[IZR F2R bpow]; unfold F2R; simpl; lra). destruct f0_ok as (V0 & F0 & E0).
  assert (En : 99 / 10000 <= fval ex_noise <= 101 / 10000) by (cbv -[IZR F2R bpow Rdiv Rle]; unfold F2R; simpl; lra).
  assert (Nu : 99 / 10000 <= nugget ex_noise <= 102 / 10000) by (unfold nugget; lra).
  assert (HS2 : gp_setting best_exp 4 2 f1 ex_noise p ex_m mf 1 (1 / 2)).
  { destruct HS as (A1 & A2 & A3 & A4 & A5 & A6 & A7 & A8 & _). repeat (split; [assumption|]). assumption. }
  split; [exact HS2|]. split; [exact Hfx|]. split; [exact Hd1|]. split; [exact Hno|]. split; [exact HG|]. split.
  { intros w g c xs ys HL Le Hd. cbn [fst]. assert (M1000 : (1000 < ex_m)%nat) by (unfold ex_m; lia).
    assert (Bx : forall v, In v ([f0; f0] :: unit_box 2) -> box 2 v).
    { intros v [<-|Hv]; [|now apply in_unit_box]. split; [reflexivity|]. intros a [<-|[<-|[]]]; rewrite E0; (split; [exact V0|]; split; [exact F0|lra]). }
    split; [apply Bx, argmax_in|]. intros Hn. exists (ex_ucb p g).
    destruct HS as (HR & Hmk & Hm & _). assert (HK : kpar_ok 2 p) by apply HR. destruct (datum_points _ _ _ _ Hd) as (P1 & P2).
    destruct (life_sound best_exp 4 2 f1 ex_noise p ex_m mf HK (le_n _) xs (firsts ys) g HR Hm HL Le P1) as (A1 & A2 & A3 & _).
    assert (Lf : length (fg_ys g) = length (fg_xs g) /\ List.Forall (point 2) (fg_xs g)) by (rewrite A1, A2; auto). destruct Lf as (Lf1 & Lf2).
    assert (Cu : computes_ucb best_exp 4 2 f1 ex_noise p ex_m f1 g (ex_ucb p g)).
    { intros v Pv. eexists _, _. split.
      - apply queryF_ok with 2%nat; auto. rewrite A1. exact (Nat.le_lt_trans _ _ _ Le M1000).
      - left. unfold ex_ucb. rewrite A1. destruct xs; [congruence|reflexivity]. }
    split; [exact Cu|]. intros v Hv. rewrite Rplus_0_r. apply (argmax_max (ex_ucb p g) (unit_box 2) [f0; f0]); [|right; now apply in_unit_box].
    intros u Hu. pose proof (box_point 2 u (Bx u Hu)) as Pu. assert (Hln : (0 < length xs <= 1000)%nat) by (split; [destruct xs; [congruence|cbn; lia]|exact Le]).
    destruct (step_facts best_exp 4 2 f1 ex_noise p ex_m mf 1 (1 / 2) 1 4 (setting_of _ _ _ _ _ _ _ _ _ _ HS2) xs (firsts ys) g HL Hln P1 P2) as (HU & _ & HGp & _ & _ & Hr & Dm & _).
    destruct (C73_ucb _ _ _ _ _ _ _ _ _ _ _ _ _ HU Hm HGp Hr Hd1 ltac:(lra)) as (B & _ & HC).
    unfold computes_ucb, gp_query in Cu. rewrite A1 in Cu. destruct (Cu u Pu) as (mu & sg & Qu & Uu). destruct (HC u (fg_mean g) mu sg _ Pu Dm Qu Uu) as (R1 & R2 & _). auto. }
  split; [exact HO|]. split; [exact PH|]. split.
  { destruct (ex_run3_done p mf (ex_inner p) n) as (s & Hr & Hi & Hl). exists s. split; [exact Hr|]. rewrite Hl, Hi. unfold n. split; [lia|]. split.
    - rewrite E1. assert (Sq : sqrt (INR (S (Z.to_nat 900)) / nugget ex_noise) <= 1000).
      { rewrite <- (sqrt_square 1000) by lra. apply sqrt_le_1_alt. replace (INR (S (Z.to_nat 900))) with 901 by (rewrite INR_IZR_INZ; apply IZR_eq; reflexivity).
        apply Rmult_le_reg_r with (nugget ex_noise); [lra|]. unfold Rdiv. rewrite Rmult_assoc, Rinv_l, Rmult_1_r by lra. lra. }
      assert (I50 : 0 < / 2 ^ 50 <= / 10000) by (split; [apply Rinv_0_lt_compat, pow_lt; lra|apply Rinv_le_contravar; lra]).
      assert (sqrt (INR (S (Z.to_nat 900)) / nugget ex_noise) * / 2 ^ 50 <= 1000 * / 10000) by (apply Rmult_le_compat; [apply sqrt_pos|lra|exact Sq|lra]). lra.
    - vm_compute. reflexivity. }
  unfold any_loss. rewrite E1.
  assert (N6 : INR (Z.to_nat 901) = 901) by (rewrite INR_IZR_INZ; apply IZR_eq; reflexivity).
  assert (Im : INR ex_m = 2000) by (unfold ex_m; rewrite INR_IZR_INZ; apply IZR_eq; reflexivity).
  assert (Ce : 0 <= centre ex_m 1 <= / 10 ^ 12).
  { unfold centre. rewrite Im. assert (I1 : 0 < / 2 ^ 1075 <= / 2 ^ 60) by (split; [apply Rinv_0_lt_compat, pow_lt; lra|apply Rinv_le_contravar; [apply pow_lt; lra|apply Rle_pow; [lra|lia]]]). lra. }
  assert (Q : 901 / nugget ex_noise <= 92000). { apply Rmult_le_reg_r with (nugget ex_noise); [lra|]. unfold Rdiv. rewrite Rmult_assoc, Rinv_l, Rmult_1_r by lra. lra. }
  assert (Q0 : 0 <= 901 / nugget ex_noise) by (apply Rmult_le_pos; [lra|left; apply Rinv_0_lt_compat; lra]).
  assert (Sh : 0 <= shift ex_noise (Z.to_nat 901) ex_m 1 <= / 10 ^ 7).
  { unfold shift. rewrite N6. split; [apply Rmult_le_pos; lra|]. apply Rle_trans with (92000 * / 10 ^ 12); [apply Rmult_le_compat; lra|lra]. }
  rewrite N6 in *. set (sh := shift _ _ _ _) in *. set (ce := centre _ _) in *.
  assert (S1 : sqrt (901 / nugget ex_noise) <= 310) by (rewrite <- (sqrt_square 310) by lra; apply sqrt_le_1_alt; lra).
  assert (S3 : gap (PExp f1) 2 (/ INR 17) 1 * gap (PExp f1) 2 (/ INR 17) 1 <= 7 / 1000).
  { unfold gap. cbn [slope]. replace (1 * INR 2) with 2 by (cbn; ring). replace (INR 17) with 17 by (rewrite INR_IZR_INZ; reflexivity).
    replace (sqrt 2 * (/ 17 / 1) * (sqrt 2 * (/ 17 / 1))) with (sqrt 2 * sqrt 2 * (/ 17 * / 17)) by field. rewrite sqrt_sqrt by lra. lra. }
  set (gg := gap (PExp f1) 2 (/ INR 17) 1 * gap (PExp f1) 2 (/ INR 17) 1) in *.
  assert (S2 : sqrt (nugget ex_noise / INR 3 + 1 * gg) <= 103 / 1000).
  { replace (INR 3) with 3 by (rewrite INR_IZR_INZ; reflexivity). rewrite <- (sqrt_square (103 / 1000)) by lra. apply sqrt_le_1_alt. lra. }
  assert (S4 : 3 / 1000 <= sqrt (var_floor f1 ex_noise (Z.to_nat 901))).
  { rewrite <- (sqrt_square (3 / 1000)) by lra. apply sqrt_le_1_alt. unfold var_floor. rewrite E1, N6. apply Rmult_le_reg_r with (nugget ex_noise + 901 * 1); [lra|].
    unfold Rdiv. rewrite (Rmult_assoc (1 * nugget ex_noise)), Rinv_l, Rmult_1_r by lra. lra. }
  assert (S5 : 11 / 10 ^ 7 * 1 / sqrt (var_floor f1 ex_noise (Z.to_nat 901)) <= 11 / 10 ^ 7 * 334).
  { unfold Rdiv at 1. rewrite Rmult_1_r. apply Rmult_le_compat_l; [lra|]. apply Rle_trans with (/ (3 / 1000)); [apply Rinv_le_contravar; lra|lra]. }
  lra.
Qed.
