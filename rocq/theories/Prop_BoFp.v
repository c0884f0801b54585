(** C77: whole runs of the optimizer in double precision: every sample it takes nearly maximises the exact
    acquisition function of the data it has. *)
From Coq Require Import ZArith List Bool Lia Permutation Reals Lra.
From Coq Require Import Floats.SpecFloat.
From Flocq Require Import Core.
From Verif Require Import F64 F64R AdamFloat OptFloat OptModel OptSpec Prop_Opt FpModel FpErr LinAlgModel LinAlg FpAlg FpChol FpSolve FpGp FpFin Prop_Fp.
From Verif Require Import KernelModel KernelFacts FpKerModel FpKer FpKer2 Prop_FpKer Prop_FpLik FpLikModel FpLik FpAcqModel.
From Verif Require Import AcquiModel Prop_EI Prop_Acqui2 FpAcq Prop_FpAcq FpLip Prop_Next FpMeanModel FpLife FpImpl Prop_FpMean.
From Verif Require Import BOModel BOSpec BOFacts BORun.
Import ListNotations.
Open Scope R_scope.

(** ** Specification *)
(** the observations have one component *)
Definition firsts (ys : list F64.vec) : list F := map (fun y => nth 0 y f0) ys.
(** a sample of dimension [d] and an observation of magnitude at most [M] *)
Definition datum (d : nat) (M : R) (x y : F64.vec) : Prop := point d x /\ exists o, y = [o] /\ dbl M o.

(** what a sample may miss at most: rounding ([shift], [centre]: of the mean function and the differences, C76)
    and the cells of the grid; [Wt] = sum of the magnitudes of the exact weights *)
Definition shift (noise : F) (n m : nat) (M : R) : R := INR n / nugget noise * centre m M.
Definition bo_ucb_loss (alpha sf2 noise : F) (p : kpar) (n d m : nat) (M Wt : R) (bins : Z) (lam : R) : R :=
  let W := Wt + shift noise n m M in
  2 * (7 / 10 ^ 6 * W + 2 / 10 ^ 12 * (1 + (M + centre m M)) + 11 / 10 ^ 7 * fval alpha / sqrt (var_floor sf2 noise n))
  + (W * fval sf2 + fval alpha * sqrt (fval sf2)) * gap p d (half_cell bins) lam
  + 2 * (centre m M + fval sf2 * shift noise n m M).
Definition bo_ei_loss (jitter sf2 noise : F) (p : kpar) (n d m : nat) (M Wt : R) (bins : Z) (lam : R) : R :=
  let W := Wt + shift noise n m M in
  2 * ei_bound jitter (M + centre m M) W (var_floor sf2 noise n)
  + (W * fval sf2 + 1 / 2 * sqrt (fval sf2)) * gap p d (half_cell bins) lam
  + 4 * (centre m M + fval sf2 * shift noise n m M).

(** the exact acquisition functions of the data, over the real numbers *)
Definition exact_ucb (sf2 : F) (p : kpar) (mf : meanf) (alpha : F) (B : nat -> nat -> R) (xs : list fpt) (ys : list F) (v : fpt) : R :=
  raw_mean sf2 p (length xs) (ptsf xs) B ys (prior mf ys) v + fval alpha * sqrt (post_var sf2 p (length xs) (ptsf xs) B v).
Definition exact_ei (sf2 : F) (p : kpar) (mf : meanf) (jitter : F) (B : nat -> nat -> R) (xs : list fpt) (ys : list F) (fbest : R) (v : fpt) (e : R) : Prop :=
  expected_improvement (raw_mean sf2 p (length xs) (ptsf xs) B ys (prior mf ys) v) (sqrt (post_var sf2 p (length xs) (ptsf xs) B v)) (fbest + fval jitter) e.

(** the sample [q] nearly maximises the acquisition function over the unit box *)
Definition near_ucb (sf2 noise : F) (p : kpar) (mf : meanf) (alpha : F) (d m : nat) (M : R) (bins : Z) (lam : R) (xs : list fpt) (ys : list F) (q : fpt) : Prop :=
  exists B, is_inv (length xs) (noisy (K_of sf2 p (ptsf xs)) (nugget noise)) B /\
  forall w, box d w -> exact_ucb sf2 p mf alpha B xs ys w <= exact_ucb sf2 p mf alpha B xs ys q
    + bo_ucb_loss alpha sf2 noise p (length xs) d m M (raw_weights (length xs) B ys (prior mf ys)) bins lam.
Definition near_ei (sf2 noise : F) (p : kpar) (mf : meanf) (jitter : F) (d m : nat) (M : R) (bins : Z) (lam : R) (xs : list fpt) (ys : list F) (q : fpt) : Prop :=
  exists B, is_inv (length xs) (noisy (K_of sf2 p (ptsf xs)) (nugget noise)) B /\
  exists fbest, is_best (map (raw_mean sf2 p (length xs) (ptsf xs) B ys (prior mf ys)) xs) fbest /\
  forall w, box d w -> exists e_w e_q, exact_ei sf2 p mf jitter B xs ys fbest w e_w /\ exact_ei sf2 p mf jitter B xs ys fbest q e_q /\
    e_w <= e_q + bo_ei_loss jitter sf2 noise p (length xs) d m M (raw_weights (length xs) B ys (prior mf ys)) bins lam.

(** the setting: kernel, noise and dimension as in C70, length scales of [lam] or more, data up to [M], a
    grid of [bins] steps *)
Definition setting_ok (fexp : F -> F) (mk d : nat) (sf2 noise : F) (p : kpar) (m : nat) (mf : meanf) (M : R) (lam : R) (bins : Z) (fuel : nat) : Prop :=
  regular fexp mk d sf2 noise p /\ (2 * d <= mk)%nat /\ INR m <= 3000 /\ 0 <= M <= 2 ^ 198 /\ const_ok M mf /\
  0 < lam /\ (forall l, In l (scales p) -> lam <= fval l) /\ (1 <= d)%nat /\ (1 <= bins <= 2 ^ 20)%Z /\ (Z.to_nat bins + 2 < fuel)%nat.

Lemma box_point d w : box d w -> point d w.
Proof.
  intros (W1 & W2). split; auto. intros a Ha. destruct (W2 a Ha) as (A1 & A2 & A3). split; auto. split; auto.
  assert (1 <= 2 ^ 100) by (apply pow_R1_Rle; lra). rewrite Rabs_pos_eq; lra.
Qed.
Lemma map_ptsf {A} (f : fpt -> A) xs : map (fun i => f (ptsf xs i)) (seq 0 (length xs)) = map f xs.
Proof.
  apply nth_ext with (f []) (f []); [now rewrite !map_length, seq_length|]. intros i Hi. rewrite map_length, seq_length in Hi.
  rewrite (nth_indep _ (f []) (f (ptsf xs 0))) by (rewrite map_length, seq_length; auto).
  rewrite (map_nth (fun i => f (ptsf xs i)) _ 0%nat), seq_nth by auto. rewrite (nth_indep (map f xs) (f []) (f (nth 0 xs []))) by (now rewrite map_length).
  rewrite map_nth. reflexivity.
Qed.
(** the best of values that moved by at most [c] moved by at most [c] *)
Lemma best_close {A} (f g : A -> R) l c a b : (forall x, In x l -> Rabs (f x - g x) <= c) -> is_best (map f l) a -> is_best (map g l) b -> Rabs (a - b) <= c.
Proof.
  intros H (A1 & A2) (B1 & B2). rewrite List.Forall_forall in A2, B2. apply in_map_iff in A1, B1. destruct A1 as (x & <- & Hx). destruct B1 as (y & <- & Hy).
  pose proof (H x Hx) as Cx. pose proof (H y Hy) as Cy. apply Rabs_le_inv in Cx, Cy.
  pose proof (A2 (f y) (in_map f l y Hy)). pose proof (B2 (g x) (in_map g l x Hx)). apply Rabs_le. lra.
Qed.
Lemma best_exists {A} (f : A -> R) l : l <> [] -> exists b, is_best (map f l) b.
Proof.
  induction l as [|x l IH]; [easy|]. intros _. destruct l as [|y l].
  - exists (f x). split; [now left|]. constructor; [apply Rle_refl|constructor].
  - destruct IH as (b & I & Fa); [easy|]. rewrite List.Forall_forall in Fa. destruct (Rle_dec b (f x)) as [L|L].
    + exists (f x). split; [now left|]. apply List.Forall_forall. intros z [<-|Hz]; [lra|]. specialize (Fa z Hz). lra.
    + exists b. split; [now right|]. apply List.Forall_forall. intros z [<-|Hz]; [lra|]. now apply Fa.
Qed.

Lemma rewards_seq (P : fpt -> F -> Prop) xs rw : List.Forall2 P xs rw -> List.Forall2 (fun i r => P (ptsf xs i) r) (seq 0 (length xs)) rw.
Proof.
  intros H.
  assert (Gn : forall l k, (forall i, (i < length l)%nat -> ptsf xs (k + i) = nth i l []) -> forall rw, List.Forall2 P l rw -> List.Forall2 (fun i r => P (ptsf xs i) r) (seq k (length l)) rw).
  { induction l as [|x l IH]; intros k Hk rw' Hrw; inversion Hrw; subst; [constructor|]. cbn [length seq]. constructor.
    - rewrite <- (Nat.add_0_r k), Hk by (cbn; lia). auto.
    - apply IH; auto. intros i Hi. rewrite Nat.add_succ_comm, Hk by (cbn; lia). reflexivity. }
  apply (Gn xs 0%nat); auto. intros i Hi. unfold ptsf. rewrite Nat.add_0_l. apply nth_indep. auto.
Qed.

(** ** One iteration *)
Section Step.
  Variables (fexp : F -> F) (mk d : nat) (sf2 noise : F) (p : kpar) (m : nat) (mf : meanf) (M lam : R) (bins : Z) (fuel : nat).
  Hypothesis HS : setting_ok fexp mk d sf2 noise p m mf M lam bins fuel.
  Variables (xs : list fpt) (ys : list F) (g : fgp).
  Hypothesis HL : gp_life fexp mk sf2 noise p m mf xs ys g.
  Hypothesis Hn : (0 < length xs <= 1000)%nat.
  Hypothesis Hx : List.Forall (point d) xs.
  Hypothesis Hy : List.Forall (dbl M) ys.

  Lemma step_facts :
    usual fexp mk d sf2 noise p (length xs) (ptsf xs) /\ INR m <= 3000 /\
    gp_of fexp mk sf2 noise p (length xs) (ptsf xs) m (fg_L g) (residual ys (fg_mean g)) (fg_a g) /\ fg_xs g = xs /\ fg_ys g = ys /\
    (forall i, (i < length xs)%nat -> dbl (2 ^ 200) (residual ys (fg_mean g) i)) /\ dbl (2 ^ 200) (fg_mean g) /\ 0 <= centre m M /\ 0 <= shift noise (length xs) m M /\
    Rabs (fval (fg_mean g)) <= M + centre m M /\
    forall B, is_inv (length xs) (noisy (K_of sf2 p (ptsf xs)) (nugget noise)) B ->
      weights (length xs) B (residual ys (fg_mean g)) <= raw_weights (length xs) B ys (prior mf ys) + shift noise (length xs) m M /\
      forall v, point d v -> Rabs (post_mean sf2 p (length xs) (ptsf xs) B (residual ys (fg_mean g)) (fg_mean g) v - raw_mean sf2 p (length xs) (ptsf xs) B ys (prior mf ys) v)
        <= centre m M + fval sf2 * shift noise (length xs) m M.
  Proof.
    destruct HS as (HR & Hmk & Hm & HM & HC & _). assert (Hp : kpar_ok d p) by apply HR. pose proof (usual_of fexp mk d sf2 noise p xs HR Hx Hn) as HU.
    destruct (life_sound fexp mk d sf2 noise p m mf Hp Hmk xs ys g HR Hm HL ltac:(lia) Hx) as (E1 & E2 & E3 & Hs).
    destruct (sound_gp _ _ _ _ _ _ _ _ Hs ltac:(rewrite E1; lia)) as (HG & HV). rewrite E1, E2 in HG. rewrite E2 in HV.
    destruct (C76_centred m mf ys (fg_mean g) M Hm ltac:(lia) HM Hy HC HV) as (Dm & Em & Er).
    destruct (mean_val_ok m mf ys (fg_mean g) M Hm ltac:(lia) HM Hy HC HV) as (_ & _ & _ & Pa).
    assert (C0 : 0 <= centre m M) by (apply Rle_trans with (2 := Em); apply Rabs_pos).
    assert (S0 : 0 <= shift noise (length xs) m M).
    { unfold shift, Rdiv. assert (0 < nugget noise) by (unfold nugget; destruct HR as (_ & _ & _ & _ & _ & _ & _ & _ & HN); lra).
      apply Rmult_le_pos; auto. apply Rmult_le_pos; [apply pos_INR|]. left. now apply Rinv_0_lt_compat. }
    split; auto. split; auto. split; auto. split; auto. split; auto. split; [intros i Hi; apply Er; rewrite E3; auto|].
    split. { destruct Dm as (A & A' & A''). split; auto. split; auto. apply Rle_trans with (1 := A''). apply Rle_pow; [lra|lia]. }
    split; auto. split; auto. split.
    { replace (fval (fg_mean g)) with ((fval (fg_mean g) - prior mf ys) + prior mf ys) by ring. apply Rle_trans with (1 := Rabs_triang _ _). lra. }
    intros B HB. destruct (raw_close _ _ _ _ _ _ _ _ B _ _ _ _ M HU HB Hm E3 HM Hy HC HV) as (R1 & R2 & R3). fold (shift noise (length xs) m M) in R1, R2, R3.
    split; auto. apply Rabs_le_inv in R2. lra.
  Qed.

  Lemma ucb_step alpha (f : fpt -> F) q : dbl (2 ^ 20) alpha -> 0 <= fval alpha ->
    (forall v, point d v -> exists mu sigma_sq, gp_query fexp mk sf2 noise p m g v mu sigma_sq /\ ucb_of alpha mu sigma_sq (f v)) ->
    (exists grid, grid_search_xs fuel bins = Some grid /\ grid_search f grid d = GVec q) ->
    near_ucb sf2 noise p mf alpha d m M bins lam xs ys q.
  Proof.
    intros Ha Pa Hf (grid & G1 & G2). destruct step_facts as (HU & Hm & HG & E1 & E2 & Hr & Dm & C0 & S0 & Bm & HB').
    destruct HS as (_ & _ & _ & _ & _ & Hl & Hs & Hd & Hb & Hfu). unfold gp_query in Hf. rewrite E1 in Hf.
    destruct (C74_ucb fexp mk d sf2 noise p (length xs) (ptsf xs) m (fg_L g) (residual ys (fg_mean g)) (fg_a g) alpha (fg_mean g) lam bins fuel f HU Hm HG Hr Ha Pa Dm Hl Hs Hd Hb Hfu Hf)
      as (B & HB & gr & q' & F1 & F2 & Pq & H). rewrite G1 in F1. injection F1 as <-. rewrite G2 in F2. injection F2 as <-.
    exists B. split; auto. intros w Hw. destruct (HB' B HB) as (W1 & W2). specialize (H w Hw). cbv beta in H. pose proof (W2 w (box_point d w Hw)) as Dw. pose proof (W2 q Pq) as Dq.
    unfold exact_ucb. set (Vw := sqrt (post_var sf2 p (length xs) (ptsf xs) B w)) in *. set (Vq := sqrt (post_var sf2 p (length xs) (ptsf xs) B q)) in *.
    assert (Lo : ucb_loss alpha (fg_mean g) sf2 noise p (length xs) d (weights (length xs) B (residual ys (fg_mean g))) bins lam
      <= 2 * (7 / 10 ^ 6 * (raw_weights (length xs) B ys (prior mf ys) + shift noise (length xs) m M) + 2 / 10 ^ 12 * (1 + (M + centre m M)) + 11 / 10 ^ 7 * fval alpha / sqrt (var_floor sf2 noise (length xs)))
        + ((raw_weights (length xs) B ys (prior mf ys) + shift noise (length xs) m M) * fval sf2 + fval alpha * sqrt (fval sf2)) * gap p d (half_cell bins) lam).
    { unfold ucb_loss, ucb_bound. apply Rplus_le_compat.
      - apply Rmult_le_compat_l; [lra|]. apply Rplus_le_compat_r. apply Rplus_le_compat; apply Rmult_le_compat_l; lra.
      - apply Rmult_le_compat_r.
        + apply gap_nonneg; auto. unfold half_cell. assert (1 <= IZR bins) by (apply IZR_le; lia). assert (0 < / (2 * IZR bins)) by (apply Rinv_0_lt_compat; lra). lra.
        + apply Rplus_le_compat_r. apply Rmult_le_compat_r; auto. left. apply param_pos. apply HU. }
    apply Rabs_le_inv in Dw, Dq. unfold bo_ucb_loss. lra.
  Qed.

  Lemma ei_step ferfc fpow2 jitter (f : fpt -> F) rewards q : 1 / 100 <= fval sf2 -> libm_erfc ferfc (/ 2 ^ 50) -> libm_pow2 fpow2 -> dbl (2 ^ 200) jitter ->
    List.Forall2 (fun x r => gp_mu fexp mk sf2 noise p m g x r) xs rewards ->
    (forall v, point d v -> exists mu sigma_sq, gp_query fexp mk sf2 noise p m g v mu sigma_sq /\ ei_of fexp ferfc fpow2 jitter rewards mu sigma_sq (f v)) ->
    (exists grid, grid_search_xs fuel bins = Some grid /\ grid_search f grid d = GVec q) ->
    near_ei sf2 noise p mf jitter d m M bins lam xs ys q.
  Proof.
    intros S100 Hc Hq Hj HR Hf (grid & G1 & G2). destruct step_facts as (HU & Hm & HG & E1 & E2 & Hr & Dm & C0 & S0 & Bm & HB').
    destruct HS as (_ & _ & _ & _ & _ & Hl & Hs & Hd & Hb & Hfu). unfold gp_query in Hf. unfold gp_mu in HR. rewrite E1 in Hf, HR.
    pose proof (rewards_seq _ xs rewards HR) as HR'. cbv beta in HR'.
    destruct (C74_ei fexp ferfc fpow2 jitter mk d sf2 noise p (length xs) (ptsf xs) m (fg_L g) (residual ys (fg_mean g)) (fg_a g) (fg_mean g) rewards lam bins fuel f HU S100 Hm HG Hr Hc Hq Hj Dm HR' Hl Hs Hd Hb Hfu Hf)
      as (B & HB & fb & Hfb & gr & q' & F1 & F2 & Pq & H). rewrite G1 in F1. injection F1 as <-. rewrite G2 in F2. injection F2 as <-.
    exists B. split; auto. destruct (HB' B HB) as (W1 & W2).
    rewrite (map_ptsf (post_mean sf2 p (length xs) (ptsf xs) B (residual ys (fg_mean g)) (fg_mean g)) xs) in Hfb.
    set (pm := post_mean sf2 p (length xs) (ptsf xs) B (residual ys (fg_mean g)) (fg_mean g)) in *. set (rm := raw_mean sf2 p (length xs) (ptsf xs) B ys (prior mf ys)) in *.
    set (cen := centre m M + fval sf2 * shift noise (length xs) m M) in *.
    destruct (best_exists rm xs) as (fr & Hfr); [intros ->; cbn in Hn; lia|]. exists fr. split; auto.
    assert (Cb : Rabs (fb - fr) <= cen).
    { apply (best_close pm rm xs cen fb fr); auto. intros x Ix. apply W2. rewrite List.Forall_forall in Hx. auto. }
    intros w Hw. destruct (H w Hw) as (ew & eq & I1 & I2 & Le). cbv beta in I1, I2. pose proof (box_point d w Hw) as Pw.
    set (j := fval jitter) in *. set (sd := fun v => sqrt (post_var sf2 p (length xs) (ptsf xs) B v)).
    assert (Sd : forall v, point d v -> 0 < sd v) by (intros v Hv; apply sqrt_lt_R0; exact (post_var_pos _ _ _ _ _ _ _ _ B HU HB v Hv)).
    assert (X : forall v e, point d v -> expected_improvement (pm v) (sd v) (fb + j) e ->
      expected_improvement (rm v) (sd v) (fr + j) (ei_value erfc0 (rm v - (fr + j)) (sd v)) /\ Rabs (e - ei_value erfc0 (rm v - (fr + j)) (sd v)) <= 2 * cen).
    { intros v e Hv He. pose proof (ei_is_expectation (pm v) (sd v) (fb + j) (Sd v Hv) erfc0 erfc0_ok) as Q1.
      split; [exact (ei_is_expectation (rm v) (sd v) (fr + j) (Sd v Hv) erfc0 erfc0_ok)|].
      rewrite (expectation_unique _ _ _ _ _ He Q1). rewrite Rabs_minus_sym.
      pose proof (ei_lipschitz (pm v - (fb + j)) (rm v - (fr + j)) (sd v) (sd v) (Sd v Hv) (Sd v Hv)) as Li. replace (sd v - sd v) with 0 in Li by ring. rewrite Rabs_R0 in Li.
      pose proof (W2 v Hv) as D.
      assert (T : Rabs (rm v - (fr + j) - (pm v - (fb + j))) <= 2 * cen).
      { replace (rm v - (fr + j) - (pm v - (fb + j))) with ((fb - fr) - (pm v - rm v)) by ring. unfold Rminus at 1. apply Rle_trans with (1 := Rabs_triang _ _). rewrite Rabs_Ropp. lra. }
      lra. }
    destruct (X w ew Pw I1) as (Xw & Dw). destruct (X q eq Pq I2) as (Xq & Dq).
    exists (ei_value erfc0 (rm w - (fr + j)) (sd w)), (ei_value erfc0 (rm q - (fr + j)) (sd q)). split; auto. split; auto.
    assert (Lo : ei_loss jitter sf2 noise p (length xs) d (Rabs (fval (fg_mean g))) (weights (length xs) B (residual ys (fg_mean g))) bins lam
      <= 2 * ei_bound jitter (M + centre m M) (raw_weights (length xs) B ys (prior mf ys) + shift noise (length xs) m M) (var_floor sf2 noise (length xs))
        + ((raw_weights (length xs) B ys (prior mf ys) + shift noise (length xs) m M) * fval sf2 + 1 / 2 * sqrt (fval sf2)) * gap p d (half_cell bins) lam).
    { unfold ei_loss, ei_bound. apply Rplus_le_compat.
      - apply Rmult_le_compat_l; [lra|]. apply Rplus_le_compat_r. apply Rplus_le_compat_r. apply Rplus_le_compat; apply Rmult_le_compat_l; lra.
      - apply Rmult_le_compat_r.
        + apply gap_nonneg; auto. unfold half_cell. assert (1 <= IZR bins) by (apply IZR_le; lia). assert (0 < / (2 * IZR bins)) by (apply Rinv_0_lt_compat; lra). lra.
        + apply Rplus_le_compat_r. apply Rmult_le_compat_r; auto. left. apply param_pos. apply HU. }
    apply Rabs_le_inv in Dw, Dq. unfold bo_ei_loss. fold cen. lra.
  Qed.
End Step.

(** ** Runs *)
Section Runs.
  Context {W E : Type}.
  Variables (fexp : F -> F) (mk d : nat) (sf2 noise : F) (p : kpar) (m : nat) (mf : meanf) (M lam : R) (bins : Z) (fuel : nat).
  Notation vec := F64.vec.
  Variable sfun : W -> vec -> (vec + E) * W.
  Variable m_fresh : fgp.
  Variable m_compute : W -> fgp -> list vec -> list vec -> fgp * W.
  Variable m_add : W -> fgp -> vec -> vec -> fgp * W.
  Variable m_hp : W -> fgp -> fgp * W.
  Variable acq : W -> fgp -> Z -> vec * W.
  Variable init_n : nat.
  Variable init_pt : nat -> W -> vec * W.
  Variable hp_period : Z.
  Notation run := (run_ops sfun m_fresh m_compute m_add m_hp acq init_n init_pt hp_period).
  Notation life := (gp_life fexp mk sf2 noise p m mf).

  (** the model is a GP of C76, on at most 1000 samples *)
  Definition runs_gp : Prop :=
    fg_xs m_fresh = [] /\ fg_ys m_fresh = [] /\
    (forall w g xs ys, xs <> [] -> (length xs <= 1000)%nat -> List.Forall2 (datum d M) xs ys -> gp_compute fexp mk sf2 noise p m mf xs (firsts ys) (fst (m_compute w g xs ys))) /\
    (forall w g xs ys x y, life xs (firsts ys) g -> (length xs < 1000)%nat -> List.Forall2 (datum d M) xs ys -> datum d M x y ->
       gp_add fexp mk sf2 noise p m mf g x (nth 0 y f0) (fst (m_add w g x y))).
  (** the next sample is found by the grid search on the computed acquisition function; [A g f]: [f] is that
      function for the GP [g] *)
  Definition runs_grid (A : fgp -> (fpt -> F) -> Prop) : Prop :=
    forall w g c xs ys, life xs (firsts ys) g -> (length xs <= 1000)%nat -> List.Forall2 (datum d M) xs ys ->
      exists f, (xs <> [] -> A g f) /\ exists grid, grid_search_xs fuel bins = Some grid /\ grid_search f grid d = GVec (fst (acq w g c)).
  (** the objective: one finite value of magnitude at most [M] or a failed evaluation *)
  Definition runs_objective : Prop := forall w x v w', point d x -> sfun w x = (inl v, w') -> is_nan_or_inf v = false -> exists o, v = [o] /\ dbl M o.
  Definition user_op (o : op) : Prop :=
    match o with OpOptimize _ _ => True | OpEvalAdd x => point d x | OpAddSample x y => is_nan_or_inf y = false -> datum d M x y end.

  (** the same with a stronger condition [Ok] on samples and observations *)
  Definition objective_ok (Ok : vec -> vec -> Prop) : Prop := forall w x v w', point d x -> sfun w x = (inl v, w') -> is_nan_or_inf v = false -> Ok x v.
  Definition op_ok (Ok : vec -> vec -> Prop) (o : op) : Prop :=
    match o with OpOptimize _ _ => True | OpEvalAdd x => point d x | OpAddSample x y => is_nan_or_inf y = false -> Ok x y end.

  Definition D (Ok : vec -> vec -> Prop) (xs ys : list vec) : Prop := length xs = length ys /\ ((length xs <= 1000)%nat -> List.Forall2 Ok xs ys).
  Definition Rm (xs ys : list vec) (g : fgp) : Prop := (length xs <= 1000)%nat -> life xs (firsts ys) g.

  Lemma datum_points xs ys : List.Forall2 (datum d M) xs ys -> List.Forall (point d) xs /\ List.Forall (dbl M) (firsts ys).
  Proof.
    induction 1 as [|x y xs ys (H1 & o & -> & H2) _ (IH1 & IH2)]; [split; constructor|]. split; [constructor; auto|]. cbn. constructor; auto.
  Qed.
  Lemma datum_length xs ys : List.Forall2 (datum d M) xs ys -> length xs = length ys.
  Proof. induction 1; cbn; auto. Qed.
  Lemma D_snoc (Ok : vec -> vec -> Prop) xs ys x y : D Ok xs ys -> Ok x y -> D Ok (xs ++ [x]) (ys ++ [y]).
  Proof. intros (L & H) Hd. split; [rewrite !app_length; cbn; lia|]. rewrite app_length. cbn [length]. intros Hn. apply List.Forall2_app; [apply H; lia|]. constructor; auto. Qed.

  Theorem run_samples (Ok : vec -> vec -> Prop) A cs os g0 w s : (forall x y, Ok x y -> datum d M x y) -> (1 <= bins <= 2 ^ 20)%Z -> (Z.to_nat bins + 2 < fuel)%nat ->
    runs_gp -> runs_grid A -> objective_ok Ok -> (forall i w, point d (fst (init_pt i w))) -> (hp_period <= 0)%Z -> List.Forall (op_ok Ok) os ->
    run cs os (new_bo g0 w) = Some s ->
    D Ok (samples s) (observations s) /\
    forall X Y g c q, In (EvAcq X Y g c q) (trace s) -> (length X <= 1000)%nat ->
      List.Forall2 Ok X Y /\ life X (firsts Y) g /\ point d q /\
      exists f, (X <> [] -> A g f) /\ exists grid, grid_search_xs fuel bins = Some grid /\ grid_search f grid d = GVec q.
  Proof.
    intros HOk Hb Hfu (F1 & F2 & HC & HA) HG HO HI Hhp Hops Hrun.
    assert (Fd : forall xs ys, List.Forall2 Ok xs ys -> List.Forall2 (datum d M) xs ys) by (intros xs ys H; induction H; constructor; auto).
    assert (Gp : forall f grid x, grid_search_xs fuel bins = Some grid -> grid_search f grid d = GVec x -> point d x).
    { intros f grid x G1 G2. destruct (C15_grid_search_best f grid d x G2) as ((Q1 & Q2) & _). destruct (grid_near bins fuel grid Hb Hfu G1) as (N & _).
      split; auto. intros a Ha. rewrite List.Forall_forall in Q2. destruct (N a (Q2 a Ha)) as (A1 & A2 & A3). split; auto. split; auto.
      assert (2 ^ 2 <= 2 ^ 100) by (apply Rle_pow; [lra|lia]). rewrite Rabs_pos_eq; lra. }
    assert (Fit : forall xs ys x, D Ok xs ys -> ((length xs <= 1000)%nat -> point d x) -> fits sfun (D Ok) xs ys x).
    { intros xs ys x (HD1 & HD2) Px w1 v w2 Es Ev. destruct (Nat.leb_spec (length xs) 1000) as [Le|Gt].
      - apply D_snoc; [split; auto|]. exact (HO w1 x v w2 (Px Le) Es Ev).
      - split; [rewrite !app_length; cbn; lia|]. rewrite app_length. cbn. lia. }
    assert (Ch : D Ok (samples s) (observations s) /\ List.Forall (chosen acq (D Ok) Rm) (trace s)).
    { apply (run_inv sfun m_fresh m_compute m_add m_hp acq init_n init_pt hp_period (D Ok) Rm) with (cs := cs) (os := os) (m := g0) (w := w); auto.
      - split; auto.
      - intros xs ys H. apply H.
      - intros _. cbn. now constructor.
      - intros w1 g xs ys Hn (HD1 & HD2) Le. apply life_compute; auto. unfold firsts. now rewrite map_length.
      - intros w1 g xs ys x y HR (HD1 & HD2) (HD3 & HD4) Le. specialize (HD4 Le). unfold firsts. rewrite map_app. cbn [map].
        assert (Le' : (length xs < 1000)%nat) by (rewrite app_length in Le; cbn in Le; rewrite Nat.add_1_r in Le; exact Le).
        destruct (List.Forall2_app_inv_l _ _ HD4) as (y1 & y2 & Fa1 & Fa2 & Ey).
        inversion Fa2 as [|? yy ? ? Hd T]; subst. inversion T; subst. apply app_inj_tail in Ey. destruct Ey as (-> & ->).
        apply life_add with g; [apply HR, Nat.lt_le_incl, Le'|]. apply HA with xs y1; auto. apply HR, Nat.lt_le_incl, Le'.
      - intros; lia.
      - intros w1 g c xs ys HD HR. apply Fit; auto. intros Le. destruct HD as (_ & HD2). destruct (HG w1 g c xs ys (HR Le) Le (Fd _ _ (HD2 Le))) as (f & _ & grid & G1 & G2). now apply Gp with f grid.
      - apply List.Forall_forall. intros o Ho. rewrite List.Forall_forall in Hops. specialize (Hops o Ho).
        destruct o as [r f|x|x y]; cbn [fit_op op_ok] in *; [exact I| |].
        + intros xs ys HD. apply Fit; auto.
        + intros Ey xs ys HD. apply D_snoc; auto. }
    destruct Ch as (HD & Ch). split; [exact HD|].
    intros X Y g c q Hin Le. rewrite List.Forall_forall in Ch. destruct (Ch _ Hin) as ((_ & HD2) & HR & wq & ->). specialize (HD2 Le). specialize (HR Le).
    destruct (HG wq g c X Y HR Le (Fd _ _ HD2)) as (f & Hf & grid & G1 & G2). split; auto. split; auto. split; [now apply Gp with f grid|]. exists f. split; auto. exists grid. auto.
  Qed.
  Lemma user_ok os : List.Forall user_op os -> List.Forall (op_ok (datum d M)) os.
  Proof. apply List.Forall_impl. intros [r f|x|x y] H; exact H. Qed.
  Lemma objective_datum : runs_objective -> objective_ok (datum d M).
  Proof. intros H w x v w' Px Es Ev. split; [exact Px|exact (H w x v w' Px Es Ev)]. Qed.

  (** the computed acquisition functions *)
  Definition computes_ucb (alpha : F) (g : fgp) (f : fpt -> F) : Prop :=
    forall v, point d v -> exists mu sigma_sq, gp_query fexp mk sf2 noise p m g v mu sigma_sq /\ ucb_of alpha mu sigma_sq (f v).
  Definition computes_ei (ferfc fpow2 : F -> F) (jitter : F) (g : fgp) (f : fpt -> F) : Prop :=
    exists rewards, List.Forall2 (fun x r => gp_mu fexp mk sf2 noise p m g x r) (fg_xs g) rewards /\
    forall v, point d v -> exists mu sigma_sq, gp_query fexp mk sf2 noise p m g v mu sigma_sq /\ ei_of fexp ferfc fpow2 jitter rewards mu sigma_sq (f v).

  (** Every sample of every run with UCB and the grid search nearly maximises the exact UCB of the data over
      the box, whatever objective, initialisation, stopping criteria and user operations. *)
  Theorem C77_ucb : forall alpha cs os g0 w s, setting_ok fexp mk d sf2 noise p m mf M lam bins fuel -> dbl (2 ^ 20) alpha -> 0 <= fval alpha ->
    runs_gp -> runs_grid (computes_ucb alpha) -> runs_objective -> (forall i w, point d (fst (init_pt i w))) -> (hp_period <= 0)%Z -> List.Forall user_op os ->
    run cs os (new_bo g0 w) = Some s ->
    forall X Y g c q, In (EvAcq X Y g c q) (trace s) -> (0 < length X <= 1000)%nat ->
      point d q /\ near_ucb sf2 noise p mf alpha d m M bins lam X (firsts Y) q.
  Proof.
    intros alpha cs os g0 w s HS Ha Pa HG HA HO HI Hhp Hops Hrun X Y g c q Hin Hn.
    assert (HS' := HS). destruct HS' as (_ & _ & _ & _ & _ & _ & _ & _ & Hb & Hfu).
    destruct (proj2 (run_samples (datum d M) (computes_ucb alpha) cs os g0 w s (fun x y H => H) Hb Hfu HG HA (objective_datum HO) HI Hhp (user_ok os Hops) Hrun) X Y g c q Hin (proj2 Hn)) as (Hd & HL & Pq & f & Hf & Hgrid).
    destruct (datum_points X Y Hd) as (P1 & P2). split; auto.
    apply (ucb_step fexp mk d sf2 noise p m mf M lam bins fuel HS X (firsts Y) g HL Hn P1 P2 alpha f q Ha Pa); auto. apply Hf. intros ->. cbn in Hn. lia.
  Qed.

  Theorem C77_ei : forall ferfc fpow2 jitter cs os g0 w s, setting_ok fexp mk d sf2 noise p m mf M lam bins fuel ->
    1 / 100 <= fval sf2 -> libm_erfc ferfc (/ 2 ^ 50) -> libm_pow2 fpow2 -> dbl (2 ^ 200) jitter ->
    runs_gp -> runs_grid (computes_ei ferfc fpow2 jitter) -> runs_objective -> (forall i w, point d (fst (init_pt i w))) -> (hp_period <= 0)%Z -> List.Forall user_op os ->
    run cs os (new_bo g0 w) = Some s ->
    forall X Y g c q, In (EvAcq X Y g c q) (trace s) -> (0 < length X <= 1000)%nat ->
      point d q /\ near_ei sf2 noise p mf jitter d m M bins lam X (firsts Y) q.
  Proof.
    intros ferfc fpow2 jitter cs os g0 w s HS S100 Hc Hq Hj HG HA HO HI Hhp Hops Hrun X Y g c q Hin Hn.
    assert (HS' := HS). destruct HS' as (HR & Hmk & Hm & _ & _ & _ & _ & _ & Hb & Hfu).
    destruct (proj2 (run_samples (datum d M) (computes_ei ferfc fpow2 jitter) cs os g0 w s (fun x y H => H) Hb Hfu HG HA (objective_datum HO) HI Hhp (user_ok os Hops) Hrun) X Y g c q Hin (proj2 Hn)) as (Hd & HL & Pq & f & Hf & Hgrid).
    destruct (datum_points X Y Hd) as (P1 & P2). split; auto.
    destruct Hf as (rw & Hr & Hf); [intros ->; cbn in Hn; lia|].
    destruct (life_sound fexp mk d sf2 noise p m mf ltac:(apply HR) Hmk X (firsts Y) g HR Hm HL (proj2 Hn) P1) as (E1 & _). rewrite E1 in Hr.
    exact (ei_step fexp mk d sf2 noise p m mf M lam bins fuel HS X (firsts Y) g HL Hn P1 P2 ferfc fpow2 jitter f rw q S100 Hc Hq Hj Hr Hf Hgrid).
  Qed.
End Runs.

(** ** Consequence: as long as the objective stays inside the confidence band of the data, the next sample is
    worse than any other point by at most the width of the band at the sample and the loss above. *)
Theorem C77_regret : forall sf2 noise p mf alpha d m M bins lam xs ys q,
  near_ucb sf2 noise p mf alpha d m M bins lam xs ys q -> point d q ->
  exists B, is_inv (length xs) (noisy (K_of sf2 p (ptsf xs)) (nugget noise)) B /\
  forall h : fpt -> R,
    (forall v, point d v -> Rabs (h v - raw_mean sf2 p (length xs) (ptsf xs) B ys (prior mf ys) v) <= fval alpha * sqrt (post_var sf2 p (length xs) (ptsf xs) B v)) ->
    forall w, box d w -> h w - h q <= 2 * fval alpha * sqrt (post_var sf2 p (length xs) (ptsf xs) B q)
      + bo_ucb_loss alpha sf2 noise p (length xs) d m M (raw_weights (length xs) B ys (prior mf ys)) bins lam.
Proof.
  intros sf2 noise p mf alpha d m M bins lam xs ys q (B & HB & H) Pq. exists B. split; auto. intros h Hh w Hw. specialize (H w Hw). unfold exact_ucb in H.
  pose proof (Hh q Pq) as A1. pose proof (Hh w (box_point d w Hw)) as A2. apply Rabs_le_inv in A1, A2. lra.
Qed.

(** ** The hypotheses hold: the default parameters of the kernels, each mean function, two input dimensions,
    a grid of 4 steps, UCB with alpha = 1 and EI with jitter 0; one initial sample and two iterations *)
Definition ex_obj (_ : unit) (x : F64.vec) : (F64.vec + unit) * unit := (inl [if flt (nth 0 x f0) fhalf then f1 else fhalf], tt).
Definition ex_grid : list F := match grid_search_xs 7 4 with Some g => g | None => [] end.
Definition ex_ucb p (g : fgp) : fpt -> F :=
  match fg_xs g with
  | [] => fun _ => f0
  | _ => fun v => fadd (muF best_exp f1 ex_noise p g v) (fmul f1 (fsqrt (sigmaF best_exp f1 ex_noise p g v)))
  end.
Definition ex_ei p (g : fgp) : fpt -> F :=
  match map (muF best_exp f1 ex_noise p g) (fg_xs g) with
  | [] => fun _ => f0
  | r0 :: rs => fun v =>
      let sg := sigmaF best_exp f1 ex_noise p g v in
      let X := fsub (fsub (muF best_exp f1 ex_noise p g v) (fold_left (fun a b => if flt a b then b else a) rs r0)) f0 in
      let Z := fdiv X (fsqrt sg) in
      if flt (fsqrt sg) cutoff || (length (r0 :: rs) <? 1)%nat then f0 else
      fadd (fmul X (fmul fhalf (best_erfc (fdiv (fopp Z) (fsqrt ftwo))))) (fmul (fsqrt sg) (fdiv (best_exp (fmul mhalf (best_pow2 Z))) (fsqrt (fmul ftwo fpi))))
  end.
Definition ex_acq (a : fgp -> fpt -> F) (_ : unit) (g : fgp) (_ : Z) : F64.vec * unit :=
  (match grid_search (a g) ex_grid 2 with GVec x => x | _ => [] end, tt).
Definition ex_empty : fgp := mkFgp [] [] f0 (fun _ _ => f0) (fun _ _ => f0) (fun _ => f0).
Definition ex_run p mf a := run_ops (W := unit) (M := fgp) (E := unit) ex_obj ex_empty
  (fun _ _ xs ys => (computeF best_exp f1 ex_noise p mf xs (firsts ys), tt)) (fun _ g x y => (addF best_exp f1 ex_noise p mf g x (nth 0 y f0), tt)) (fun _ g => (g, tt))
  (ex_acq a) 1 (fun _ _ => ([fhalf; fhalf], tt)) (-1).
Definition ex_m : nat := 2000.

Example C77_example : forall p mf, In p [PExp f1; PMatern3 f1; PMatern5 f1; PArd [f1; fofZe 1 (-1)]] -> In mf [MNull; MConst fhalf; MData] ->
  setting_ok best_exp 4 2 f1 ex_noise p ex_m mf 1 (1 / 2) 4 7 /\
  runs_gp (W := unit) best_exp 4 2 f1 ex_noise p ex_m mf 1 ex_empty
    (fun _ _ xs ys => (computeF best_exp f1 ex_noise p mf xs (firsts ys), tt)) (fun _ g x y => (addF best_exp f1 ex_noise p mf g x (nth 0 y f0), tt)) /\
  runs_grid best_exp 4 2 f1 ex_noise p ex_m mf 1 4 7 (ex_acq (ex_ucb p)) (computes_ucb best_exp 4 2 f1 ex_noise p ex_m f1) /\
  runs_grid best_exp 4 2 f1 ex_noise p ex_m mf 1 4 7 (ex_acq (ex_ei p)) (computes_ei best_exp 4 2 f1 ex_noise p ex_m best_erfc best_pow2 f0) /\
  runs_objective 2 1 ex_obj /\ point 2 [fhalf; fhalf] /\
  forall a, exists s X Y g q, ex_run p mf a [max_iterations 2] [OpOptimize true 3] (new_bo ex_empty tt) = Some s /\
      In (EvAcq X Y g 1 q) (trace s) /\ length X = 2%nat.
Proof.
  intros p mf Hp Hmf. destruct (C76_example p mf Hp Hmf) as (HR & _ & _ & _ & _ & HC & _).
  assert (E1 : fval f1 = 1) by (cbv -[IZR F2R bpow]; unfold F2R; simpl; lra). destruct half_val as (Vh & Fh & Eh). destruct f0_ok as (V0 & F0 & E0).
  assert (Eh' : fval (fofZe 1 (-1)) = 1 / 2) by (cbv -[IZR F2R bpow Rdiv]; unfold F2R; simpl; lra).
  assert (HK : kpar_ok 2 p) by apply HR.
  assert (B100 : 1 <= 2 ^ 100) by (apply pow_R1_Rle; lra). assert (P198 : 1 <= 2 ^ 198) by (apply pow_R1_Rle; lra).
  assert (Hsc : forall l, In l (scales p) -> 1 / 2 <= fval l).
  { intros l Hl. destruct Hp as [<-|[<-|[<-|[<-|[]]]]]; cbn [scales In] in Hl; repeat (destruct Hl as [<-|Hl]); try tauto; rewrite ?E1, ?Eh'; lra. }
  assert (Hm : INR ex_m <= 3000) by (unfold ex_m; rewrite INR_IZR_INZ; apply IZR_le; vm_compute; discriminate).
  assert (HS : setting_ok best_exp 4 2 f1 ex_noise p ex_m mf 1 (1 / 2) 4 7).
  { split; [exact HR|]. split; [lia|]. split; [exact Hm|]. split; [lra|]. split; [exact HC|]. split; [lra|]. split; [exact Hsc|]. split; [lia|]. split; [lia|]. cbn. lia. }
  split; [exact HS|].
  assert (M1000 : (1000 < ex_m)%nat) by (unfold ex_m; lia).
  assert (Dp : forall xs ys, List.Forall2 (datum 2 1) xs ys -> List.Forall (point 2) xs /\ List.Forall (dbl 1) (firsts ys)) by (apply datum_points).
  assert (Life : forall xs ys g, gp_life best_exp 4 f1 ex_noise p ex_m mf xs (firsts ys) g -> (length xs <= 1000)%nat -> List.Forall2 (datum 2 1) xs ys ->
    fg_xs g = xs /\ length (fg_ys g) = length (fg_xs g) /\ List.Forall (point 2) (fg_xs g)).
  { intros xs ys g HL Le Hd. destruct (Dp _ _ Hd) as (P1 & P2). destruct (life_sound best_exp 4 2 f1 ex_noise p ex_m mf HK (le_n _) xs (firsts ys) g HR Hm HL Le P1) as (A1 & A2 & A3 & _).
    rewrite A1, A2. auto. }
  assert (P200 : 1 <= 2 ^ 200) by (apply pow_R1_Rle; lra). assert (P20 : 1 <= 2 ^ 20) by (apply pow_R1_Rle; lra).
  assert (D1 : dbl (2 ^ 20) f1) by (split; [reflexivity|]; split; [reflexivity|]; rewrite E1, Rabs_pos_eq; lra).
  assert (D0 : dbl (2 ^ 200) f0) by (split; [reflexivity|]; split; [reflexivity|]; rewrite E0, Rabs_R0; lra).
  split; [|split; [|split; [|split; [|split]]]].
  - split; [reflexivity|]. split; [reflexivity|]. split.
    + intros w g xs ys Hn Le Hd. cbn [fst]. apply computeF_ok with 2%nat; auto; [apply (Dp _ _ Hd)|unfold firsts; rewrite map_length; symmetry; exact (datum_length 2 1 xs ys Hd)|].
      exact (Nat.le_trans _ _ _ Le (Nat.lt_le_incl _ _ M1000)).
    + intros w g xs ys x y HL Lt Hd (Px & _). cbn [fst]. destruct (Life xs ys g HL (Nat.lt_le_incl _ _ Lt) Hd) as (A1 & A2 & A3).
      apply addF_ok with 2%nat; auto. rewrite A1. exact (Nat.lt_trans _ _ _ Lt M1000).
  - intros w g c xs ys HL Le Hd. destruct (Life xs ys g HL Le Hd) as (A1 & A2 & A3).
    assert (Hq : forall v, point 2 v -> gp_query best_exp 4 f1 ex_noise p ex_m g v (muF best_exp f1 ex_noise p g v) (sigmaF best_exp f1 ex_noise p g v)).
    { intros v Pv. apply queryF_ok with 2%nat; auto. rewrite A1. exact (Nat.le_lt_trans _ _ _ Le M1000). }
    assert (Cu : xs <> [] -> computes_ucb best_exp 4 2 f1 ex_noise p ex_m f1 g (ex_ucb p g)).
    { intros Hn v Pv. eexists _, _. split; [exact (Hq v Pv)|]. left. unfold ex_ucb. rewrite A1. destruct xs; [congruence|reflexivity]. }
    exists (ex_ucb p g). split; [exact Cu|]. exists ex_grid. split; [vm_compute; reflexivity|].
    destruct xs as [|x0 xs'].
    { unfold ex_acq, ex_ucb. rewrite A1. vm_compute. reflexivity. }
    destruct (Dp _ _ Hd) as (P1 & P2). assert (Hn : (0 < length (x0 :: xs') <= 1000)%nat) by (split; [cbn; lia|exact Le]).
    destruct (step_facts best_exp 4 2 f1 ex_noise p ex_m mf 1 (1 / 2) 4 7 HS (x0 :: xs') (firsts ys) g HL Hn P1 P2) as (HU & _ & HG & _ & _ & Hr & Dm & _).
    assert (Cu' := Cu ltac:(discriminate)). unfold computes_ucb, gp_query in Cu'. rewrite A1 in Cu'.
    destruct (C74_ucb best_exp 4 2 f1 ex_noise p (length (x0 :: xs')) (ptsf (x0 :: xs')) ex_m (fg_L g) (residual (firsts ys) (fg_mean g)) (fg_a g) f1 (fg_mean g) (1 / 2) 4 7 (ex_ucb p g)
      HU Hm HG Hr D1 ltac:(lra) Dm ltac:(lra) Hsc ltac:(lia) ltac:(lia) ltac:(cbn; lia) Cu') as (B & _ & gr & q & G1 & G2 & _).
    unfold ex_acq. change ex_grid with (match grid_search_xs 7 4 with Some g => g | None => [] end). rewrite G1, G2. reflexivity.
  - intros w g c xs ys HL Le Hd. destruct (Life xs ys g HL Le Hd) as (A1 & A2 & A3).
    assert (Hq : forall v, point 2 v -> gp_query best_exp 4 f1 ex_noise p ex_m g v (muF best_exp f1 ex_noise p g v) (sigmaF best_exp f1 ex_noise p g v)).
    { intros v Pv. apply queryF_ok with 2%nat; auto. rewrite A1. exact (Nat.le_lt_trans _ _ _ Le M1000). }
    set (rw := map (muF best_exp f1 ex_noise p g) (fg_xs g)).
    assert (Hrw : List.Forall2 (fun x r => gp_mu best_exp 4 f1 ex_noise p ex_m g x r) (fg_xs g) rw).
    { unfold rw. assert (Q : List.Forall (fun x => gp_mu best_exp 4 f1 ex_noise p ex_m g x (muF best_exp f1 ex_noise p g x)) (fg_xs g)).
      { rewrite List.Forall_forall in *. intros x Ix. apply muF_ok with 2%nat; auto; [now rewrite List.Forall_forall|]. rewrite A1. exact (Nat.le_lt_trans _ _ _ Le M1000). }
      clear - Q. induction Q; cbn; constructor; auto. }
    assert (Cf : xs <> [] -> forall v, point 2 v -> exists mu sigma_sq, gp_query best_exp 4 f1 ex_noise p ex_m g v mu sigma_sq /\ ei_of best_exp best_erfc best_pow2 f0 rw mu sigma_sq (ex_ei p g v)).
    { intros Hn v Pv. eexists _, _. split; [exact (Hq v Pv)|]. unfold ex_ei. fold rw. destruct rw as [|r0 rs]; [inversion Hrw; congruence|].
      unfold ei_of. cbv zeta. destruct (flt (fsqrt (sigmaF best_exp f1 ex_noise p g v)) cutoff || (length (r0 :: rs) <? 1)%nat); [reflexivity|].
      eexists. split; [reflexivity|]. left. reflexivity. }
    assert (Cu : xs <> [] -> computes_ei best_exp 4 2 f1 ex_noise p ex_m best_erfc best_pow2 f0 g (ex_ei p g)) by (intros Hn; exists rw; auto).
    exists (ex_ei p g). split; [exact Cu|]. exists ex_grid. split; [vm_compute; reflexivity|].
    destruct xs as [|x0 xs'].
    { unfold ex_acq, ex_ei. rewrite A1. vm_compute. reflexivity. }
    destruct (Dp _ _ Hd) as (P1 & P2). assert (Hn : (0 < length (x0 :: xs') <= 1000)%nat) by (split; [cbn; lia|exact Le]).
    destruct (step_facts best_exp 4 2 f1 ex_noise p ex_m mf 1 (1 / 2) 4 7 HS (x0 :: xs') (firsts ys) g HL Hn P1 P2) as (HU & _ & HG & _ & _ & Hr & Dm & _).
    assert (Cf' := Cf ltac:(discriminate)). unfold gp_query in Cf'. rewrite A1 in Cf'. unfold gp_mu in Hrw. rewrite A1 in Hrw.
    destruct (C74_ei best_exp best_erfc best_pow2 f0 4 2 f1 ex_noise p (length (x0 :: xs')) (ptsf (x0 :: xs')) ex_m (fg_L g) (residual (firsts ys) (fg_mean g)) (fg_a g) (fg_mean g) rw (1 / 2) 4 7 (ex_ei p g)
      HU ltac:(lra) Hm HG Hr (proj1 C73_libm_example) (proj2 C73_libm_example) D0 Dm (rewards_seq _ _ _ Hrw) ltac:(lra) Hsc ltac:(lia) ltac:(lia) ltac:(cbn; lia) Cf') as (B & _ & fb & _ & gr & q & G1 & G2 & _).
    unfold ex_acq. change ex_grid with (match grid_search_xs 7 4 with Some g => g | None => [] end). rewrite G1, G2. reflexivity.
  - intros w x v w' _ H _. injection H as <- _. eexists. split; [reflexivity|].
    destruct (flt (nth 0 x f0) fhalf); (split; [reflexivity|]; split; [reflexivity|]); rewrite ?E1, ?Eh, Rabs_pos_eq; lra.
  - split; [reflexivity|]. intros a [<-|[<-|[]]]; (split; [reflexivity|]; split; [reflexivity|]); rewrite Eh, Rabs_pos_eq; lra.
  - intros a. unfold ex_run. set (mc := fun (_ : unit) (_ : fgp) xs ys => _). set (ma := fun (_ : unit) g x y => _).
    assert (Fin : forall x, is_nan_or_inf [if flt (nth 0 x f0) fhalf then f1 else fhalf] = false) by (intros x; destruct (flt (nth 0 x f0) fhalf); reflexivity).
    assert (Ev : forall (s : bo unit fgp unit) x, exists y, eval_and_add ex_obj s x = Ret (push (log (set_world s tt) (EvEval x (inl y))) x y)).
    { intros s x. eexists. unfold eval_and_add, ex_obj, add_new_sample. rewrite Fin. reflexivity. }
    set (mh := fun (_ : unit) (g : fgp) => (g, tt)).
    assert (Step : forall (s : bo unit fgp unit) c fl, cur s = Some c -> (c < 2)%Z ->
      exists s' X Y g q, loop ex_obj ma mh (ex_acq a) (-1) [max_iterations 2] (S fl) s = loop ex_obj ma mh (ex_acq a) (-1) [max_iterations 2] fl s' /\
        cur s' = Some (c + 1)%Z /\ length (samples s') = S (length (samples s)) /\ In (EvAcq X Y g c q) (trace s') /\ X = samples s /\ incl (trace s) (trace s')).
    { intros s c fl Hc Lt. cbn [loop]. rewrite Hc. cbn [stop_now chain max_iterations crit_op crit_val]. unfold stop_now. cbn [chain max_iterations crit_op crit_val]. rewrite Hc.
      destruct (Z.leb_spec 2 c) as [H|_]; [exfalso; lia|]. unfold iteration, ex_acq at 1.
      match goal with |- context [eval_and_add ex_obj ?s ?x] => destruct (Ev s x) as (y & ->) end. cbn [Z.ltb Z.compare andb ma fst].
      eexists _, _, _, _, _. split; [reflexivity|]. cbn [cur samples trace set_tot set_cur set_model set_world log push observations world model].
      split; [reflexivity|]. split; [rewrite app_length; cbn; lia|]. split; [rewrite !in_app_iff; cbn [In]; left; left; right; left; reflexivity|]. split; [reflexivity|].
      intros e He. rewrite !in_app_iff. tauto. }
    cbn [run_ops run_op]. unfold optimize, init_phase. cbn [run_init Z.eqb tot log set_tot set_cur clear_data new_bo].
    match goal with |- context [eval_and_add ex_obj ?s ?x] => destruct (Ev s x) as (y0 & ->) end. cbn [observations push app log set_world samples mc world model].
    match goal with |- context [loop _ _ _ _ _ _ 3 ?s] => set (s0 := s) end.
    destruct (Step s0 0%Z 2%nat eq_refl ltac:(lia)) as (s1 & X0 & Y0 & g0 & q0 & -> & C1 & L1 & _ & _ & _).
    destruct (Step s1 (0 + 1)%Z 1%nat C1 ltac:(lia)) as (s2 & X1 & Y1 & g1 & q1 & -> & C2 & L2 & I2 & EX & _).
    exists (log (set_world s2 tt) (EvStop (samples s2) (observations s2) (model s2) 2 true)), X1, Y1, g1, q1. split; [|split].
    + cbn [loop]. rewrite C2. unfold stop_now. cbn [chain max_iterations crit_op crit_val]. rewrite C2. cbn. destruct (world s2). reflexivity.
    + cbn [trace log set_world]. apply in_or_app. left. exact I2.
    + subst X1. rewrite L1. reflexivity.
Qed.
