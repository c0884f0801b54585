(** C84: UCB whose alpha is small compared with the objective can stay at its first sample for ever: the norm
    hypothesis of C78 cannot be dropped, and the default alpha = 0.5 does not suffice for every objective. *)
From Coq Require Import ZArith List Bool Lia Permutation Reals Lra.
From Coq Require Import Floats.SpecFloat.
From Flocq Require Import Core IEEE754.BinarySingleNaN.
From Verif Require Import F64 F64R AdamFloat OptFloat OptModel OptSpec Prop_Opt FpModel FpErr LinAlgModel LinAlg FpAlg FpChol FpSolve FpGp FpFin Prop_Fp.
From Verif Require Import KernelModel KernelFacts FpKerModel FpKer FpKer2 Prop_FpKer FpAcqModel FpAcq Prop_FpAcq FpLip Prop_Next FpMeanModel FpHpModel FpLife FpImpl Prop_FpMean.
From Verif Require Import FpLikModel Prop_FpLik InitModel InitFacts BOModel BOSpec BOFacts Prop_BO BORun BOCount BOLater FpBand Prop_BoFp Prop_Conv Prop_Any Prop_Hp.
Import ListNotations.
Open Scope R_scope.

(** ** Runs with at least one initial sample *)
(** as [run_inv], but nothing has to be known of the acquisition optimizer on a model without data: with an
    initial sample it is never asked *)
Section Nonempty.
  Local Open Scope Z_scope.
  Context {W M E : Type}.
  Variable sfun : W -> F64.vec -> (F64.vec + E) * W.
  Variable m_fresh : M.
  Variable m_compute : W -> M -> list F64.vec -> list F64.vec -> M * W.
  Variable m_add : W -> M -> F64.vec -> F64.vec -> M * W.
  Variable m_hp : W -> M -> M * W.
  Variable acq : W -> M -> Z -> F64.vec * W.
  Variable init_n : nat.
  Variable init_pt : nat -> W -> F64.vec * W.
  Variable hp_period : Z.
  Notation st := (bo W M E).
  Notation run_init := (run_init sfun init_pt).
  Notation init_phase := (init_phase sfun init_n init_pt).
  Notation iteration := (iteration sfun m_add m_hp acq hp_period).
  Notation loop := (loop sfun m_add m_hp acq hp_period).
  Notation optimize := (optimize sfun m_fresh m_compute m_add m_hp acq init_n init_pt hp_period).
  Notation run_op := (run_op sfun m_fresh m_compute m_add m_hp acq init_n init_pt hp_period).
  Notation run_ops := (run_ops sfun m_fresh m_compute m_add m_hp acq init_n init_pt hp_period).
  Variable D : list F64.vec -> list F64.vec -> Prop.
  Variable R : list F64.vec -> list F64.vec -> M -> Prop.
  Notation fits := (fits sfun D).
  Hypothesis I_pos : (0 < init_n)%nat.
  Hypothesis D_nil : D [] [].
  Hypothesis D_len : forall xs ys, D xs ys -> length xs = length ys.
  Hypothesis R_comp : forall w m xs ys, xs <> [] -> D xs ys -> R xs ys (fst (m_compute w m xs ys)).
  Hypothesis R_add : forall w m xs ys x y, R xs ys m -> D xs ys -> D (xs ++ [x]) (ys ++ [y]) -> R (xs ++ [x]) (ys ++ [y]) (fst (m_add w m x y)).
  Hypothesis R_hp : forall w m xs ys, 0 < hp_period -> R xs ys m -> xs <> [] -> R xs ys (fst (m_hp w m)).
  Hypothesis H_acq : forall w m c xs ys, xs <> [] -> D xs ys -> R xs ys m -> fits xs ys (fst (acq w m c)).
  Hypothesis H_init : forall i w xs ys, D xs ys -> fits xs ys (fst (init_pt i w)).

  Definition NInv (s : st) : Prop := D (samples s) (observations s) /\ (tot s <> 0 -> samples s <> []).
  Definition NInvL (s : st) : Prop := NInv s /\ samples s <> [] /\ R (samples s) (observations s) (model s).

  Lemma snoc_ne {T} (l : list T) x : l ++ [x] <> [].
  Proof. destruct l; discriminate. Qed.
  Lemma n_eval s x : fits (samples s) (observations s) x -> NInv s ->
    match eval_and_add sfun s x with Ret s' => NInv s' /\ samples s' <> [] | r => r_states NInv r end.
  Proof.
    intros Hg (A & C). unfold eval_and_add. destruct (sfun (world s) x) as [[v|e] w] eqn:Es; [|exact (conj A C)].
    unfold add_new_sample. destruct (is_nan_or_inf v) eqn:Ev; cbn; [exact (conj A C)|].
    split; [|apply snoc_ne]. split; [eapply Hg; eauto|]. intros _. apply snoc_ne.
  Qed.
  Lemma n_init_run : forall k i s, NInv s -> samples s <> [] \/ (0 < k)%nat ->
    match run_init k i s with Ret s' => NInv s' /\ samples s' <> [] | r => r_states NInv r end.
  Proof.
    induction k as [|k IH]; intros i s H Hk; cbn [BOModel.run_init]; [destruct Hk as [Hk|Hk]; [auto|lia]|]. pose proof (H_init i (world s) _ _ (proj1 H)) as Hg.
    destruct (init_pt i (world s)) as [x w]. cbn [fst] in Hg. pose proof (n_eval (set_world s w) x Hg H) as He.
    destruct (eval_and_add _ _ x) as [s'| | |]; auto. apply IH; [apply He|left; apply He].
  Qed.
  Lemma n_init reset s : NInv s -> match init_phase reset s with Ret s' => NInv s' /\ samples s' <> [] | r => r_states NInv r end.
  Proof.
    intros (A & C). unfold BOModel.init_phase. set (s2 := if reset then _ else _).
    assert (H2 : NInv s2). { unfold s2. destruct reset; split; cbn; auto. }
    destruct (Z.eqb_spec (tot s2) 0) as [Z0|NZ]; [|split; [exact H2|now apply H2]]. apply n_init_run; [exact H2|right; exact I_pos].
  Qed.
  Lemma n_iter c s : NInvL s -> match iteration c s with Ret s' => NInvL s' | r => r_states NInv r end.
  Proof.
    intros ((A & C) & Ne & B). destruct (iteration_spec sfun m_add m_hp acq hp_period c s) as (x & w1 & r & w2 & Ea & Es & H).
    cbv zeta in H. pose proof (H_acq (world s) (model s) c _ _ Ne A B) as Hg. rewrite Ea in Hg. cbn [fst] in Hg.
    destruct H as [(v & m & w3 & m' & w4 & trhp & -> & Hfin & Em & Eh & ->)|(_ & ->)]; [|exact (conj A C)].
    assert (A' : D (samples s ++ [x]) (observations s ++ [v])).
    { eapply Hg; eauto. rewrite forallb_finite in Hfin. destruct (is_nan_or_inf v); [discriminate|reflexivity]. }
    assert (Dm : R (samples s ++ [x]) (observations s ++ [v]) m). { pose proof (R_add w2 (model s) _ _ x v B A A') as H. rewrite Em in H. exact H. }
    assert (Dm' : R (samples s ++ [x]) (observations s ++ [v]) m').
    { destruct ((0 <? hp_period) && ((c + 1) mod hp_period =? 0)) eqn:Ehp.
      - destruct Eh as [Eh ->]. apply andb_prop in Ehp. destruct Ehp as [Ehp _]. apply Z.ltb_lt in Ehp.
        pose proof (R_hp w3 m _ _ Ehp Dm) as H. rewrite Eh in H. apply H. apply snoc_ne.
      - destruct Eh as (-> & _ & ->). exact Dm. }
    split; [split; [exact A'|intros _; apply snoc_ne]|]. split; [apply snoc_ne|exact Dm'].
  Qed.
  Lemma n_loop cs : forall fuel s, NInvL s -> r_states NInv (loop cs fuel s).
  Proof.
    induction fuel as [|fuel IH]; intros s H; cbn [BOModel.loop]; [exact (proj1 H)|].
    destruct (cur s) as [c|]; [|exact I]. destruct (stop_now cs s) as [b w]. set (s0 := log _ _).
    assert (H0 : NInvL s0) by exact H.
    destruct b; [exact (proj1 H0)|]. pose proof (n_iter c s0 H0) as Hi. destruct (iteration c s0); auto.
  Qed.
  Lemma n_optimize cs fuel reset s : NInv s -> r_states NInv (optimize cs fuel reset s).
  Proof.
    intro H. unfold BOModel.optimize. pose proof (n_init reset s H) as Hi. destruct (init_phase reset s) as [s1| | |]; auto.
    destruct Hi as ((A & C) & Ne). pose proof (D_len _ _ A) as Ln. apply n_loop. destruct (observations s1) as [|o os] eqn:Eo.
    - exfalso. apply Ne. destruct (samples s1); [reflexivity|discriminate].
    - rewrite <- Eo in *. pose proof (R_comp (world s1) (model s1) (samples s1) (observations s1) Ne A) as Hr.
      destruct (m_compute (world s1) (model s1) (samples s1) (observations s1)) as [m w]. cbn [fst] in Hr.
      split; [exact (conj A C)|]. split; [exact Ne|exact Hr].
  Qed.
  Theorem run_inv_ne cs os m w s : List.Forall (fit_op sfun D) os -> run_ops cs os (new_bo m w) = Some s -> D (samples s) (observations s).
  Proof.
    intros Ho Hr. assert (H : NInv (new_bo m w)) by (split; [exact D_nil|intro Q; now elim Q]). cut (NInv s); [intros X; apply X|].
    revert Hr. generalize (new_bo m w : st), H. clear H. induction Ho as [|o os Hg _ IH]; intros s0 H; cbn [BOModel.run_ops].
    - intro Hr. injection Hr as <-. exact H.
    - assert (Hs : r_states NInv (run_op cs o s0)).
      { destruct o as [reset fuel|x|x y]; cbn [BOModel.run_op fit_op] in *; [now apply n_optimize| |].
        - pose proof (n_eval s0 x (Hg _ _ (proj1 H)) H) as He. destruct (eval_and_add sfun s0 x); [apply He|exact He..].
        - destruct H as (A & C). unfold add_new_sample. destruct (is_nan_or_inf y) eqn:Ey; [exact (conj A C)|].
          split; [cbn; auto|]. intros _. apply snoc_ne. }
      destruct (run_op cs o s0); cbn [r_states] in Hs; try (now apply IH); intro Hr; [|discriminate]. injection Hr as <-. exact Hs.
  Qed.
End Nonempty.

(** ** All samples at one point *)
(** the inverse of the matrix of [n] samples at the same point: all its row sums are [1 / (n s + e)] *)
Lemma row_sums n s e A B : 0 < s -> 0 < e -> (forall i j, (i < n)%nat -> (j < n)%nat -> A i j = s + (if (i =? j)%nat then e else 0)) -> is_inv n A B ->
  forall i, (i < n)%nat -> rsum n (fun j => B i j) = / (INR n * s + e).
Proof.
  intros Ps Pe HA (I1 & _). set (u := fun i => rsum n (fun j => B i j)). set (t := rsum n u).
  assert (Eq : forall i, (i < n)%nat -> s * t + e * u i = 1).
  { intros i Hi. transitivity (rsum n (fun j => mmul n A B i j)).
    - unfold mmul. rewrite rsum_swap. unfold t. rewrite <- rsum_scal_l.
      rewrite (rsum_ext n (fun k => rsum n (fun j => A i k * B k j)) (fun k => s * u k + (if (i =? k)%nat then e * u k else 0))).
      + rewrite rsum_plus. rewrite (rsum_delta' n i (fun k => e * u k) Hi). reflexivity.
      + intros k Hk. cbv beta. rewrite rsum_scal_l. change (rsum n (B k)) with (u k). rewrite (HA i k Hi Hk). destruct (i =? k)%nat; ring.
    - rewrite (rsum_ext n _ (fun j => if (i =? j)%nat then 1 else 0)) by (intros j Hj; rewrite (I1 i j Hi Hj); reflexivity). now rewrite (rsum_delta' n i (fun _ => 1) Hi). }
  intros i Hi. change (u i = / (INR n * s + e)). assert (N0 : 0 <= INR n * s) by (apply Rmult_le_pos; [apply pos_INR|lra]).
  assert (Et : t = INR n * u i).
  { unfold t. rewrite <- rsum_const. apply rsum_ext. intros k Hk. pose proof (Eq i Hi). pose proof (Eq k Hk). apply Rmult_eq_reg_l with e; lra. }
  pose proof (Eq i Hi) as E1. rewrite Et in E1. apply Rmult_eq_reg_r with (INR n * s + e); [|lra]. rewrite Rinv_l by lra. lra.
Qed.

(** the loss of accuracy of the comparison of two values of UCB, with observations of magnitude [Y] above the prior mean *)
Definition stuck_err (alpha sf2 noise : F) (m : nat) (M Y : R) : R :=
  2 * (7 / 10 ^ 6 * (Y / fval sf2 + shift noise 1000 m M) + 2 / 10 ^ 12 * (1 + (M + centre m M)) + 11 / 10 ^ 7 * fval alpha / sqrt (var_floor sf2 noise 1000))
  + 2 * (centre m M + fval sf2 * shift noise 1000 m M).
(** [x0] beats every other point of the grid *)
Definition stuck_at (alpha sf2 noise : F) (p : kpar) (d m : nat) (M Y : R) (grid : list F) (x0 : fpt) : Prop :=
  0 <= Y /\ on_grid grid d x0 /\ exists kap, 0 <= kap <= fval sf2 /\ (forall q, on_grid grid d q -> q <> x0 -> exact sf2 p x0 q <= kap) /\
  fval alpha * sqrt (fval sf2) + stuck_err alpha sf2 noise m M Y < Y * (fval sf2 - kap) / (fval sf2 + nugget noise).

Section Stuck.
  Variables (fexp : F -> F) (mk d : nat) (sf2 noise : F) (p : kpar) (m : nat) (mf : meanf) (M lam : R) (bins : Z) (fuel : nat).
  Hypothesis HS : setting_ok fexp mk d sf2 noise p m mf M lam bins fuel.
  Variables (x0 : fpt) (y0 : F) (xs : list fpt) (ys : list F) (g : fgp).
  Hypothesis HL : gp_life fexp mk sf2 noise p m mf xs ys g.
  Hypothesis Hn : (0 < length xs <= 1000)%nat.
  Hypothesis Hx : List.Forall (point d) xs.
  Hypothesis Hy : List.Forall (dbl M) ys.
  Hypothesis Hfix : fixed mf.
  Hypothesis X0 : forall i, (i < length xs)%nat -> ptsf xs i = x0.
  Hypothesis Y0 : forall i, (i < length xs)%nat -> nth i ys f0 = y0.
  Let n := length xs.
  Let eta := nugget noise.
  Let a := prior mf ys.
  Let Y := fval y0 - a.

  Lemma stuck_step alpha (f : fpt -> F) grid q : dbl (2 ^ 20) alpha -> 0 <= fval alpha -> stuck_at alpha sf2 noise p d m M Y grid x0 ->
    computes_ucb fexp mk d sf2 noise p m alpha g f -> grid_search_xs fuel bins = Some grid -> grid_search f grid d = GVec q -> q = x0.
  Proof.
    intros HA Pa (PY & Gx & kap & Hk0 & Hk & Hc) Hf G1 G2. destruct (C15_grid_search_best f grid d q G2) as (Q1 & _ & Q3).
    destruct (step_facts fexp mk d sf2 noise p m mf M lam bins fuel HS xs ys g HL Hn Hx Hy) as (HU & Hm & HG & E1 & E2 & Hrs & Dm & C0 & S0 & Bm & HB').
    assert (HS' := HS). destruct HS' as (HR & _ & _ & _ & _ & Hl & Hs & Hd & Hb & Hfu). unfold computes_ucb, gp_query in Hf. rewrite E1 in Hf. fold n in HU, HG, Hrs, HB', Hf, S0.
    destruct HR as (_ & _ & _ & Hs2 & S1 & Hp & _ & _ & Bn). assert (Pe : 0 < eta) by (unfold eta, nugget; lra). pose proof (param_pos sf2 Hs2) as Sp.
    destruct (C73_ucb _ _ _ _ _ _ _ _ _ _ _ _ _ HU Hm HG Hrs HA Pa) as (B & HB & HC). destruct (HB' B HB) as (W1 & W2).
    destruct (grid_near bins fuel grid Hb Hfu G1) as (N1 & _).
    assert (GP : forall v, on_grid grid d v -> point d v).
    { intros v (V1 & V2). split; auto. intros b Hb'. rewrite List.Forall_forall in V2. destruct (N1 b (V2 b Hb')) as (A1 & A2 & A3). split; auto. split; auto.
      assert (2 ^ 2 <= 2 ^ 100) by (apply Rle_pow; [lra|lia]). rewrite Rabs_pos_eq; lra. }
    pose proof (GP q Q1) as Pq. pose proof (GP x0 Gx) as Px. specialize (Q3 x0 Gx).
    destruct (vec_dec q x0) as [Eq|Ne]; [exact Eq|exfalso]. specialize (Hk q Q1 Ne).
    (* rounding *)
    fold eta in Hc. assert (In' : 0 < / eta) by now apply Rinv_0_lt_compat. assert (N1' : 1 <= INR n) by (apply (le_INR 1); unfold n; lia).
    assert (LN : INR n <= INR 1000) by (apply le_INR; exact (proj2 Hn)).
    assert (Sh : shift noise n m M <= shift noise 1000 m M). { unfold shift. apply Rmult_le_compat_r; auto. apply Rmult_le_compat_r; [|exact LN]. fold eta. lra. }
    assert (Vn : 0 < var_floor sf2 noise 1000 <= var_floor sf2 noise n).
    { unfold var_floor. fold eta. assert (P0 : 0 < fval sf2 * eta) by now apply Rmult_lt_0_compat.
      assert (R0 : 0 <= INR n * fval sf2) by (apply Rmult_le_pos; lra). assert (R2 : INR n * fval sf2 <= INR 1000 * fval sf2) by (apply Rmult_le_compat_r; lra).
      split; [apply Rmult_lt_0_compat; auto; apply Rinv_0_lt_compat; lra|]. apply Rmult_le_compat_l; [lra|]. apply Rinv_le_contravar; lra. }
    unfold stuck_err in Hc. set (sh := shift noise 1000 m M) in *. set (ce := centre m M) in *. set (N := 1000%nat) in *.
    (* the weights *)
    set (D0 := INR n * fval sf2 + eta). assert (ns0 : 0 < INR n * fval sf2) by (apply Rmult_lt_0_compat; lra). assert (PD : 0 < D0) by (unfold D0; lra).
    assert (Rs : forall i, (i < n)%nat -> rsum n (fun j => B i j) = / D0).
    { apply (row_sums n (fval sf2) eta (noisy (K_of sf2 p (ptsf xs)) (nugget noise)) B Sp Pe); auto.
      intros i j Hi Hj. unfold noisy, K_of. fold eta. rewrite (X0 i Hi), (X0 j Hj), (exact_diag d sf2 p x0 Hp Px). reflexivity. }
    assert (Rw : forall i, (i < n)%nat -> raw_weight n B ys a i = Y / D0).
    { intros i Hi. unfold raw_weight. rewrite (rsum_ext n _ (fun j => B i j * Y)) by (intros j Hj; rewrite (Y0 j Hj); reflexivity). rewrite rsum_scal_r. change (rsum n (fun j => B i j) * Y = Y / D0). rewrite (Rs i Hi). unfold Rdiv. ring. }
    assert (PYD : 0 <= Y / D0) by (apply Rmult_le_pos; [exact PY|left; now apply Rinv_0_lt_compat]).
    assert (nYD : 0 <= INR n * (Y / D0) <= Y / fval sf2).
    { split; [apply Rmult_le_pos; lra|]. apply Rmult_le_reg_r with (D0 * fval sf2); [now apply Rmult_lt_0_compat|].
      replace (INR n * (Y / D0) * (D0 * fval sf2)) with (INR n * fval sf2 * Y) by (field; lra). replace (Y / fval sf2 * (D0 * fval sf2)) with (D0 * Y) by (field; lra).
      apply Rmult_le_compat_r; [exact PY|unfold D0; lra]. }
    assert (WB : raw_weights n B ys a <= Y / fval sf2).
    { unfold raw_weights. rewrite (rsum_ext n _ (fun _ => Y / D0)) by (intros i Hi; rewrite (Rw i Hi); now apply Rabs_pos_eq). rewrite rsum_const. apply nYD. }
    assert (Rm : forall v, raw_mean sf2 p n (ptsf xs) B ys a v = a + exact sf2 p x0 v * (INR n * (Y / D0))).
    { intros v. unfold raw_mean. rewrite (rsum_ext n _ (fun _ => exact sf2 p x0 v * (Y / D0))) by (intros i Hi; rewrite (Rw i Hi), (X0 i Hi); reflexivity). rewrite rsum_const. ring. }
    fold a in W1, W2. set (Wt := Y / fval sf2 + sh) in *.
    set (Rd := 7 / 10 ^ 6 * Wt + 2 / 10 ^ 12 * (1 + (M + ce)) + 11 / 10 ^ 7 * fval alpha / sqrt (var_floor sf2 noise N)) in *.
    assert (Fl : forall v, point d v -> var_floor sf2 noise N <= post_var sf2 p n (ptsf xs) B v <= fval sf2).
    { intros u Pu. destruct (C73_variance_floor _ _ _ _ _ _ _ _ HU) as (B' & HBB & H'). pose proof (H' u Pu) as Q.
      assert (E : post_var sf2 p n (ptsf xs) B' u = post_var sf2 p n (ptsf xs) B u).
      { unfold post_var. f_equal. apply rsum_ext. intros i Hi. f_equal. apply rsum_ext. intros j Hj. now rewrite (inv_unique n _ B' B HBB HB i j Hi Hj). }
      rewrite E in Q. split; [|apply Q]. apply Rle_trans with (1 := proj2 Vn). apply Q. }
    assert (Rb : forall u, point d u -> fvalid (f u) /\ ffin (f u) /\
      Rabs (fval (f u) - (post_mean sf2 p n (ptsf xs) B (residual ys (fg_mean g)) (fg_mean g) u + fval alpha * sqrt (post_var sf2 p n (ptsf xs) B u))) <= Rd).
    { intros u Pu. destruct (Hf u Pu) as (mu & sg & Qu & Uu). destruct (HC u (fg_mean g) mu sg (f u) Pu Dm Qu Uu) as (A1 & A2 & _ & A4). split; auto. split; auto.
      apply Rle_trans with (1 := A4). unfold ucb_bound, Rd. apply Rplus_le_compat; [apply Rplus_le_compat|].
      - apply Rmult_le_compat_l; [lra|]. unfold Wt. lra.
      - apply Rmult_le_compat_l; [lra|]. lra.
      - apply Rmult_le_compat_l; [apply Rmult_le_pos; lra|]. apply (inv_sqrt_le _ _ (proj1 Vn) (proj1 (Fl u Pu))). }
    destruct (Rb x0 Px) as (V1 & F1 & U1). destruct (Rb q Pq) as (V2 & F2 & U2). apply flt_R_false in Q3; auto.
    pose proof (W2 x0 Px) as Dx. pose proof (W2 q Pq) as Dq. rewrite Rm in Dx, Dq. rewrite (exact_diag d sf2 p x0 Hp Px) in Dx.
    assert (Sf : fval sf2 * shift noise n m M <= fval sf2 * sh) by (apply Rmult_le_compat_l; lra).
    assert (Sx : 0 <= fval alpha * sqrt (post_var sf2 p n (ptsf xs) B x0)) by (apply Rmult_le_pos; [exact Pa|apply sqrt_pos]).
    assert (Sq : fval alpha * sqrt (post_var sf2 p n (ptsf xs) B q) <= fval alpha * sqrt (fval sf2)) by (apply Rmult_le_compat_l; [exact Pa|apply sqrt_le_1_alt, Fl, Pq]).
    set (z := INR n * (Y / D0)) in *.
    assert (Zq : exact sf2 p x0 q * z <= kap * z) by (apply Rmult_le_compat_r; [apply nYD|exact Hk]).
    assert (Zz : Y * (fval sf2 - kap) / (fval sf2 + eta) <= (fval sf2 - kap) * z).
    { replace (Y * (fval sf2 - kap) / (fval sf2 + eta)) with ((fval sf2 - kap) * (Y / (fval sf2 + eta))) by (field; lra). apply Rmult_le_compat_l; [lra|].
      unfold z. apply Rmult_le_reg_r with (D0 * (fval sf2 + eta)); [apply Rmult_lt_0_compat; lra|].
      replace (Y / (fval sf2 + eta) * (D0 * (fval sf2 + eta))) with (Y * D0) by (field; lra). replace (INR n * (Y / D0) * (D0 * (fval sf2 + eta))) with (Y * (INR n * (fval sf2 + eta))) by (field; lra).
      apply Rmult_le_compat_l; [exact PY|]. unfold D0. rewrite Rmult_plus_distr_l. apply Rplus_le_compat_l. rewrite <- (Rmult_1_l eta) at 1. apply Rmult_le_compat_r; lra. }
    apply Rabs_le_inv in U1, U2, Dx, Dq. clear - U1 U2 Dx Dq Sf Sx Sq Zq Zz Hc Q3. lra.
  Qed.
End Stuck.

Section Runs.
  Context {W E : Type}.
  Variables (fexp : F -> F) (mk d : nat) (sf2 noise : F) (p : kpar) (m : nat) (mf : meanf) (M lam : R) (bins : Z) (fuel : nat).
  Notation vec := F64.vec.
  Variable sfun : W -> vec -> (vec + E) * W.
  Variable m_fresh : fgp.
  Variable m_compute : W -> fgp -> list vec -> list vec -> fgp * W.
  Variable m_add : W -> fgp -> vec -> vec -> fgp * W.
  Variable m_hp : W -> fgp -> fgp * W.
  Variable acq : W -> fgp -> Z -> vec * W.
  Variable init_n : nat.
  Variable init_pt : nat -> W -> vec * W.
  Variable hp_period : Z.
  Notation run := (run_ops sfun m_fresh m_compute m_add m_hp acq init_n init_pt hp_period).
  Notation life := (gp_life fexp mk sf2 noise p m mf).
  (** the user adds no sample other than [x0] *)
  Definition op_at (x0 : vec) (y0 : F) (o : op) : Prop :=
    match o with OpOptimize _ _ => True | OpEvalAdd x => x = x0 | OpAddSample x y => x = x0 /\ y = [y0] end.

  (** A run that starts at [x0] never leaves it: the samples are all [x0], however many iterations are made,
      whatever the objective is elsewhere.  At least one initial sample is asked for. *)
  Theorem C84_stuck : forall alpha x0 y0 grid cs os g0 w s, setting_ok fexp mk d sf2 noise p m mf M lam bins fuel -> fixed mf ->
    dbl (2 ^ 20) alpha -> 0 <= fval alpha -> dbl M y0 -> grid_search_xs fuel bins = Some grid ->
    stuck_at alpha sf2 noise p d m M (fval y0 - prior mf []) grid x0 ->
    runs_gp fexp mk d sf2 noise p m mf M m_fresh m_compute m_add ->
    runs_grid fexp mk d sf2 noise p m mf M bins fuel acq (computes_ucb fexp mk d sf2 noise p m alpha) ->
    (0 < init_n)%nat ->
    (forall w v w', sfun w x0 = (inl v, w') -> v = [y0]) -> (forall i w, fst (init_pt i w) = x0) -> (hp_period <= 0)%Z ->
    List.Forall (op_at x0 y0) os -> run cs os (new_bo g0 w) = Some s -> (length (samples s) <= 1000)%nat ->
    List.Forall (fun x => x = x0) (samples s) /\ List.Forall (fun y => y = [y0]) (observations s).
  Proof.
    intros alpha x0 y0 grid cs os g0 w s HS Hfix HA Pa Dy Hgrid Hst (F1 & F2 & HC & HAd) HG HE HO HI Hhp Hops Hrun Hlen.
    set (Ok := fun (x y : vec) => x = x0 /\ y = [y0]).
    assert (HS' := HS). destruct HS' as (_ & _ & _ & _ & _ & _ & _ & _ & Hb & Hfu).
    assert (Px : point d x0).
    { destruct Hst as (_ & (Q1 & Q2) & _). destruct (grid_near bins fuel grid Hb Hfu Hgrid) as (N & _).
      split; auto. intros a Ha. rewrite List.Forall_forall in Q2. destruct (N a (Q2 a Ha)) as (A1 & A2 & A3). split; auto. split; auto.
      assert (2 ^ 2 <= 2 ^ 100) by (apply Rle_pow; [lra|lia]). rewrite Rabs_pos_eq; lra. }
    assert (HOk : forall x y, Ok x y -> datum d M x y) by (intros x y (-> & ->); split; [exact Px|]; exists y0; auto).
    assert (Fd : forall xs ys, List.Forall2 Ok xs ys -> List.Forall2 (datum d M) xs ys) by (intros xs ys H; induction H; constructor; auto).
    assert (Fit : forall xs ys x, D Ok xs ys -> ((length xs <= 1000)%nat -> x = x0) -> fits sfun (D Ok) xs ys x).
    { intros xs ys x (HD1 & HD2) Ex w1 v w2 Es Ev. destruct (Nat.leb_spec (length xs) 1000) as [Le|Gt].
      - apply D_snoc; [split; auto|]. specialize (Ex Le). subst x. split; [reflexivity|]. exact (HO w1 v w2 Es).
      - split; [rewrite !app_length; cbn; lia|]. rewrite app_length. cbn. lia. }
    set (Rm := fun (xs ys : list vec) (g : fgp) => (length xs <= 1000)%nat -> life xs (firsts ys) g).
    assert (Stay : forall w1 g c xs ys, xs <> [] -> List.Forall2 Ok xs ys -> life xs (firsts ys) g -> (length xs <= 1000)%nat -> fst (acq w1 g c) = x0).
    { intros w1 g c xs ys Hne HF HL Le. destruct (life_fields _ _ _ _ _ _ _ _ _ _ HL) as (E1 & E2 & E3 & _). destruct xs as [|x xs']; [now elim Hne|]. clear Hne.
      destruct (HG w1 g c _ ys HL Le (Fd _ _ HF)) as (f & Hf & gr & G1 & G2). rewrite Hgrid in G1. injection G1 as <-.
      destruct (datum_points d M _ _ (Fd _ _ HF)) as (P1 & P2).
      assert (Hpr : prior mf (firsts ys) = prior mf []) by (destruct mf; [reflexivity|reflexivity|destruct Hfix]).
      assert (Hi : forall i, (i < length (x :: xs'))%nat -> ptsf (x :: xs') i = x0 /\ nth i (firsts ys) f0 = y0).
      { unfold ptsf. assert (Q : forall df i, (i < length (x :: xs'))%nat -> nth i (x :: xs') df = x0 /\ nth i (firsts ys) f0 = y0); [|intros i Hi; now apply Q].
        clear - HF. intros df. induction HF as [|a b l l' (-> & ->) HF IH]; intros i Hi; [cbn in Hi; lia|].
        destruct i as [|i]; [split; reflexivity|]. cbn [length] in Hi. apply (IH i). lia. }
      apply (stuck_step fexp mk d sf2 noise p m mf M lam bins fuel HS x0 y0 (x :: xs') (firsts ys) g HL) with (alpha := alpha) (f := f) (grid := grid); auto.
      - split; [cbn; lia|exact Le].
      - intros i H. now apply Hi.
      - intros i H. now apply Hi.
      - now rewrite Hpr.
      - apply Hf. discriminate. }
    assert (Ch : D Ok (samples s) (observations s)).
    { apply (run_inv_ne sfun m_fresh m_compute m_add m_hp acq init_n init_pt hp_period (D Ok) Rm) with (cs := cs) (os := os) (m := g0) (w := w); auto.
      - split; auto.
      - intros xs ys H. apply H.
      - intros w1 g xs ys Hn (HD1 & HD2) Le. apply life_compute; auto. unfold firsts. now rewrite map_length.
      - intros w1 g xs ys x y HR (HD1 & HD2) (HD3 & HD4) Le. specialize (HD4 Le). unfold firsts. rewrite map_app. cbn [map].
        assert (Le' : (length xs < 1000)%nat) by (rewrite app_length in Le; cbn in Le; rewrite Nat.add_1_r in Le; exact Le).
        destruct (List.Forall2_app_inv_l _ _ HD4) as (y1 & y2 & Fa1 & Fa2 & Ey).
        inversion Fa2 as [|? yy ? ? Hd T]; subst. inversion T; subst. apply app_inj_tail in Ey. destruct Ey as (-> & ->).
        apply life_add with g; [apply HR, Nat.lt_le_incl, Le'|]. apply HAd with xs y1; auto. apply HR, Nat.lt_le_incl, Le'.
      - intros; lia.
      - intros w1 g c xs ys Hne HD HR. apply Fit; auto. intros Le. apply (Stay w1 g c xs ys); [exact Hne|apply HD, Le|exact (HR Le)|exact Le].
      - apply List.Forall_forall. intros o Ho. rewrite List.Forall_forall in Hops. specialize (Hops o Ho).
        destruct o as [r f|x|x y]; cbn [fit_op op_at] in *; [exact I| |].
        + intros xs ys HD. apply Fit; auto.
        + intros Ey xs ys HD. apply D_snoc; auto. }
    destruct Ch as (_ & HD). specialize (HD Hlen). clear - HD. induction HD as [|x y l l' (-> & ->) HD (I1 & I2)]; split; constructor; auto.
  Qed.
End Runs.

(** ** UCB with its default parameter *)
(** squared exponential kernel with its default parameters, zero mean, two input dimensions, UCB with the
    default alpha = 0.5 (ucb.hpp:55-59), a grid of 4 steps, an initial sample at the corner (0, 0); the objective is 64
    times the kernel around (0, 1), returned as the nearest double *)
Definition st_p : kpar := PExp f1.
Definition st_h : list (R * fpt) := [(64, [f0; f1])].
Definition st_x : F64.vec := [f0; f0].
Definition st_H : fpt -> R := objective f1 st_p (prior MNull []) st_h.
Definition st_val (x : fpt) : F := of_R (rnd (Rmin 64 (Rmax 0 (st_H x)))).
Definition st_obj (_ : unit) (x : F64.vec) : (F64.vec + unit) * unit := (inl [st_val x], tt).
Definition st_ucb (g : fgp) : fpt -> F :=
  match fg_xs g with
  | [] => fun _ => f0
  | _ => fun v => fadd (muF best_exp f1 ex_noise st_p g v) (fmul fhalf (fsqrt (sigmaF best_exp f1 ex_noise st_p g v)))
  end.
Definition st_comp (_ : unit) (_ : fgp) (xs ys : list F64.vec) : fgp * unit := (computeF best_exp f1 ex_noise st_p MNull xs (firsts ys), tt).
Definition st_add (_ : unit) (g : fgp) (x y : F64.vec) : fgp * unit := (addF best_exp f1 ex_noise st_p MNull g x (nth 0 y f0), tt).
Definition st_run := run_ops (W := unit) (M := fgp) (E := unit) st_obj ex_empty st_comp st_add (fun _ g => (g, tt)) (ex_acq st_ucb) 1 (fun _ _ => (st_x, tt)) (-1).

Lemma st_one : fval f1 = 1.
Proof. cbv -[IZR F2R bpow]; unfold F2R; simpl; lra. Qed.
Lemma st_exact x y u v : exact f1 st_p [x; y] [u; v] = exp (- (1 / 2) * ((fval x - fval u) * (fval x - fval u) + (fval y - fval v) * (fval y - fval v))).
Proof.
  unfold exact, st_p, exp_kernel. cbn [iso_new i_sf2 i_l rpt map]. rewrite st_one, Rmult_1_l. f_equal. f_equal. rewrite Rmult_1_l.
  unfold sqdist. cbn. field.
Qed.
Lemma st_grid a : In a ex_grid -> a = f0 \/ 1 / 4 <= fval a.
Proof.
  intros Ha. assert (E : ex_grid = [f0; fofZe 1 (-2); fhalf; fofZe 3 (-2); f1]) by (vm_compute; reflexivity). rewrite E in Ha.
  destruct Ha as [<-|[<-|[<-|[<-|[<-|[]]]]]]; [left; reflexivity| | | |]; right; cbv -[IZR F2R bpow Rdiv Rle]; unfold F2R; simpl; lra.
Qed.
Lemma st_corners q : In q [st_x; [f0; f1]] -> on_grid ex_grid 2 q.
Proof.
  assert (E : ex_grid = [f0; fofZe 1 (-2); fhalf; fofZe 3 (-2); f1]) by (vm_compute; reflexivity). rewrite E.
  intros [<-|[<-|[]]]; (split; [reflexivity|]); apply List.Forall_forall; intros a [<-|[<-|[]]]; cbn [In]; auto 10.
Qed.
Lemma st_H_x x : length x = 2%nat -> st_H x = 64 * exact f1 st_p [f0; f1] x.
Proof. intros _. unfold st_H, objective, st_h. cbn [lsum fst snd prior]. ring. Qed.
(** the value at the start and the maximum *)
Lemma st_start : 36 <= st_H st_x <= 128 / 3.
Proof.
  rewrite st_H_x by reflexivity. unfold st_x. rewrite st_exact. destruct f0_ok as (_ & _ & E0). rewrite E0, st_one.
  replace (- (1 / 2) * ((0 - 0) * (0 - 0) + (1 - 0) * (1 - 0))) with (- (1 / 4) + - (1 / 4)) by field. split.
  - rewrite exp_plus. pose proof (exp_ineq1_le (- (1 / 4))) as E. assert (3 / 4 * (3 / 4) <= exp (- (1 / 4)) * exp (- (1 / 4))) by (apply Rmult_le_compat; lra). lra.
  - replace (- (1 / 4) + - (1 / 4)) with (- (1 / 2)) by field. rewrite exp_Ropp. pose proof (exp_ineq1_le (1 / 2)) as E.
    assert (/ exp (1 / 2) <= / (3 / 2)) by (apply Rinv_le_contravar; lra). lra.
Qed.
Lemma st_peak : st_H [f0; f1] = 64.
Proof.
  rewrite st_H_x by reflexivity. rewrite st_exact. replace (- (1 / 2) * _) with 0 by ring. rewrite exp_0. ring.
Qed.
Lemma st_val_ok x : point 2 x -> dbl 64 (st_val x) /\ Rabs (fval (st_val x) - st_H x) <= / 2 ^ 44.
Proof.
  intros Px. destruct f0_ok as (V0 & F0 & E0). assert (B100 : 1 <= 2 ^ 100) by (apply pow_R1_Rle; lra).
  assert (Pz : point 2 [f0; f1]).
  { split; [reflexivity|]. intros a [<-|[<-|[]]]; (split; [reflexivity|]; split; [reflexivity|]); rewrite ?E0, ?st_one, Rabs_pos_eq; lra. }
  destruct (C77_example st_p MNull ltac:(cbn; auto) ltac:(cbn; auto)) as (((_ & _ & _ & HF1 & _ & HK & _) & _) & _).
  pose proof (exact_bounds 2 f1 st_p [f0; f1] x HF1 HK Pz Px) as Bx. rewrite st_one in Bx.
  assert (Hv : 0 <= st_H x <= 64) by (rewrite st_H_x by apply Px; lra).
  set (v := st_H x) in *. set (c := Rmin 64 (Rmax 0 v)). assert (Ec : c = v) by (unfold c; rewrite Rmax_right, Rmin_right by lra; reflexivity).
  assert (B0 : Rabs (rnd c) <= bp 6) by (apply rnd_abs; [lia|]; rewrite Ec, Rabs_pos_eq by lra; cbn; lra).
  destruct (of_R_val (rnd c)) as (A1 & A2).
  - apply generic_format_round; typeclasses eauto.
  - apply Rle_lt_trans with (1 := B0). apply bpow_lt. lia.
  - unfold st_val. fold v c. split.
    + split; [apply fofZe_valid|]. split; [exact A1|]. rewrite A2. apply Rle_trans with (1 := B0). cbn. lra.
    + rewrite A2, Ec. apply Rle_trans with (1 := rnd_error v). rewrite Rabs_pos_eq by lra.
      assert (uu <= bp (-52)) by (apply bp_le; lia). assert (e0 <= bp (-52)) by (apply bp_le; lia).
      assert (E : bp (-52) = / 2 ^ 52) by (rewrite <- (bp_inv 52); reflexivity). rewrite E in *. assert (uu * v <= / 2 ^ 52 * 64) by (apply Rmult_le_compat; [apply bpow_ge_0|lra|lra|lra]). lra.
Qed.
Lemma st_setting : setting_ok best_exp 4 2 f1 ex_noise st_p ex_m MNull 64 (1 / 2) 4 7.
Proof.
  destruct (C77_example st_p MNull ltac:(cbn; auto) ltac:(cbn; auto)) as (HS & _). destruct HS as (A1 & A2 & A3 & _ & _ & A6).
  split; [exact A1|]. split; [exact A2|]. split; [exact A3|]. split; [|split; [exact I|exact A6]].
  split; [lra|]. apply Rle_trans with (2 ^ 6); [lra|]. apply Rle_pow; [lra|lia].
Qed.
Lemma st_life xs ys g : gp_life best_exp 4 f1 ex_noise st_p ex_m MNull xs (firsts ys) g -> (length xs <= 1000)%nat -> List.Forall2 (datum 2 64) xs ys ->
  fg_xs g = xs /\ length (fg_ys g) = length (fg_xs g) /\ List.Forall (point 2) (fg_xs g) /\ (length (fg_xs g) < ex_m)%nat.
Proof.
  intros HL Le Hd. destruct (datum_points 2 64 _ _ Hd) as (P1 & P2). destruct st_setting as (HR & Hmk & Hm & _). assert (HK : kpar_ok 2 st_p) by apply HR.
  destruct (life_sound best_exp 4 2 f1 ex_noise st_p ex_m MNull HK Hmk xs (firsts ys) g HR Hm HL Le P1) as (A1 & A2 & A3 & _). rewrite A1, A2.
  assert (1000 < ex_m)%nat by (unfold ex_m; lia). split; auto. split; auto. split; auto. exact (Nat.le_lt_trans _ _ _ Le H).
Qed.
Lemma st_half : dbl (2 ^ 20) fhalf /\ fval fhalf = 1 / 2.
Proof.
  destruct half_val as (Vh & Fh & Eh). assert (1 <= 2 ^ 20) by (apply pow_R1_Rle; lra). split; [|exact Eh]. split; auto. split; auto. rewrite Eh, Rabs_pos_eq; lra.
Qed.
Lemma st_gp : runs_gp (W := unit) best_exp 4 2 f1 ex_noise st_p ex_m MNull 64 ex_empty st_comp st_add.
Proof.
  assert (HK : kpar_ok 2 st_p) by apply st_setting. assert (M1000 : (1000 < ex_m)%nat) by (unfold ex_m; lia).
  split; [reflexivity|]. split; [reflexivity|]. split.
  - intros w g xs ys Hn Le Hd. cbn [st_comp fst]. apply computeF_ok with 2%nat; auto; [apply (datum_points 2 64 _ _ Hd)|unfold firsts; rewrite map_length; symmetry; exact (datum_length 2 64 xs ys Hd)|].
    exact (Nat.le_trans _ _ _ Le (Nat.lt_le_incl _ _ M1000)).
  - intros w g xs ys x y HL Lt Hd (Px & _). cbn [st_add fst]. destruct (st_life xs ys g HL (Nat.lt_le_incl _ _ Lt) Hd) as (A1 & A2 & A3 & A4).
    apply addF_ok with 2%nat; auto.
Qed.
Lemma st_runs_grid : runs_grid best_exp 4 2 f1 ex_noise st_p ex_m MNull 64 4 7 (ex_acq st_ucb) (computes_ucb best_exp 4 2 f1 ex_noise st_p ex_m fhalf).
Proof.
  assert (HS := st_setting). assert (HK : kpar_ok 2 st_p) by apply HS.
  intros w g c xs ys HL Le Hd. destruct (st_life xs ys g HL Le Hd) as (A1 & A2 & A3 & A4).
  assert (Cu : xs <> [] -> computes_ucb best_exp 4 2 f1 ex_noise st_p ex_m fhalf g (st_ucb g)).
  { intros Hn v Pv. eexists _, _. split; [apply queryF_ok with 2%nat; auto|]. left. unfold st_ucb. rewrite A1. destruct xs; [congruence|reflexivity]. }
  exists (st_ucb g). split; [exact Cu|]. exists ex_grid. split; [vm_compute; reflexivity|].
  destruct xs as [|x0 xs'].
  { unfold ex_acq, st_ucb. rewrite A1. vm_compute. reflexivity. }
  destruct (datum_points 2 64 _ _ Hd) as (P1 & P2). assert (Hn : (0 < length (x0 :: xs') <= 1000)%nat) by (split; [cbn; lia|exact Le]).
  destruct (step_facts best_exp 4 2 f1 ex_noise st_p ex_m MNull 64 (1 / 2) 4 7 HS (x0 :: xs') (firsts ys) g HL Hn P1 P2) as (HU & Hm & HG & _ & _ & Hr & Dm & _).
  destruct HS as (_ & _ & _ & _ & _ & _ & Hsc & _). assert (Cu' := Cu ltac:(discriminate)). unfold computes_ucb, gp_query in Cu'. rewrite A1 in Cu'. destruct st_half as (Dh & Eh).
  destruct (C74_ucb best_exp 4 2 f1 ex_noise st_p (length (x0 :: xs')) (ptsf (x0 :: xs')) ex_m (fg_L g) (residual (firsts ys) (fg_mean g)) (fg_a g) fhalf (fg_mean g) (1 / 2) 4 7 (st_ucb g)
    HU Hm HG Hr Dh ltac:(lra) Dm ltac:(lra) Hsc ltac:(lia) ltac:(lia) ltac:(cbn; lia) Cu') as (B & _ & gr & q & G1 & G2 & _).
  unfold ex_acq. change ex_grid with (match grid_search_xs 7 4 with Some g => g | None => [] end). rewrite G1, G2. reflexivity.
Qed.
Lemma st_stuck : stuck_at fhalf f1 ex_noise st_p 2 ex_m 64 (fval (st_val st_x) - prior MNull []) ex_grid st_x.
Proof.
  destruct f0_ok as (V0 & F0 & E0). assert (B100 : 1 <= 2 ^ 100) by (apply pow_R1_Rle; lra).
  assert (Pz : point 2 st_x).
  { split; [reflexivity|]. intros a [<-|[<-|[]]]; (split; [reflexivity|]; split; [reflexivity|]); rewrite E0, Rabs_pos_eq; lra. }
  destruct (st_val_ok st_x Pz) as (_ & Dv). pose proof st_start as Sv. assert (I44 : / 2 ^ 44 <= / 2) by (apply Rinv_le_contravar; lra). apply Rabs_le_inv in Dv.
  cbn [prior]. set (Y := fval (st_val st_x) - 0). assert (HY : 35 <= Y <= 44) by (unfold Y; lra).
  assert (En : 99 / 10000 <= fval ex_noise <= 101 / 10000) by (cbv -[IZR F2R bpow Rdiv Rle]; unfold F2R; simpl; lra).
  assert (Nu : 99 / 10000 <= nugget ex_noise <= 102 / 10000) by (unfold nugget; lra).
  split; [lra|]. split; [apply st_corners; left; reflexivity|].
  exists (32 / 33). rewrite st_one. split; [lra|]. split.
  - intros q (Lq & Gq) Nq. destruct q as [|a [|b [|? ?]]]; [clear - Lq; discriminate Lq|clear - Lq; discriminate Lq| |clear - Lq; discriminate Lq].
    rewrite List.Forall_forall in Gq. pose proof (Gq a (or_introl eq_refl)) as Ga. pose proof (Gq b (or_intror (or_introl eq_refl))) as Gb. clear Gq.
    unfold st_x. rewrite st_exact, E0.
    assert (Ds : / 16 <= (0 - fval a) * (0 - fval a) + (0 - fval b) * (0 - fval b)).
    { assert (Sq : forall z, 1 / 4 <= z -> / 16 <= (0 - z) * (0 - z)) by (intros z Hz; replace ((0 - z) * (0 - z)) with (z * z) by ring; replace (/ 16) with (1 / 4 * (1 / 4)) by field; apply Rmult_le_compat; lra).
      assert (S0 : forall z, 0 <= (0 - z) * (0 - z)) by (intros z; apply Rle_0_sqr).
      pose proof (S0 (fval a)). pose proof (S0 (fval b)).
      destruct (st_grid a Ga) as [Ea|Ha]; [destruct (st_grid b Gb) as [Eb|Hb]; [exfalso; apply Nq; unfold st_x; rewrite Ea, Eb; reflexivity|]|]; clear Ga Gb Nq.
      - pose proof (Sq _ Hb); lra.
      - pose proof (Sq _ Ha); lra. }
    set (z := (0 - fval a) * (0 - fval a) + (0 - fval b) * (0 - fval b)) in *. replace (- (1 / 2) * z) with (- (z / 2)) by field. rewrite exp_Ropp.
    pose proof (exp_ineq1_le (z / 2)) as E. replace (32 / 33) with (/ (33 / 32)) by field. apply Rinv_le_contravar; lra.
  - destruct st_half as (_ & Eh). unfold stuck_err. rewrite st_one, Eh, sqrt_1.
    assert (N6 : INR 1000 = 1000) by (rewrite INR_IZR_INZ; apply IZR_eq; reflexivity).
    assert (Im : INR ex_m = 2000) by (unfold ex_m; rewrite INR_IZR_INZ; apply IZR_eq; reflexivity).
    assert (Ce : 0 <= centre ex_m 64 <= / 10 ^ 10).
    { unfold centre. rewrite Im. assert (I1 : 0 < / 2 ^ 1075 <= / 2 ^ 53) by (split; [apply Rinv_0_lt_compat, pow_lt; lra|apply Rinv_le_contravar; [apply pow_lt; lra|apply Rle_pow; [lra|lia]]]).
      assert (I2 : 0 < / 2 ^ 53) by (apply Rinv_0_lt_compat, pow_lt; lra). assert (I3 : 400000 * / 2 ^ 53 <= / 10 ^ 10) by lra. lra. }
    assert (Q : 1000 / nugget ex_noise <= 102000). { apply Rmult_le_reg_r with (nugget ex_noise); [lra|]. unfold Rdiv. rewrite Rmult_assoc, Rinv_l, Rmult_1_r by lra. lra. }
    assert (Q0 : 0 <= 1000 / nugget ex_noise) by (apply Rmult_le_pos; [lra|left; apply Rinv_0_lt_compat; lra]).
    assert (Sh : 0 <= shift ex_noise 1000 ex_m 64 <= / 10 ^ 4).
    { unfold shift. rewrite N6. split; [apply Rmult_le_pos; lra|]. apply Rle_trans with (102000 * / 10 ^ 10); [apply Rmult_le_compat; lra|lra]. }
    assert (S4 : 3 / 1000 <= sqrt (var_floor f1 ex_noise 1000)).
    { rewrite <- (sqrt_square (3 / 1000)) by lra. apply sqrt_le_1_alt. unfold var_floor. rewrite st_one, N6. apply Rmult_le_reg_r with (nugget ex_noise + 1000 * 1); [lra|].
      unfold Rdiv. rewrite (Rmult_assoc (1 * nugget ex_noise)), Rinv_l, Rmult_1_r by lra. lra. }
    assert (S5 : 11 / 10 ^ 7 * (1 / 2) / sqrt (var_floor f1 ex_noise 1000) <= 11 / 10 ^ 7 * (1 / 2) * 334).
    { unfold Rdiv at 1. apply Rmult_le_compat_l; [lra|]. replace 334 with (/ (/ 334)) by field. apply Rinv_le_contravar; lra. }
    assert (Rt : 9 / 10 <= Y * (1 - 32 / 33) / (1 + nugget ex_noise)).
    { apply Rmult_le_reg_r with (1 + nugget ex_noise); [lra|]. unfold Rdiv at 2. rewrite Rmult_assoc, Rinv_l, Rmult_1_r by lra. lra. }
    lra.
Qed.
Lemma st_point : point 2 st_x.
Proof.
  destruct f0_ok as (V0 & F0 & E0). assert (B100 : 1 <= 2 ^ 100) by (apply pow_R1_Rle; lra).
  split; [reflexivity|]. intros a [<-|[<-|[]]]; (split; [reflexivity|]; split; [reflexivity|]); rewrite E0, Rabs_pos_eq; lra.
Qed.
Lemma st_run_done n : exists s, st_run [max_iterations (Z.of_nat n)] [OpOptimize true (S n)] (new_bo ex_empty tt) = Some s /\
  iters (trace s) = Z.of_nat n /\ length (samples s) = S n.
Proof.
  unfold st_run. set (mh := fun (_ : unit) (g : fgp) => (g, tt)).
  assert (Fin : forall x, is_nan_or_inf [st_val x] = false).
  { intros x. assert (Fx : ffin (st_val x)).
    { unfold st_val. set (c := Rmin 64 _). assert (C : 0 <= c <= 64) by (unfold c; split; [apply Rmin_glb; [lra|apply Rmax_l]|apply Rmin_l]).
      assert (B0 : Rabs (rnd c) <= bp 6) by (apply rnd_abs; [lia|]; rewrite Rabs_pos_eq by lra; cbn; lra).
      destruct (of_R_val (rnd c)) as (A1 & _); [apply generic_format_round; typeclasses eauto|apply Rle_lt_trans with (1 := B0); apply bpow_lt; lia|exact A1]. }
    destruct (st_val x); try discriminate; reflexivity. }
  assert (Ev : forall (s : bo unit fgp unit) x, exists y, eval_and_add st_obj s x = Ret (push (log (set_world s tt) (EvEval x (inl y))) x y)).
  { intros s x. eexists. unfold eval_and_add, st_obj, add_new_sample. rewrite Fin. reflexivity. }
  set (cs := [max_iterations (Z.of_nat n)]).
  assert (Loop : forall j (s : bo unit fgp unit) c, cur s = Some c -> (c + Z.of_nat j = Z.of_nat n)%Z ->
    exists s', loop st_obj st_add mh (ex_acq st_ucb) (-1) cs (S j) s = Ret s' /\ iters (trace s') = (iters (trace s) + Z.of_nat j)%Z /\ length (samples s') = (length (samples s) + j)%nat).
  { induction j as [|j IH]; intros s c Hc Ej.
    - cbn [loop]. rewrite Hc. unfold stop_now, cs. cbn [chain max_iterations crit_op crit_val]. rewrite Hc. destruct (Z.leb_spec (Z.of_nat n) c) as [_|L]; [|exfalso; lia]. cbn.
      eexists. split; [reflexivity|]. cbn [trace samples log set_world]. unfold iters. rewrite fold_left_app. cbn. split; [lia|apply plus_n_O].
    - remember (S j) as j1 eqn:Ej1. cbn [loop]. rewrite Hc. unfold stop_now, cs. cbn [chain max_iterations crit_op crit_val]. rewrite Hc. destruct (Z.leb_spec (Z.of_nat n) c) as [L|_]; [exfalso; lia|].
      unfold iteration, ex_acq at 1.
      match goal with |- context [eval_and_add st_obj ?s ?x] => destruct (Ev s x) as (y & ->) end. cbn [Z.ltb Z.compare andb st_add fst].
      match goal with |- context [loop _ _ _ _ _ _ j1 ?s'] => destruct (IH s' (c + 1)%Z) as (s2 & E2 & I2 & L2) end; [reflexivity|lia|].
      exists s2. split; [exact E2|]. rewrite I2, L2, Ej1. cbn [cur samples trace set_tot set_cur set_model set_world log push observations world model].
      unfold iters. rewrite !fold_left_app. cbn [fold_left iters_step]. rewrite !app_length. cbn [length]. split; [lia|]. now rewrite <- Nat.add_assoc. }
  cbn [run_ops run_op]. unfold optimize, init_phase. cbn [run_init Z.eqb tot log set_tot set_cur clear_data new_bo].
  match goal with |- context [eval_and_add st_obj ?s ?x] => destruct (Ev s x) as (y0 & ->) end. cbn [observations push app log set_world samples st_comp world model].
  match goal with |- context [loop _ _ _ _ _ _ (S n) ?s] => destruct (Loop n s 0%Z eq_refl ltac:(lia)) as (s2 & -> & I2 & L2) end.
  exists s2. split; [reflexivity|]. rewrite I2, L2. split; reflexivity.
Qed.

(** the hypotheses of C84_stuck hold together *)
Example C84_example :
  setting_ok best_exp 4 2 f1 ex_noise st_p ex_m MNull 64 (1 / 2) 4 7 /\ fixed MNull /\ dbl (2 ^ 20) fhalf /\ 0 <= fval fhalf /\ dbl 64 (st_val st_x) /\
  grid_search_xs 7 4 = Some ex_grid /\ stuck_at fhalf f1 ex_noise st_p 2 ex_m 64 (fval (st_val st_x) - prior MNull []) ex_grid st_x /\
  runs_gp (W := unit) best_exp 4 2 f1 ex_noise st_p ex_m MNull 64 ex_empty st_comp st_add /\
  runs_grid best_exp 4 2 f1 ex_noise st_p ex_m MNull 64 4 7 (ex_acq st_ucb) (computes_ucb best_exp 4 2 f1 ex_noise st_p ex_m fhalf) /\
  (forall w v w', st_obj w st_x = (inl v, w') -> v = [st_val st_x]) /\
  forall n, (n <= 999)%nat -> exists s, st_run [max_iterations (Z.of_nat n)] [OpOptimize true (S n)] (new_bo ex_empty tt) = Some s /\
    iters (trace s) = Z.of_nat n /\ length (samples s) = S n.
Proof.
  destruct st_half as (Dh & Eh). split; [exact st_setting|]. split; [exact I|]. split; [exact Dh|]. split; [lra|]. split; [apply (st_val_ok st_x st_point)|].
  split; [vm_compute; reflexivity|]. split; [exact st_stuck|]. split; [exact st_gp|]. split; [exact st_runs_grid|].
  split; [intros w v w' Es; injection Es as <- _; reflexivity|]. intros n _. exact (st_run_done n).
Qed.

(** Convergence (C78) fails without its hypothesis on the norm of the objective: UCB with its default alpha
    = 0.5, everything else as in C78.  Whatever the number of iterations, every sample is more than 21 below
    the maximum 64 of the objective, which is attained at a point of the grid. *)
Theorem C84_default_alpha_refuted : exists p mf M h Lam eps grid (sfun : unit -> F64.vec -> (F64.vec + unit) * unit) m_fresh m_compute m_add m_hp acq init_pt,
  let H := objective f1 p (prior mf []) h in
  setting_ok best_exp 4 2 f1 ex_noise p ex_m mf M (1 / 2) 4 7 /\ fixed mf /\ dbl (2 ^ 20) fhalf /\ fval fhalf = 1 / 2 /\ norm_le 2 f1 p h Lam /\ 0 <= eps <= / 10 ^ 10 /\
  runs_gp best_exp 4 2 f1 ex_noise p ex_m mf M m_fresh m_compute m_add /\
  runs_grid best_exp 4 2 f1 ex_noise p ex_m mf M 4 7 acq (computes_ucb best_exp 4 2 f1 ex_noise p ex_m fhalf) /\
  objective_ok 2 sfun (measured 2 M eps H) /\ (forall i w, point 2 (fst (init_pt i w))) /\ grid_search_xs 7 4 = Some grid /\
  forall n, (n <= 999)%nat -> exists s,
    run_ops sfun m_fresh m_compute m_add m_hp acq 1 init_pt (-1) [max_iterations (Z.of_nat n)] [OpOptimize true (S n)] (new_bo m_fresh tt) = Some s /\
    iters (trace s) = Z.of_nat n /\ length (samples s) = S n /\
    exists q, on_grid grid 2 q /\ box 2 q /\ forall b, In b (samples s) -> H b + 21 <= H q.
Proof.
  destruct f0_ok as (V0 & F0 & E0). assert (B100 : 1 <= 2 ^ 100) by (apply pow_R1_Rle; lra).
  assert (Pz : point 2 [f0; f1]).
  { split; [reflexivity|]. intros a [<-|[<-|[]]]; (split; [reflexivity|]; split; [reflexivity|]); rewrite ?E0, ?st_one, Rabs_pos_eq; lra. }
  destruct C84_example as (HS & HF & Dh & Ph & Dv & Hg & Hst & HG & HQ & HO & HR). assert (HK : kpar_ok 2 st_p) by apply HS.
  exists st_p, MNull, 64, st_h, 64, (/ 2 ^ 44), ex_grid, st_obj, ex_empty, st_comp, st_add, (fun _ g => (g, tt)), (ex_acq st_ucb), (fun _ _ => (st_x, tt)). cbv zeta.
  split; [exact HS|]. split; [exact HF|]. split; [exact Dh|]. split; [apply st_half|]. split.
  { split; [intros e [<-|[]]; exact Pz|]. split; [lra|]. unfold st_h. cbn [lsum fst snd]. rewrite (exact_diag 2 f1 st_p [f0; f1] HK Pz), st_one. lra. }
  split; [split; [left; apply Rinv_0_lt_compat, pow_lt; lra|apply Rinv_le_contravar; lra]|].
  split; [exact HG|]. split; [exact HQ|]. split.
  { intros w x v w' Px Es Ev. injection Es as <- _. destruct (st_val_ok x Px) as (D1 & D2). split; [split; [exact Px|]; eexists; split; [reflexivity|exact D1]|]. exact D2. }
  split; [intros _ _; exact st_point|]. split; [exact Hg|].
  intros n Hn. destruct (HR n Hn) as (s & Hr & Hi & Hl). exists s. split; [exact Hr|]. split; [exact Hi|]. split; [exact Hl|].
  exists [f0; f1]. split; [apply st_corners; right; left; reflexivity|]. split.
  { split; [reflexivity|]. intros a [<-|[<-|[]]]; (split; [reflexivity|]; split; [reflexivity|]); rewrite ?E0, ?st_one; lra. }
  destruct (C84_stuck best_exp 4 2 f1 ex_noise st_p ex_m MNull 64 (1 / 2) 4 7 st_obj ex_empty st_comp st_add (fun _ g => (g, tt)) (ex_acq st_ucb) 1 (fun _ _ => (st_x, tt)) (-1)
    fhalf st_x (st_val st_x) ex_grid [max_iterations (Z.of_nat n)] [OpOptimize true (S n)] ex_empty tt s HS HF Dh Ph Dv Hg Hst HG HQ (le_n 1) HO (fun _ _ => eq_refl) ltac:(clear; lia) (List.Forall_cons (OpOptimize true (S n)) I (List.Forall_nil (op_at st_x (st_val st_x)))) Hr ltac:(clear - Hl Hn; rewrite Hl; apply le_n_S; exact Hn)) as (A1 & _).
  rewrite List.Forall_forall in A1. intros b Hb. rewrite (A1 b Hb). change (st_H st_x + 21 <= st_H [f0; f1]). rewrite st_peak. pose proof st_start. lra.
Qed.
Print Assumptions C84_stuck.
Print Assumptions C84_default_alpha_refuted.
