(** C78: convergence of whole optimizer runs in double precision: after enough iterations the best sample is
    nearly a global maximum of the objective. *)
From Coq Require Import ZArith List Bool Lia Permutation Reals Lra.
From Coq Require Import Floats.SpecFloat.
From Flocq Require Import Core.
From Verif Require Import F64 F64R AdamFloat OptFloat OptModel OptSpec Prop_Opt FpModel FpErr LinAlgModel LinAlg FpAlg FpChol FpSolve FpGp FpFin Prop_Fp.
From Verif Require Import KernelModel KernelFacts FpKerModel FpKer FpKer2 Prop_FpKer FpAcqModel FpAcq Prop_FpAcq FpLip Prop_Next FpMeanModel FpLife FpImpl Prop_FpMean.
From Verif Require Import FpLikModel Prop_FpLik InitModel InitFacts BOModel BOSpec BOFacts Prop_BO BORun BOCount FpBand Prop_BoFp.
Import ListNotations.
Open Scope R_scope.

(** ** Specification *)
(** the objective: a constant [a] and a combination [h = [(c_1, z_1); ...]] of kernel functions,
    [H v = a + c_1 k(z_1, v) + ...], of norm at most [Lam]: the sum of the [c_i c_j k(z_i, z_j)] is at most [Lam^2] *)
Definition objective (sf2 : F) (p : kpar) (a : R) (h : list (R * fpt)) (v : fpt) : R := a + lsum (fun e => fst e * exact sf2 p (snd e) v) h.
Definition norm_le (d : nat) (sf2 : F) (p : kpar) (h : list (R * fpt)) (Lam : R) : Prop :=
  (forall e, In e h -> point d (snd e)) /\ 0 <= Lam /\
  lsum (fun e => fst e * lsum (fun e' => fst e' * exact sf2 p (snd e') (snd e)) h) h <= Lam * Lam.
(** a sample and its observation, at most [eps] away from the objective *)
Definition measured (d : nat) (M eps : R) (H : fpt -> R) (x y : F64.vec) : Prop := datum d M x y /\ Rabs (fval (nth 0 y f0) - H x) <= eps.
(** the mean function does not depend on the data *)
Definition fixed (mf : meanf) : Prop := match mf with MData => False | _ => True end.
(** what the best of [N] samples may miss at most, when a grid point was revisited after [k] visits: the
    confidence band, the cells of the grid, and rounding *)
Definition conv_loss (alpha sf2 noise : F) (p : kpar) (N d m : nat) (M Lam : R) (bins : Z) (lam : R) (k : nat) : R :=
  let W := sqrt (INR N / nugget noise) * fval alpha + shift noise N m M in
  2 * fval alpha * sqrt (nugget noise / INR k)
  + Lam * sqrt (fval sf2) * gap p d (half_cell bins) lam
  + 2 * (7 / 10 ^ 6 * W + 2 / 10 ^ 12 * (1 + (M + centre m M)) + 11 / 10 ^ 7 * fval alpha / sqrt (var_floor sf2 noise N))
  + 2 * (centre m M + fval sf2 * shift noise N m M).

Lemma occ_rsum (xs : list fpt) q : rsum (length xs) (fun i => if (if vec_dec (ptsf xs i) q then true else false) then 1 else 0) = INR (count_occ vec_dec xs q).
Proof.
  transitivity (lsum (fun x : fpt => if (if vec_dec x q then true else false) then 1 else 0) xs); [symmetry; exact (lsum_nth (fun x : fpt => if (if vec_dec x q then true else false) then 1 else 0) xs (nth 0 xs []))|].
  induction xs as [|x xs IH]; [reflexivity|]. cbn [lsum count_occ]. rewrite IH. destruct (vec_dec x q); [rewrite S_INR; ring|ring].
Qed.

(** the objective between close points *)
Lemma objective_close d sf2 p a h Lam v w e lam : param sf2 -> kpar_ok d p -> norm_le d sf2 p h Lam -> point d v -> point d w -> near_pt e v w -> 0 <= e ->
  0 < lam -> (forall l, In l (scales p) -> lam <= fval l) ->
  objective sf2 p a h v <= objective sf2 p a h w + Lam * sqrt (fval sf2) * gap p d e lam.
Proof.
  intros Hs Hp (G & L0 & Hn) Pv Pw Hnear He Hl HL. pose proof (param_pos sf2 Hs) as Sp.
  assert (Sy : forall x y, point d x -> point d y -> exact sf2 p x y = exact sf2 p y x) by (intros x y; apply exact_sym).
  assert (Ps : forall n pts, (forall i, (i < n)%nat -> point d (pts i)) -> psd n (fun i j => exact sf2 p (pts i) (pts j))) by (intros n pts Hi; now apply exact_psd with d).
  set (c := [(1, v); (-1, w)] : list (R * fpt)). assert (Gc : inG (point d) c) by (intros x [<-|[<-|[]]]; auto).
  pose proof (ap_bound (exact sf2 p) (point d) Sy Ps h c Lam G Gc L0 Hn) as Bd.
  assert (E1 : ip (exact sf2 p) h c = ap (exact sf2 p) h v - ap (exact sf2 p) h w) by (unfold ip, c; cbn [lsum fst snd]; ring).
  assert (E2 : ip (exact sf2 p) c c = 2 * (fval sf2 - exact sf2 p v w)).
  { unfold ip, ap, c. cbn [lsum fst snd]. rewrite (Sy w v Pw Pv), !(exact_diag d sf2 p) by auto. ring. }
  pose proof (exact_close d sf2 p v w e lam Hs Hp (proj1 Pv) Hnear Hl HL) as Cl. rewrite E1, E2 in Bd.
  assert (Sq : sqrt (2 * (fval sf2 - exact sf2 p v w)) <= sqrt (fval sf2) * gap p d e lam).
  { apply Rle_trans with (1 := sqrt_le_1_alt _ _ Cl). rewrite sqrt_mult_alt by lra. apply Rmult_le_compat_l; [apply sqrt_pos|].
    unfold gap. assert (0 <= e / lam) by (apply Rmult_le_pos; [auto|left; now apply Rinv_0_lt_compat]).
    assert (0 <= slope p * INR d) by (apply Rmult_le_pos; [left; apply slope_pos|apply pos_INR]).
    rewrite sqrt_mult_alt by auto. rewrite sqrt_square by auto. lra. }
  unfold objective. change (lsum (fun e0 => fst e0 * exact sf2 p (snd e0) v) h) with (ap (exact sf2 p) h v). change (lsum (fun e0 => fst e0 * exact sf2 p (snd e0) w) h) with (ap (exact sf2 p) h w).
  assert (Lam * sqrt (2 * (fval sf2 - exact sf2 p v w)) <= Lam * (sqrt (fval sf2) * gap p d e lam)) by now apply Rmult_le_compat_l.
  apply Rabs_le_inv in Bd. lra.
Qed.

(** ** One revisit of a grid point *)
Section Step.
  Variables (fexp : F -> F) (mk d : nat) (sf2 noise : F) (p : kpar) (m : nat) (mf : meanf) (M lam : R) (bins : Z) (fuel : nat).
  Hypothesis HS : setting_ok fexp mk d sf2 noise p m mf M lam bins fuel.
  Variables (xs : list fpt) (ys : list F) (g : fgp).
  Hypothesis HL : gp_life fexp mk sf2 noise p m mf xs ys g.
  Hypothesis Hn : (0 < length xs <= 1000)%nat.
  Hypothesis Hx : List.Forall (point d) xs.
  Hypothesis Hy : List.Forall (dbl M) ys.
  Hypothesis Hfix : fixed mf.
  Variables (h : list (R * fpt)) (Lam eps : R) (alpha : F) (N : nat).
  Hypothesis Hh : norm_le d sf2 p h Lam.
  Hypothesis He : 0 <= eps.
  Let H := objective sf2 p (prior mf []) h.
  Hypothesis Hobs : forall i, (i < length xs)%nat -> Rabs (fval (nth i ys f0) - H (ptsf xs i)) <= eps.
  Hypothesis HN : (length xs <= N)%nat.
  Hypothesis HA : dbl (2 ^ 20) alpha.
  Hypothesis Hal : Lam + sqrt (INR N / nugget noise) * eps <= fval alpha.

  Let n := length xs.
  Let eta := nugget noise.

  (** the objective lies in the confidence band of the data *)
  Lemma in_band B : is_inv n (noisy (K_of sf2 p (ptsf xs)) eta) B ->
    (forall v, point d v -> Rabs (H v - raw_mean sf2 p n (ptsf xs) B ys (prior mf ys) v) <= fval alpha * sqrt (post_var sf2 p n (ptsf xs) B v)) /\
    raw_weights n B ys (prior mf ys) <= sqrt (INR N / eta) * fval alpha.
  Proof.
    intros HB. destruct HS as (HR & _). destruct HR as (_ & _ & _ & Hs & _ & Hp & _ & _ & Bn). assert (Pe : 0 < eta) by (unfold eta, nugget; lra).
    destruct Hh as (G & L0 & Hn2).
    assert (Sy : forall x y, point d x -> point d y -> exact sf2 p x y = exact sf2 p y x) by (intros x y; apply exact_sym).
    assert (Ps : forall n pts, (forall i, (i < n)%nat -> point d (pts i)) -> psd n (fun i j => exact sf2 p (pts i) (pts j))) by (intros n' pts Hi; now apply exact_psd with d).
    assert (Gp : forall i, (i < n)%nat -> point d (ptsf xs i)).
    { intros i Hi. unfold ptsf. rewrite List.Forall_forall in Hx. apply Hx. now apply nth_In. }
    assert (Pr : prior mf ys = prior mf []) by (destruct mf; [reflexivity|reflexivity|destruct Hfix]). rewrite Pr.
    set (a := prior mf []) in *. set (r := fun j => fval (nth j ys f0) - a).
    assert (Hr : forall i, (i < n)%nat -> Rabs (r i - ap (exact sf2 p) h (ptsf xs i)) <= eps).
    { intros i Hi. specialize (Hobs i Hi). unfold H, objective in Hobs. unfold r, ap. replace (fval (nth i ys f0) - a - _) with (fval (nth i ys f0) - (a + lsum (fun e => fst e * exact sf2 p (snd e) (ptsf xs i)) h)) by ring. exact Hobs. }
    assert (Mo : sqrt (INR n / eta) <= sqrt (INR N / eta)).
    { apply sqrt_le_1_alt. apply Rmult_le_compat_r; [left; now apply Rinv_0_lt_compat|]. now apply le_INR. }
    assert (Al : Lam + sqrt (INR n / eta) * eps <= fval alpha).
    { apply Rle_trans with (2 := Hal). apply Rplus_le_compat_l. now apply Rmult_le_compat_r. }
    split.
    - intros v Pv. pose proof (band_noisy (exact sf2 p) (point d) Sy Ps n (ptsf xs) B eta Gp Pe HB h v Lam r eps G Pv L0 Hn2 He Hr) as Bd.
      unfold H, objective, raw_mean. change (lsum (fun e => fst e * exact sf2 p (snd e) v) h) with (ap (exact sf2 p) h v).
      change (rsum n (fun i => exact sf2 p (ptsf xs i) v * raw_weight n B ys a i)) with (rsum n (fun i => exact sf2 p (ptsf xs i) v * rsum n (fun j => B i j * r j))).
      replace (a + _ - (a + _)) with (ap (exact sf2 p) h v - rsum n (fun i => exact sf2 p (ptsf xs i) v * rsum n (fun j => B i j * r j))) by ring.
      apply Rle_trans with (1 := Bd). apply Rmult_le_compat_r; [apply sqrt_pos|exact Al].
    - pose proof (weights_noisy (exact sf2 p) (point d) Sy Ps n (ptsf xs) B eta Gp Pe HB h Lam r eps G L0 Hn2 He Hr) as Bd.
      apply Rle_trans with (1 := Bd). apply Rmult_le_compat; auto; [apply sqrt_pos|]. apply Rplus_le_le_0_compat; auto. apply Rmult_le_pos; [apply sqrt_pos|auto].
  Qed.

  Lemma step_regret (f : fpt -> F) q k : computes_ucb fexp mk d sf2 noise p m alpha g f ->
    (exists grid, grid_search_xs fuel bins = Some grid /\ grid_search f grid d = GVec q) -> (1 <= k <= count_occ vec_dec xs q)%nat ->
    forall w, box d w -> H w <= H q + conv_loss alpha sf2 noise p N d m M Lam bins lam k.
  Proof.
    intros Hf (grid & G1 & G2) Hk w Hw.
    assert (Pa : 0 <= fval alpha). { apply Rle_trans with (2 := Hal). apply Rplus_le_le_0_compat; [apply Hh|]. apply Rmult_le_pos; [apply sqrt_pos|auto]. }
    destruct (step_facts fexp mk d sf2 noise p m mf M lam bins fuel HS xs ys g HL Hn Hx Hy) as (HU & Hm & HG & E1 & E2 & Hr & Dm & C0 & S0 & Bm & HB').
    assert (HS' := HS). destruct HS' as (HR & _ & _ & _ & _ & Hl & Hs & Hd & Hb & Hfu). unfold computes_ucb, gp_query in Hf. rewrite E1 in Hf. fold n in HU, HG, Hr, HB', Hf, S0.
    destruct HR as (_ & _ & _ & Hs2 & S1 & Hp & _ & _ & Bn). assert (Pe : 0 < eta) by (unfold eta, nugget; lra). pose proof (param_pos sf2 Hs2) as Sp.
    destruct (C73_ucb _ _ _ _ _ _ _ _ _ _ _ _ _ HU Hm HG Hr HA Pa) as (B & HB & HC). destruct (in_band B HB) as (Band & WB). destruct (HB' B HB) as (W1 & W2).
    destruct (grid_near bins fuel grid Hb Hfu G1) as (N1 & N2). destruct (C15_grid_search_best f grid d q G2) as (Q1 & _ & Q3).
    assert (GP : forall v, on_grid grid d v -> point d v).
    { intros v (V1 & V2). split; auto. intros a Ha. rewrite List.Forall_forall in V2. destruct (N1 a (V2 a Ha)) as (A1 & A2 & A3). split; auto. split; auto.
      assert (2 ^ 2 <= 2 ^ 100) by (apply Rle_pow; [lra|lia]). rewrite Rabs_pos_eq; lra. }
    pose proof (GP q Q1) as Pq. destruct (N2 w d Hw) as (v & Gv & Nv). pose proof (GP v Gv) as Pv.
    assert (Hc0 : 0 <= half_cell bins). { unfold half_cell. assert (1 <= IZR bins) by (apply IZR_le; lia). assert (0 < / (2 * IZR bins)) by (apply Rinv_0_lt_compat; lra). lra. }
    pose proof (objective_close d sf2 p (prior mf []) h Lam w v (half_cell bins) lam Hs2 Hp Hh (box_point d w Hw) Pv Nv Hc0 Hl Hs) as T1. fold H in T1.
    (* rounding *)
    assert (In : 0 < / eta) by now apply Rinv_0_lt_compat. pose proof (le_INR _ _ HN) as LN. fold n in LN. assert (Nn : 0 <= INR n) by apply pos_INR.
    assert (Sh : shift noise n m M <= shift noise N m M). { unfold shift. apply Rmult_le_compat_r; auto. apply Rmult_le_compat_r; [|exact LN]. fold eta. lra. }
    set (sh := shift noise N m M) in *. set (ce := centre m M) in *.
    set (W := sqrt (INR N / eta) * fval alpha + sh).
    assert (Vn : 0 < var_floor sf2 noise N <= var_floor sf2 noise n).
    { unfold var_floor. fold eta. assert (P0 : 0 < fval sf2 * eta) by now apply Rmult_lt_0_compat.
      assert (Q0 : 0 <= INR n * fval sf2) by (apply Rmult_le_pos; lra). assert (Q2 : INR n * fval sf2 <= INR N * fval sf2) by (apply Rmult_le_compat_r; lra).
      split; [apply Rmult_lt_0_compat; auto; apply Rinv_0_lt_compat; lra|]. apply Rmult_le_compat_l; [lra|]. apply Rinv_le_contravar; lra. }
    set (Rd := 7 / 10 ^ 6 * W + 2 / 10 ^ 12 * (1 + (M + ce)) + 11 / 10 ^ 7 * fval alpha / sqrt (var_floor sf2 noise N)).
    assert (Fl : forall v, point d v -> var_floor sf2 noise N <= post_var sf2 p n (ptsf xs) B v).
    { intros u Pu. destruct (C73_variance_floor _ _ _ _ _ _ _ _ HU) as (B' & HBB & H'). pose proof (H' u Pu) as Q.
      assert (E : post_var sf2 p n (ptsf xs) B' u = post_var sf2 p n (ptsf xs) B u).
      { unfold post_var. f_equal. apply rsum_ext. intros i Hi. f_equal. apply rsum_ext. intros j Hj. now rewrite (inv_unique n _ B' B HBB HB i j Hi Hj). }
      rewrite E in Q. apply Rle_trans with (1 := proj2 Vn). apply Q. }
    assert (Rb : forall u, point d u -> fvalid (f u) /\ ffin (f u) /\
      Rabs (fval (f u) - (post_mean sf2 p n (ptsf xs) B (residual ys (fg_mean g)) (fg_mean g) u + fval alpha * sqrt (post_var sf2 p n (ptsf xs) B u))) <= Rd).
    { intros u Pu. destruct (Hf u Pu) as (mu & sg & Qu & Uu). destruct (HC u (fg_mean g) mu sg (f u) Pu Dm Qu Uu) as (A1 & A2 & _ & A4). split; auto. split; auto.
      apply Rle_trans with (1 := A4). unfold ucb_bound, Rd. apply Rplus_le_compat; [apply Rplus_le_compat|].
      - apply Rmult_le_compat_l; [lra|]. unfold W. lra.
      - apply Rmult_le_compat_l; [lra|]. lra.
      - apply Rmult_le_compat_l; [apply Rmult_le_pos; lra|]. apply (inv_sqrt_le _ _ (proj1 Vn) (Fl u Pu)). }
    destruct (Rb v Pv) as (V1 & F1 & U1). destruct (Rb q Pq) as (V2 & F2 & U2).
    pose proof (Q3 v Gv) as Le. apply flt_R_false in Le; auto.
    pose proof (Band v Pv) as Bv. pose proof (Band q Pq) as Bq. pose proof (W2 v Pv) as Dv. pose proof (W2 q Pq) as Dq.
    assert (Sf : fval sf2 * shift noise n m M <= fval sf2 * sh) by (apply Rmult_le_compat_l; lra).
    (* the variance at the sample *)
    assert (Vq : post_var sf2 p n (ptsf xs) B q <= eta / INR k).
    { assert (Sy : forall x y, point d x -> point d y -> exact sf2 p x y = exact sf2 p y x) by (intros x y; apply exact_sym).
      assert (Ps : forall n pts, (forall i, (i < n)%nat -> point d (pts i)) -> psd n (fun i j => exact sf2 p (pts i) (pts j))) by (intros n' pts Hi; now apply exact_psd with d).
      assert (Gp : forall i, (i < n)%nat -> point d (ptsf xs i)).
      { intros i Hi. unfold ptsf. rewrite List.Forall_forall in Hx. apply Hx. now apply nth_In. }
      set (c := count_occ vec_dec xs q) in *.
      pose proof (pvar_repeat (exact sf2 p) (point d) Sy Ps n (ptsf xs) B eta Gp Pe HB q (fun i => if vec_dec (ptsf xs i) q then true else false) c ltac:(lia) Pq (occ_rsum xs q)) as PV.
      apply Rle_trans with (eta / INR c).
      - apply PV. intros i Hi. destruct (vec_dec (ptsf xs i) q) as [E|E]; [auto|discriminate].
      - apply Rmult_le_compat_l; [lra|]. apply Rinv_le_contravar; [apply lt_0_INR; lia|apply le_INR; lia]. }
    pose proof (sqrt_le_1_alt _ _ Vq) as Sq.
    assert (Aq : fval alpha * sqrt (post_var sf2 p n (ptsf xs) B q) <= fval alpha * sqrt (eta / INR k)) by now apply Rmult_le_compat_l.
    apply Rabs_le_inv in U1, U2, Bv, Bq, Dv, Dq. unfold conv_loss. fold eta sh ce W Rd. lra.
  Qed.
End Step.

(** ** Runs *)
Section Runs.
  Context {W E : Type}.
  Variables (fexp : F -> F) (mk d : nat) (sf2 noise : F) (p : kpar) (m : nat) (mf : meanf) (M lam : R) (bins : Z) (fuel : nat).
  Notation vec := F64.vec.
  Variable sfun : W -> vec -> (vec + E) * W.
  Variable m_fresh : fgp.
  Variable m_compute : W -> fgp -> list vec -> list vec -> fgp * W.
  Variable m_add : W -> fgp -> vec -> vec -> fgp * W.
  Variable m_hp : W -> fgp -> fgp * W.
  Variable acq : W -> fgp -> Z -> vec * W.
  Variable init_n : nat.
  Variable init_pt : nat -> W -> vec * W.
  Variable hp_period : Z.
  Notation run := (run_ops sfun m_fresh m_compute m_add m_hp acq init_n init_pt hp_period).

  (** After more than [k] times as many iterations as grid points, [best_sample()] is a global maximum of the
      objective up to [conv_loss]. *)
  Theorem C78_converges : forall alpha h Lam eps cs os g0 w s grid k,
    setting_ok fexp mk d sf2 noise p m mf M lam bins fuel -> fixed mf -> dbl (2 ^ 20) alpha ->
    let H := objective sf2 p (prior mf []) h in
    norm_le d sf2 p h Lam -> 0 <= eps ->
    runs_gp fexp mk d sf2 noise p m mf M m_fresh m_compute m_add -> runs_grid fexp mk d sf2 noise p m mf M bins fuel acq (computes_ucb fexp mk d sf2 noise p m alpha) ->
    objective_ok d sfun (measured d M eps H) -> (forall i w, point d (fst (init_pt i w))) -> (hp_period <= 0)%Z ->
    List.Forall (op_ok d (measured d M eps H)) os ->
    run cs os (new_bo g0 w) = Some s -> (length (samples s) <= 1000)%nat ->
    Lam + sqrt (INR (length (samples s)) / nugget noise) * eps <= fval alpha ->
    grid_search_xs fuel bins = Some grid -> (1 <= k)%nat -> (Z.of_nat (k * length grid ^ d) < iters (trace s))%Z ->
    exists b, best_sample (fun y => nth 0 y f0) s = Some b /\ In b (samples s) /\
      forall w, box d w -> H w <= H b + conv_loss alpha sf2 noise p (length (samples s)) d m M Lam bins lam k + 2 * eps.
  Proof.
    intros alpha h Lam eps cs os g0 w s grid k HS Hfix HA H Hh He HG HQ HO HI Hhp Hops Hrun Hlen Hal Hgrid Hk Hit.
    assert (HS' := HS). destruct HS' as (_ & _ & _ & _ & _ & _ & _ & Hd & Hb & Hfu).
    set (Ok := measured d M eps H) in *. assert (HOk : forall x y, Ok x y -> datum d M x y) by (intros x y O; apply O).
    destruct (run_samples fexp mk d sf2 noise p m mf M bins fuel sfun m_fresh m_compute m_add m_hp acq init_n init_pt hp_period Ok _ cs os g0 w s HOk Hb Hfu HG HQ HO HI Hhp Hops Hrun) as ((DL & HD) & HS2).
    specialize (HD Hlen).
    destruct (run_counted sfun m_fresh m_compute m_add m_hp acq init_n init_pt hp_period cs os g0 w s Hrun) as (CA & CB & CC & CD).
    (* every completed iteration *)
    assert (Pick : forall xs0, In xs0 (stats (trace s)) -> exists X Y g c q f, xs0 = X ++ [q] /\ (length X <= length (samples s))%nat /\ List.Forall2 Ok X Y /\
      gp_life fexp mk sf2 noise p m mf X (firsts Y) g /\ (X <> [] -> computes_ucb fexp mk d sf2 noise p m alpha g f) /\ grid_search f grid d = GVec q /\ In (EvAcq X Y g c q) (trace s)).
    { intros xs0 Hin. destruct (CA xs0 Hin) as (r & Er). destruct (CD xs0 Hin) as (X & Y & g & c & q & -> & Ha).
      assert (Lx : (length X <= length (samples s))%nat) by (rewrite Er, !app_length; lia).
      destruct (HS2 X Y g c q Ha (Nat.le_trans _ _ _ Lx Hlen)) as (F1 & F2 & _ & f & F3 & gr & G1 & G2). rewrite Hgrid in G1. injection G1 as <-.
      exists X, Y, g, c, q, f. auto 10. }
    destruct (grid_sampling grid d) as [P|] eqn:EP; [|exfalso; clear - EP Hd; destruct d; [lia|discriminate]].
    destruct (grid_sampling_spec grid d P EP) as (P1 & _ & P3).
    assert (Hinc : incl (picks (trace s)) P).
    { intros q Hq. apply in_map_iff in Hq. destruct Hq as (xs0 & <- & Hq). destruct (Pick xs0 Hq) as (X & Y & g & c & q & f & -> & _ & _ & _ & _ & Gq & _).
      rewrite last_last. apply P1. now destruct (C15_grid_search_best f grid d q Gq) as (Q & _). }
    assert (Hl : (k * length P < length (picks (trace s)))%nat).
    { unfold picks. rewrite map_length, P3. rewrite <- stats_iters in Hit. apply Nat2Z.inj_lt in Hit. exact Hit. }
    destruct (revisit (picks (trace s)) P k Hinc Hl) as (l1 & q & l2 & El & Hocc).
    unfold picks in El. destruct (map_eq_app _ _ _ _ El) as (L1 & LL & ES & El1 & El2). destruct LL as [|xs0 L2]; [discriminate|]. cbn [map] in El2. injection El2 as Eq _.
    assert (Hin : In xs0 (stats (trace s))) by (rewrite ES; apply in_elt).
    destruct (Pick xs0 Hin) as (X & Y & g & c & q' & f & -> & Lx & FX & Lf & Fc & Gq & Ha). rewrite last_last in Eq. subst q'.
    pose proof (CC L1 _ L2 ES q) as Oc. rewrite removelast_last in Oc.
    assert (Ko : (k <= count_occ vec_dec X q)%nat) by (apply Nat.le_trans with (2 := Oc); rewrite <- El1 in Hocc; exact Hocc).
    assert (Xn : X <> []) by (intros ->; cbn in Ko; lia).
    assert (Fd : List.Forall2 (datum d M) X Y) by (clear - FX HOk; induction FX; constructor; auto).
    destruct (datum_points d M X Y Fd) as (Px & Py).
    assert (Ln : (0 < length X <= 1000)%nat) by (split; [destruct X; [congruence|cbn; lia]|exact (Nat.le_trans _ _ _ Lx Hlen)]).
    assert (Hobs : forall i, (i < length X)%nat -> Rabs (fval (nth i (firsts Y) f0) - H (ptsf X i)) <= eps).
    { assert (Q : forall dd i, (i < length X)%nat -> Rabs (fval (nth i (firsts Y) f0) - H (nth i X dd)) <= eps); [|intros i Hi; now apply Q].
      clear - FX. induction FX as [|x y X Y O _ IH]; intros dd i Hi; [cbn in Hi; lia|]. destruct i as [|i]; cbn [firsts map nth]; [apply O|]. apply IH. cbn in Hi. lia. }
    pose proof (step_regret fexp mk d sf2 noise p m mf M lam bins fuel HS X (firsts Y) g Lf Ln Px Py Hfix h Lam eps alpha (length (samples s)) Hh He Hobs Lx HA Hal
      f q k (Fc Xn) ltac:(eauto) ltac:(lia)) as Rg.
    (* the best sample *)
    assert (Iq : In q (samples s)). { destruct (CA _ Hin) as (r & ->). apply in_or_app. left. apply in_elt. }
    assert (Fo : List.Forall (fun y => dbl M (nth 0 y f0)) (observations s)).
    { clear - HD HOk. induction HD as [|x y X Y O _ IH]; constructor; auto. destruct (HOk _ _ O) as (_ & o & -> & Do). exact Do. }
    destruct (In_nth_error _ _ Iq) as (iq & Eiq).
    assert (Pair : forall i x, nth_error (samples s) i = Some x -> exists y, nth_error (observations s) i = Some y /\ Ok x y).
    { clear - HD. induction HD as [|x0 y0 X Y O _ IH]; intros i x Hi; [destruct i; discriminate|]. destruct i as [|i]; cbn in *; [injection Hi as <-; eauto|auto]. }
    destruct (Pair iq q Eiq) as (yq & Eyq & Oq).
    destruct (C08_incumbent (fun y => nth 0 y f0) s DL) as (i & o & b & Eo & Eb & _ & Bs & Max & _).
    { intros Z. rewrite Z in Eyq. destruct iq; discriminate. }
    { rewrite Forall_map. apply List.Forall_impl with (2 := Fo). intros y (_ & Fy & _). unfold notnan. destruct (nth 0 y f0); try reflexivity; discriminate. }
    exists b. split; [exact Bs|]. split; [now apply nth_error_In with i|]. intros v Hv.
    destruct (Pair i b Eb) as (ob & Eob & Ob). assert (ob = o) as -> by congruence.
    pose proof (Max yq (nth_error_In _ _ Eyq)) as Le. rewrite List.Forall_forall in Fo.
    destruct (Fo _ (nth_error_In _ _ Eo)) as (V1 & F1 & _). destruct (Fo _ (nth_error_In _ _ Eyq)) as (V2 & F2 & _).
    apply flt_R_false in Le; auto. destruct Ob as (_ & Ob). destruct Oq as (_ & Oq). apply Rabs_le_inv in Ob, Oq. specialize (Rg v Hv). fold H in Rg. lra.
  Qed.

  (** The same for any objective [T] within [del] of such a combination of kernel functions. *)
  Theorem C78_approximated : forall alpha h Lam del eps T cs os g0 w s grid k,
    setting_ok fexp mk d sf2 noise p m mf M lam bins fuel -> fixed mf -> dbl (2 ^ 20) alpha ->
    norm_le d sf2 p h Lam -> 0 <= eps -> (forall v, point d v -> Rabs (T v - objective sf2 p (prior mf []) h v) <= del) ->
    runs_gp fexp mk d sf2 noise p m mf M m_fresh m_compute m_add -> runs_grid fexp mk d sf2 noise p m mf M bins fuel acq (computes_ucb fexp mk d sf2 noise p m alpha) ->
    objective_ok d sfun (measured d M eps T) -> (forall i w, point d (fst (init_pt i w))) -> (hp_period <= 0)%Z ->
    List.Forall (op_ok d (measured d M eps T)) os ->
    run cs os (new_bo g0 w) = Some s -> (length (samples s) <= 1000)%nat ->
    Lam + sqrt (INR (length (samples s)) / nugget noise) * (eps + del) <= fval alpha ->
    grid_search_xs fuel bins = Some grid -> (1 <= k)%nat -> (Z.of_nat (k * length grid ^ d) < iters (trace s))%Z ->
    exists b, best_sample (fun y => nth 0 y f0) s = Some b /\ In b (samples s) /\
      forall w, box d w -> T w <= T b + conv_loss alpha sf2 noise p (length (samples s)) d m M Lam bins lam k + 2 * eps + 4 * del.
  Proof.
    intros alpha h Lam del eps T cs os g0 w s grid k HS Hfix HA Hh He HT HG HQ HO HI Hhp Hops Hrun Hlen Hal Hgrid Hk Hit.
    assert (D0 : 0 <= del). { apply Rle_trans with (2 := HT (fst (init_pt 0 w)) (HI 0%nat w)). apply Rabs_pos. }
    assert (Mm : forall x y, measured d M eps T x y -> measured d M (eps + del) (objective sf2 p (prior mf []) h) x y).
    { intros x y (O1 & O2). split; [exact O1|]. pose proof (HT x (proj1 O1)) as O3. apply Rabs_le_inv in O2, O3. apply Rabs_le. lra. }
    destruct (C78_converges alpha h Lam (eps + del) cs os g0 w s grid k HS Hfix HA Hh ltac:(lra) HG HQ) as (b & B1 & B2 & B3); auto.
    - intros w1 x v w2 Px Es Ev. exact (Mm x v (HO w1 x v w2 Px Es Ev)).
    - apply List.Forall_impl with (2 := Hops). intros [r f|x|x y] Ho; cbn in *; auto.
    - exists b. split; auto. split; auto. intros v Hv. specialize (B3 v Hv).
      assert (Pb : point d b).
      { assert (HS' := HS). destruct HS' as (_ & _ & _ & _ & _ & _ & _ & Hd & Hb & Hfu).
        destruct (run_samples fexp mk d sf2 noise p m mf M bins fuel sfun m_fresh m_compute m_add m_hp acq init_n init_pt hp_period (measured d M eps T) _ cs os g0 w s (fun x y O => proj1 O) Hb Hfu HG HQ HO HI Hhp Hops Hrun) as ((_ & HD) & _).
        specialize (HD Hlen). clear - HD B2. induction HD as [|x y X Y O _ IH]; [destruct B2|]. destruct B2 as [<-|B2]; auto. apply O. }
      pose proof (HT v (box_point d v Hv)) as T1. pose proof (HT b Pb) as T2. apply Rabs_le_inv in T1, T2. lra.
  Qed.
End Runs.

(** ** The hypotheses hold: the default parameters of the kernels, constant mean functions, two input
    dimensions, UCB with alpha = 1, a grid of 4 steps, an objective with its peak at a corner of the box,
    returned as the nearest double; 600 iterations, i.e. 20 and more for each grid point *)
Definition ex_h : list (R * fpt) := [(1 / 2, [f0; f1])].
Definition ex_val p mf (x : fpt) : F := of_R (rnd (Rmin 1 (Rmax 0 (objective f1 p (prior mf []) ex_h x)))).
Definition ex_obj2 p mf (_ : unit) (x : F64.vec) : (F64.vec + unit) * unit := (inl [ex_val p mf x], tt).
Definition ex_run2 p mf := run_ops (W := unit) (M := fgp) (E := unit) (ex_obj2 p mf) ex_empty
  (fun _ _ xs ys => (computeF best_exp f1 ex_noise p mf xs (firsts ys), tt)) (fun _ g x y => (addF best_exp f1 ex_noise p mf g x (nth 0 y f0), tt)) (fun _ g => (g, tt))
  (ex_acq (ex_ucb p)) 1 (fun _ _ => ([fhalf; fhalf], tt)) (-1).

Lemma ex_val_ok p mf x : dbl 1 (ex_val p mf x) /\ (0 <= objective f1 p (prior mf []) ex_h x <= 1 -> Rabs (fval (ex_val p mf x) - objective f1 p (prior mf []) ex_h x) <= / 2 ^ 50).
Proof.
  set (v := objective f1 p (prior mf []) ex_h x). set (c := Rmin 1 (Rmax 0 v)).
  assert (C : 0 <= c <= 1). { unfold c. split; [apply Rmin_glb; [lra|apply Rmax_l]|apply Rmin_l]. }
  assert (B0 : Rabs (rnd c) <= bp 0) by (apply rnd_abs; [lia|]; rewrite Rabs_pos_eq by lra; cbn; lra).
  destruct (of_R_val (rnd c)) as (A1 & A2).
  - apply generic_format_round; typeclasses eauto.
  - apply Rle_lt_trans with (1 := B0). apply bpow_lt. lia.
  - unfold ex_val. fold v c. split.
    + split; [apply fofZe_valid|]. split; [exact A1|]. rewrite A2. apply Rle_trans with (1 := B0). cbn. lra.
    + intros Hv. assert (Ec : c = v) by (unfold c; rewrite Rmax_right, Rmin_right by lra; reflexivity). rewrite A2, Ec.
      apply Rle_trans with (1 := rnd_error v). rewrite Rabs_pos_eq by lra.
      assert (uu <= bp (-52)) by (apply bp_le; lia). assert (e0 <= bp (-52)) by (apply bp_le; lia).
      assert (E : bp (-52) = / 2 ^ 52) by (rewrite <- (bp_inv 52); reflexivity). rewrite E in *. assert (uu * v <= / 2 ^ 52 * 1) by (apply Rmult_le_compat; [apply bpow_ge_0|lra|lra|lra]). lra.
Qed.

Lemma ex_run2_done p mf n : exists s, ex_run2 p mf [max_iterations (Z.of_nat n)] [OpOptimize true (S n)] (new_bo ex_empty tt) = Some s /\
  iters (trace s) = Z.of_nat n /\ length (samples s) = S n.
Proof.
  unfold ex_run2. set (mc := fun (_ : unit) (_ : fgp) xs ys => _). set (ma := fun (_ : unit) g x y => _). set (mh := fun (_ : unit) (g : fgp) => (g, tt)). set (a := ex_ucb p).
  assert (Fin : forall x, is_nan_or_inf [ex_val p mf x] = false).
  { intros x. destruct (ex_val_ok p mf x) as ((_ & Fx & _) & _). destruct (ex_val p mf x); try discriminate; reflexivity. }
  assert (Ev : forall (s : bo unit fgp unit) x, exists y, eval_and_add (ex_obj2 p mf) s x = Ret (push (log (set_world s tt) (EvEval x (inl y))) x y)).
  { intros s x. eexists. unfold eval_and_add, ex_obj2, add_new_sample. rewrite Fin. reflexivity. }
  set (cs := [max_iterations (Z.of_nat n)]).
  assert (Loop : forall j (s : bo unit fgp unit) c, cur s = Some c -> (c + Z.of_nat j = Z.of_nat n)%Z ->
    exists s', loop (ex_obj2 p mf) ma mh (ex_acq a) (-1) cs (S j) s = Ret s' /\ iters (trace s') = (iters (trace s) + Z.of_nat j)%Z /\ length (samples s') = (length (samples s) + j)%nat).
  { induction j as [|j IH]; intros s c Hc Ej.
    - cbn [loop]. rewrite Hc. unfold stop_now, cs. cbn [chain max_iterations crit_op crit_val]. rewrite Hc. destruct (Z.leb_spec (Z.of_nat n) c) as [_|L]; [|exfalso; lia]. cbn.
      eexists. split; [reflexivity|]. cbn [trace samples log set_world]. unfold iters. rewrite fold_left_app. cbn. split; [lia|apply plus_n_O].
    - remember (S j) as j1 eqn:Ej1. cbn [loop]. rewrite Hc. unfold stop_now, cs. cbn [chain max_iterations crit_op crit_val]. rewrite Hc. destruct (Z.leb_spec (Z.of_nat n) c) as [L|_]; [exfalso; lia|].
      unfold iteration, ex_acq at 1.
      match goal with |- context [eval_and_add (ex_obj2 p mf) ?s ?x] => destruct (Ev s x) as (y & ->) end. cbn [Z.ltb Z.compare andb ma fst].
      match goal with |- context [loop _ _ _ _ _ _ j1 ?s'] => destruct (IH s' (c + 1)%Z) as (s2 & E2 & I2 & L2) end; [reflexivity|lia|].
      exists s2. split; [exact E2|]. rewrite I2, L2, Ej1. cbn [cur samples trace set_tot set_cur set_model set_world log push observations world model].
      unfold iters. rewrite !fold_left_app. cbn [fold_left iters_step]. rewrite !app_length. cbn [length]. split; [lia|]. now rewrite <- Nat.add_assoc. }
  cbn [run_ops run_op]. unfold optimize, init_phase. cbn [run_init Z.eqb tot log set_tot set_cur clear_data new_bo].
  match goal with |- context [eval_and_add (ex_obj2 p mf) ?s ?x] => destruct (Ev s x) as (y0 & ->) end. cbn [observations push app log set_world samples mc world model].
  match goal with |- context [loop _ _ _ _ _ _ (S n) ?s] => destruct (Loop n s 0%Z eq_refl ltac:(lia)) as (s2 & -> & I2 & L2) end.
  exists s2. split; [reflexivity|]. rewrite I2, L2. split; reflexivity.
Qed.

Example C78_example : forall p mf, In p [PExp f1; PMatern3 f1; PMatern5 f1; PArd [f1; fofZe 1 (-1)]] -> In mf [MNull; MConst fhalf] ->
  let H := objective f1 p (prior mf []) ex_h in let n := Z.to_nat 600 in
  setting_ok best_exp 4 2 f1 ex_noise p ex_m mf 1 (1 / 2) 4 7 /\ fixed mf /\ dbl (2 ^ 20) f1 /\ norm_le 2 f1 p ex_h (1 / 2) /\
  runs_gp (W := unit) best_exp 4 2 f1 ex_noise p ex_m mf 1 ex_empty
    (fun _ _ xs ys => (computeF best_exp f1 ex_noise p mf xs (firsts ys), tt)) (fun _ g x y => (addF best_exp f1 ex_noise p mf g x (nth 0 y f0), tt)) /\
  runs_grid best_exp 4 2 f1 ex_noise p ex_m mf 1 4 7 (ex_acq (ex_ucb p)) (computes_ucb best_exp 4 2 f1 ex_noise p ex_m f1) /\
  objective_ok 2 (ex_obj2 p mf) (measured 2 1 (/ 2 ^ 50) H) /\ point 2 [fhalf; fhalf] /\
  (exists s, ex_run2 p mf [max_iterations (Z.of_nat n)] [OpOptimize true (S n)] (new_bo ex_empty tt) = Some s /\ (length (samples s) <= 1000)%nat /\
     1 / 2 + sqrt (INR (length (samples s)) / nugget ex_noise) * / 2 ^ 50 <= fval f1 /\
     grid_search_xs 7 4 = Some ex_grid /\ (Z.of_nat (20 * length ex_grid ^ 2) < iters (trace s))%Z) /\
  conv_loss f1 f1 ex_noise (PExp f1) (Z.to_nat 601) 2 ex_m 1 (1 / 2) 4 1 20 <= 3 / 20.
Proof.
  intros p mf Hp Hmf H n. assert (Hmf' : In mf [MNull; MConst fhalf; MData]) by (destruct Hmf as [<-|[<-|[]]]; cbn; auto).
  destruct (C77_example p mf Hp Hmf') as (HS & HG & HQ & _ & _ & PH & _).
  assert (E1 : fval f1 = 1) by (cbv -[IZR F2R bpow]; unfold F2R; simpl; lra). destruct half_val as (Vh & Fh & Eh). destruct f0_ok as (V0 & F0 & E0).
  assert (P20 : 1 <= 2 ^ 20) by (apply pow_R1_Rle; lra). assert (B100 : 1 <= 2 ^ 100) by (apply pow_R1_Rle; lra).
  assert (HR : kpar_ok 2 p /\ param f1) by (destruct HS as ((_ & _ & _ & A & _ & B & _) & _); auto). destruct HR as (HK & HF1).
  assert (Pz : point 2 [f0; f1]).
  { split; [reflexivity|]. intros a [<-|[<-|[]]]; (split; [reflexivity|]; split; [reflexivity|]); rewrite ?E0, ?E1, Rabs_pos_eq; lra. }
  assert (En : 99 / 10000 <= fval ex_noise <= 101 / 10000) by (cbv -[IZR F2R bpow Rdiv Rle]; unfold F2R; simpl; lra).
  assert (Pr : 0 <= prior mf [] <= 1 / 2) by (destruct Hmf as [<-|[<-|[]]]; cbn [prior]; rewrite ?Eh; lra).
  assert (Nu : 99 / 10000 <= nugget ex_noise <= 102 / 10000) by (unfold nugget; lra).
  split; [exact HS|]. split; [destruct Hmf as [<-|[<-|[]]]; exact I|]. split; [split; [reflexivity|]; split; [reflexivity|]; rewrite E1, Rabs_pos_eq; lra|].
  split.
  { split; [intros e [<-|[]]; exact Pz|]. split; [lra|]. unfold ex_h. cbn [lsum fst snd]. rewrite (exact_diag 2 f1 p [f0; f1] HK Pz), E1. lra. }
  split; [exact HG|]. split; [exact HQ|]. split.
  { intros w x v w' Px Es Ev. injection Es as <- _. destruct (ex_val_ok p mf x) as (D1 & D2). split; [split; [exact Px|]; eexists; split; [reflexivity|exact D1]|].
    cbn [nth]. apply D2. unfold objective, ex_h. cbn [lsum fst snd]. pose proof (exact_bounds 2 f1 p [f0; f1] x HF1 HK Pz Px) as Bx. rewrite E1 in Bx. lra. }
  split; [exact PH|]. split.
  { destruct (ex_run2_done p mf n) as (s & Hr & Hi & Hl). exists s. split; [exact Hr|]. rewrite Hl, Hi. unfold n. split; [lia|]. split; [|split].
    - rewrite E1. assert (Sq : sqrt (INR (S (Z.to_nat 600)) / nugget ex_noise) <= 1000).
      { rewrite <- (sqrt_square 1000) by lra. apply sqrt_le_1_alt. replace (INR (S (Z.to_nat 600))) with 601 by (rewrite INR_IZR_INZ; apply IZR_eq; reflexivity).
        apply Rmult_le_reg_r with (nugget ex_noise); [lra|]. unfold Rdiv. rewrite Rmult_assoc, Rinv_l, Rmult_1_r by lra. lra. }
      assert (I50 : 0 < / 2 ^ 50 <= / 10000) by (split; [apply Rinv_0_lt_compat, pow_lt; lra|apply Rinv_le_contravar; lra]).
      assert (sqrt (INR (S (Z.to_nat 600)) / nugget ex_noise) * / 2 ^ 50 <= 1000 * / 10000) by (apply Rmult_le_compat; [apply sqrt_pos|lra|exact Sq|lra]). lra.
    - vm_compute. reflexivity.
    - vm_compute. reflexivity. }
  unfold conv_loss. rewrite E1.
  assert (N6 : INR (Z.to_nat 601) = 601) by (rewrite INR_IZR_INZ; apply IZR_eq; reflexivity).
  assert (Im : INR ex_m = 2000) by (unfold ex_m; rewrite INR_IZR_INZ; apply IZR_eq; reflexivity).
  assert (Ce : 0 <= centre ex_m 1 <= / 10 ^ 12).
  { unfold centre. rewrite Im. assert (I1 : 0 < / 2 ^ 1075 <= / 2 ^ 60) by (split; [apply Rinv_0_lt_compat, pow_lt; lra|apply Rinv_le_contravar; [apply pow_lt; lra|apply Rle_pow; [lra|lia]]]). lra. }
  assert (Q : 601 / nugget ex_noise <= 61000). { apply Rmult_le_reg_r with (nugget ex_noise); [lra|]. unfold Rdiv. rewrite Rmult_assoc, Rinv_l, Rmult_1_r by lra. lra. }
  assert (Q0 : 0 <= 601 / nugget ex_noise) by (apply Rmult_le_pos; [lra|left; apply Rinv_0_lt_compat; lra]).
  assert (Sh : 0 <= shift ex_noise (Z.to_nat 601) ex_m 1 <= / 10 ^ 7).
  { unfold shift. rewrite N6. split; [apply Rmult_le_pos; lra|]. apply Rle_trans with (61000 * / 10 ^ 12); [apply Rmult_le_compat; lra|lra]. }
  rewrite N6 in *. set (sh := shift _ _ _ _) in *. set (ce := centre _ _) in *.
  assert (S1 : sqrt (601 / nugget ex_noise) <= 250) by (rewrite <- (sqrt_square 250) by lra; apply sqrt_le_1_alt; lra).
  assert (S2 : sqrt (nugget ex_noise / INR 20) <= 23 / 1000).
  { replace (INR 20) with 20 by (rewrite INR_IZR_INZ; reflexivity). rewrite <- (sqrt_square (23 / 1000)) by lra. apply sqrt_le_1_alt. lra. }
  assert (S3 : gap (PExp f1) 2 (half_cell 4) 1 <= 19 / 100).
  { unfold gap, half_cell. cbn [slope]. replace (1 * INR 2) with 2 by (cbn; ring). assert (S2' : sqrt 2 <= 15 / 10) by (rewrite <- (sqrt_square (15 / 10)) by lra; apply sqrt_le_1_alt; lra).
    apply Rle_trans with (15 / 10 * ((/ (2 * 4) + / 2 ^ 28) / 1)); [apply Rmult_le_compat_r; lra|lra]. }
  assert (S4 : 4 / 1000 <= sqrt (var_floor f1 ex_noise (Z.to_nat 601))).
  { rewrite <- (sqrt_square (4 / 1000)) by lra. apply sqrt_le_1_alt. unfold var_floor. rewrite E1, N6. apply Rmult_le_reg_r with (nugget ex_noise + 601 * 1); [lra|].
    unfold Rdiv. rewrite (Rmult_assoc (1 * nugget ex_noise)), Rinv_l, Rmult_1_r by lra. lra. }
  assert (S5 : 11 / 10 ^ 7 * 1 / sqrt (var_floor f1 ex_noise (Z.to_nat 601)) <= 11 / 10 ^ 7 * 250).
  { unfold Rdiv at 1. rewrite Rmult_1_r. apply Rmult_le_compat_l; [lra|]. replace 250 with (/ (4 / 1000)) by lra. apply Rinv_le_contravar; lra. }
  rewrite sqrt_1. lra.
Qed.
