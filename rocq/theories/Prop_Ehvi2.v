(** C56: uniqueness of the specified value, the hypotheses can be met, and where [ehvi2d] and acqui::Ehvi fail. *)
From Coq Require Import Reals List Bool ZArith Lia Lra Permutation Sorted Machin Ratan.
From Coquelicot Require Import Coquelicot.
From Verif Require Import LinAlgModel LinAlg MatCalc GaussInt KernelModel GPModel GPSpec MeanSpec Prop_GP AcquiModel Prop_EI Prop_Eci EhviModel Prop_Ehvi.
Import ListNotations.
Open Scope R_scope.

(** * The specification determines the value *)
Lemma everywhere_unique (f : R -> R) (u v : R) : is_RInt_gen f (Rbar_locally m_infty) (Rbar_locally p_infty) u ->
  is_RInt_gen f (Rbar_locally m_infty) (Rbar_locally p_infty) v -> u = v.
Proof. intros Hu Hv. transitivity (RInt_gen f (Rbar_locally m_infty) (Rbar_locally p_infty)); [symmetry|]; now apply is_RInt_gen_unique. Qed.
Theorem hvi_unique P r x y u v : is_hvi P r x y u -> is_hvi P r x y v -> u = v.
Proof.
  intros [U1 U2] [V1 V2]. destruct (Rlt_dec x (fst r)) as [H|H]; [rewrite U1, V1; auto|]. apply Rnot_lt_le in H.
  transitivity (RInt (fun t => Rmax 0 (y - cover P (snd r) t)) (fst r) x); [symmetry|]; apply is_RInt_unique; auto.
Qed.
Theorem C56_value_unique P r mu s u v : is_ehvi P r mu s u -> is_ehvi P r mu s v -> u = v.
Proof.
  intros (h1 & i1 & H1 & I1 & O1) (h2 & i2 & H2 & I2 & O2).
  assert (Hi : forall x, i1 x = i2 x).
  { intro x. apply (everywhere_unique (fun y => h1 x y * density (snd mu) (snd s) y)); [apply I1|].
    apply ev_ext with (f := fun y => h2 x y * density (snd mu) (snd s) y); [|apply I2]. intro y. f_equal. apply (hvi_unique P r x y); auto. }
  apply (everywhere_unique (fun x => i1 x * density (fst mu) (fst s) x)); [exact O1|].
  apply ev_ext with (f := fun x => i2 x * density (fst mu) (fst s) x); [|exact O2]. intro x. now rewrite Hi.
Qed.

(** * The hypotheses of C56 can be met *)
Fixpoint insert (p : individual) (l : list individual) : list individual :=
  match l with [] => [p] | q :: l' => if Rle_dec (f0 p) (f0 q) then p :: q :: l' else q :: insert p l' end.
Fixpoint isort (l : list individual) : list individual := match l with [] => [] | p :: l' => insert p (isort l') end.
Lemma insert_perm p l : Permutation (p :: l) (insert p l).
Proof.
  induction l as [|q l IH]; cbn; [apply Permutation_refl|]. destruct (Rle_dec (f0 p) (f0 q)); [apply Permutation_refl|].
  eapply perm_trans; [apply perm_swap|]. now apply perm_skip.
Qed.
Lemma insert_sorted p l : StronglySorted (fun p q => ~ f0 q < f0 p) l -> StronglySorted (fun p q => ~ f0 q < f0 p) (insert p l).
Proof.
  induction 1 as [|q l Hl IH Hq]; cbn; [repeat constructor|]. destruct (Rle_dec (f0 p) (f0 q)) as [H|H].
  - constructor; [now constructor|]. constructor; [lra|]. apply List.Forall_forall. intros z Hz. rewrite List.Forall_forall in Hq. specialize (Hq z Hz). lra.
  - constructor; [exact IH|]. apply List.Forall_forall. intros z Hz. apply (Permutation_in _ (Permutation_sym (insert_perm p l))) in Hz.
    destruct Hz as [<-|Hz]; [lra|]. rewrite List.Forall_forall in Hq. now apply Hq.
Qed.
Lemma isort_sorts : sorts isort.
Proof.
  intro P. induction P as [|p P [IH1 IH2]]; cbn; [split; constructor|]. split; [|now apply insert_sorted].
  eapply perm_trans; [apply perm_skip, IH1|apply insert_perm].
Qed.
Lemma erf_exists : is_erf (fun x => 2 / sqrt PI * E x).
Proof. intro x. apply (is_RInt_scal ge 0 x (2 / sqrt PI) (E x)). apply (RInt_correct ge), ge_int. Qed.
Example C56_nontrivial : (exists erf, is_erf erf) /\ (exists sort, sorts sort) /\
  front [{| f0 := 3; f1 := 1 |}; {| f0 := 1; f1 := 4 |}; {| f0 := 3; f1 := 1 |}; {| f0 := 2; f1 := 2 |}] (-1, 0) /\
  (** the area dominated by (3, 3) and not by {(1, 2)} within the positive quadrant *)
  is_hvi [{| f0 := 1; f1 := 2 |}] (0, 0) 3 3 7.
Proof.
  split; [eexists; apply erf_exists|]. split; [eexists; apply isort_sorts|]. split.
  - split; [intros p q Hp Hq|intros p Hp]; repeat destruct Hp as [<-|Hp]; try destruct Hp; repeat destruct Hq as [<-|Hq]; try destruct Hq; cbn; intros; split; lra.
  - split; cbn [fst snd]; [lra|]. intros _.
    pose proof (hv_area 0 [{| f0 := 1; f1 := 2 |}] 0 3 3) as H. cbn [hv f0 f1 stairs] in H.
    replace 7 with ((Rmax 0 (3 - 0) - Rmax 0 (3 - 1)) * Rmax 0 (3 - 2) + Rmax 0 (3 - 1) * Rmax 0 (3 - 0)).
    + apply H; [|lra]. repeat split; try lra. constructor.
    + rewrite !Rmax_right by lra. ring.
Qed.

(** * The acquisition function hands the predicted variances to a function that expects standard deviations *)
Lemma query_parts K M (g : gp K M) v u s2 : query K M g v = Done (u, s2) -> mu K M g v = Done u /\ sigma K M g v = Done s2.
Proof.
  unfold query, mu, sigma. destruct (g_samples K M g).
  - unfold check. destruct (dout_pos K M g); cbn [andb]; [|discriminate]. destruct (onat_eqb _ _); [|discriminate]. intro H.
    apply (f_equal (fun o => match o with Done v => v | _ => (u, s2) end)) in H. cbv beta iota in H. split; f_equal; congruence.
  - unfold check. destruct (mu_ok K M g v); cbn [andb]; [|discriminate]. destruct (sigma_ok K M g v); [|discriminate]. cbn zeta.
    destruct (diag_ok _ _); [|discriminate]. intro H.
    apply (f_equal (fun o => match o with Done v => v | _ => (u, s2) end)) in H. cbv beta iota in H. split; f_equal; congruence.
Qed.
Section Acqui.
Variable Md : Type.
Variable mu_ : Md -> vec -> outcome vec.
Variable sigma_ : Md -> vec -> outcome R.
(** what acqui::Ehvi should return for models whose [sigma_] is a variance *)
Definition acqui_correct (m0 m1 : Md) (P : list individual) (r : R * R) (afun : vec -> R) (v : vec) (val : R) : Prop :=
  exists u0 u1 s0 s1, mu_ m0 v = Done u0 /\ mu_ m1 v = Done u1 /\ sigma_ m0 v = Done s0 /\ sigma_ m1 v = Done s1 /\
    is_ehvi P r (afun u0, afun u1) (sqrt s0, sqrt s1) val.
(** partial: correct when both predicted variances are 1 *)
Theorem C56_acqui_partial erf sort m0 m1 P r afun v u0 u1 s0 s1 : is_erf erf -> sorts sort -> front P r ->
  mu_ m0 v = Done u0 -> mu_ m1 v = Done u1 -> sigma_ m0 v = Done s0 -> sigma_ m1 v = Done s1 -> 0 < s0 -> 0 < s1 ->
  exists val, acqui_ehvi erf (sqrt 2) (/ sqrt (2 * PI)) Md mu_ sigma_ sort [m0; m1] P r afun v = Done val /\
    is_ehvi P r (afun u0, afun u1) (s0, s1) val /\ (s0 = 1 -> s1 = 1 -> acqui_correct m0 m1 P r afun v val).
Proof.
  intros He Hs HF E0 E1 E2 E3 P0 P1. destruct (C56_ehvi2d_partial erf sort P r (afun u0, afun u1) (s0, s1) He Hs HF P0 P1) as (val & V1 & V2 & _).
  exists val. unfold acqui_ehvi. rewrite E0, E1, E2, E3. cbn [bind]. split; [exact V1|]. split; [exact V2|].
  intros -> ->. exists u0, u1, 1, 1. rewrite sqrt_1. auto 6.
Qed.
End Acqui.

Lemma ei_at_mean s : 0 < s -> ei_value erfc0 (0 - 0) s = s / sqrt (2 * PI).
Proof. intro H. unfold ei_value. cbn zeta. replace (0 - 0) with 0 by ring. replace (- (1 / 2) * (0 / s) ^ 2) with 0 by (field; lra). rewrite exp_0. unfold Rdiv. ring. Qed.
Lemma empty_value s0 s1 : 0 < s0 -> 0 < s1 -> is_ehvi [] (0, 0) (0, 0) (s0, s1) (s0 / sqrt (2 * PI) * (s1 / sqrt (2 * PI))).
Proof.
  intros H0 H1. assert (F : front [] (0, 0)) by (split; intros; contradiction).
  exists (hv 0 0 []), (hvE 0 s1 0 0 []). split; [|split].
  - intros x y. split; cbn [fst snd]; intro Hx; [apply hv_left; [exact I|lra]|apply hv_area; [exact I|exact Hx]].
  - intro x. now apply (inner_ok 0 s1 0 H1 [] 0 x).
  - pose proof (outer_ok 0 s0 0 s1 0 H0 [] 0) as O. cbn [hvEE] in O. rewrite !ei_at_mean in O by assumption. exact O.
Qed.

(** the predicted variances differ from 1: the value is not the expected improvement.  (One model for both
    objectives, an empty front.) *)
Theorem C56_acqui_refuted erf : is_erf erf -> let k := K1 1 in let M := NullFunction in
  exists g v val, run k M (gp_default k M) [Compute [[0]] [[0]] true] = Done g /\
    acqui_ehvi erf (sqrt 2) (/ sqrt (2 * PI)) (gp k M) (mu k M) (sigma k M) isort [g; g] [] (0, 0) (fun u => vget u 0) v = Done val /\
    ~ acqui_correct (gp k M) (mu k M) (sigma k M) g g [] (0, 0) (fun u => vget u 0) v val.
Proof.
  intros He k M. subst k M. destruct (one_sample 1 Rlt_0_1) as (g & E1 & _ & _ & Q1).
  match type of Q1 with _ = Done (_, ?z) => set (s2 := z) in Q1; assert (Hs : 0 < s2 < 1) end.
  { pose proof b1_range as Hb. set (a := 1 + / 100000000) in *. assert (Ha : 0 < a < 2) by (unfold a; lra).
    assert (b1 * b1 < 1 / 2).
    { unfold b1. rewrite <- exp_plus. replace (- (1 / 2) + - (1 / 2)) with (- (1)) by lra. rewrite exp_Ropp.
      assert (1 + 1 < exp 1) by (apply exp_ineq1; lra). apply Rmult_lt_reg_r with (exp 1); [lra|]. rewrite Rinv_l by lra. lra. }
    assert (1 * b1 * (1 * b1) / a < 1 / 2). { apply Rmult_lt_reg_r with a; [lra|]. unfold Rdiv at 1. rewrite Rmult_assoc, Rinv_l by lra. unfold a. lra. }
    assert (0 < 1 * b1 * (1 * b1) / a) by (apply Rdiv_lt_0_compat; nra).
    unfold s2, clamp. destruct (Rle_dec _ _) as [L|L]; [|lra]. exfalso.
    assert (/ 2 ^ 52 < / 2 ^ 1). { apply Rinv_lt_contravar; [apply Rmult_lt_0_compat; apply pow_lt; lra|]. apply Rlt_pow; [lra|lia]. } lra. }
  clearbody s2. destruct (query_parts _ _ _ _ _ _ Q1) as [Q2 Q3].
  assert (F : front [] (0, 0)) by (split; intros; contradiction).
  destruct (C56_acqui_partial (gp (K1 1) NullFunction) (mu _ _) (sigma _ _) erf isort g g [] (0, 0) (fun u => vget u 0) [1] [0] [0] s2 s2 He isort_sorts F Q2 Q2 Q3 Q3 ltac:(lra) ltac:(lra)) as (val & V1 & V2 & _).
  exists g, [1], val. split; [exact E1|]. split; [exact V1|].
  intros (u0 & u1 & t0 & t1 & H0 & H1 & H2 & H3 & H4). rewrite Q2 in H0, H1. rewrite Q3 in H2, H3.
  assert (u0 = [0]) as -> by congruence. assert (u1 = [0]) as -> by congruence. assert (t0 = s2) as -> by congruence. assert (t1 = s2) as -> by congruence.
  cbn [vget nth] in H4, V2. pose proof (C56_value_unique _ _ _ _ _ _ V2 (empty_value s2 s2 ltac:(lra) ltac:(lra))) as X1.
  assert (Sq : 0 < sqrt s2) by (apply sqrt_lt_R0; lra).
  pose proof (C56_value_unique _ _ _ _ _ _ H4 (empty_value (sqrt s2) (sqrt s2) Sq Sq)) as X2.
  assert (P2 : 0 < sqrt (2 * PI)) by (apply sqrt_lt_R0; pose proof PI_RGT_0; lra).
  assert (Y : s2 * s2 = sqrt s2 * sqrt s2).
  { apply Rmult_eq_reg_r with (/ sqrt (2 * PI) * / sqrt (2 * PI)); [|apply Rgt_not_eq, Rmult_lt_0_compat; now apply Rinv_0_lt_compat].
    transitivity val; [rewrite X1|rewrite X2]; unfold Rdiv; ring. }
  rewrite sqrt_sqrt in Y by lra. nra.
Qed.

(** * The constants of ehvi_consts.h: with the digits in the source the value is not exact *)
Theorem C56_constants_refuted erf : is_erf erf ->
  exists P r mu s v, front P r /\ 0 < fst s /\ 0 < snd s /\
    ehvi2d erf SQRT_TWO_ SQRT_TWOPI_NEG_ isort P r mu s = Done v /\ ~ is_ehvi P r mu s v.
Proof.
  intro He. exists [], (0, 0), (0, 0), (1, 1), (SQRT_TWOPI_NEG_ * SQRT_TWOPI_NEG_).
  split; [split; intros; contradiction|]. cbn [fst snd]. split; [lra|]. split; [lra|]. split.
  - unfold ehvi2d, ehvi2d_sorted. cbn [isort length Nat.add seq for_ Nat.sub Z.of_nat bind].
    unfold cell. cbn [length Nat.eqb bind fst snd Nat.sub Z.sub Z.add Z.opp Z.pos_sub Z.ltb Z.compare Pos.compare Pos.compare_cont].
    cbn [scaled exipsi]. unfold exipsi. cbn [scaled]. destruct (Req_EM_T 1 0); [lra|]. destruct (Rlt_dec 1 0); [lra|].
    cbn [gausspdf gausscdf nmul nadd nsub]. replace ((0 - 0) / 1) with 0 by field. replace (- (0 * 0) / 2) with 0 by field. rewrite exp_0.
    change (-1 <? -1)%Z with false. cbn [bind].
    match goal with |- context [Rlt_dec 0 ?x] => replace x with (SQRT_TWOPI_NEG_ * SQRT_TWOPI_NEG_) by ring end.
    destruct (Rlt_dec 0 (SQRT_TWOPI_NEG_ * SQRT_TWOPI_NEG_)) as [_|N]; [|exfalso; apply N; unfold SQRT_TWOPI_NEG_; lra]. cbn [bind fst]. f_equal. ring.
  - intro H. pose proof (C56_value_unique _ _ _ _ _ _ H (empty_value 1 1 Rlt_0_1 Rlt_0_1)) as X.
    assert (P2 : 0 < 2 * PI) by (pose proof PI_RGT_0; lra).
    assert (Y : SQRT_TWOPI_NEG_ * SQRT_TWOPI_NEG_ * (2 * PI) = 1).
    { rewrite X. assert (Q : sqrt (2 * PI) * sqrt (2 * PI) = 2 * PI) by (apply sqrt_sqrt; lra).
      replace (1 / sqrt (2 * PI) * (1 / sqrt (2 * PI))) with (/ (sqrt (2 * PI) * sqrt (2 * PI))).
      - rewrite Q. field. lra.
      - field. apply Rgt_not_eq, sqrt_lt_R0, P2. }
    destruct (PI_2_3_7_ineq 6) as [_ U]. cbn in U. unfold tg_alt, PI_2_3_7_tg, Ratan_seq in U. cbn in U. unfold SQRT_TWOPI_NEG_ in Y. lra.
Qed.

(** * A prediction without uncertainty, level with a point of the front: every cell is skipped *)
Theorem C56_zero_deviation_refuted erf a b :
  exists P r mu v h, front P r /\ ehvi2d erf a b isort P r mu (0, 0) = Done v /\ is_hvi P r (fst mu) (snd mu) h /\ v = 0 /\ h = 1.
Proof.
  exists [{| f0 := 1; f1 := 1 |}], (0, 0), (1, 2), 0, 1. split; [|split; [|split; [|auto]]].
  - split; [intros p q Hp Hq|intros p Hp]; repeat destruct Hp as [<-|Hp]; try destruct Hp; repeat destruct Hq as [<-|Hq]; try destruct Hq; cbn; intros; split; lra.
  - assert (N : scaled (Fin 1) 1 0 = Nan).
    { cbn. destruct (Req_EM_T 0 0); [|lra]. destruct (Rlt_dec 1 1); [lra|]. reflexivity. }
    unfold ehvi2d, ehvi2d_sorted. cbn [isort insert length Nat.add seq for_ Nat.sub Z.of_nat bind].
    unfold cell, at_. cbn [length Nat.eqb bind fst snd Nat.sub Z.sub Z.add Z.opp Z.pos_sub Z.ltb Z.compare Pos.compare Pos.compare_cont Pos.of_succ_nat seq for_ nth_error f0 f1 Z.to_nat Pos.to_nat Pos.iter_op Nat.add].
    unfold exipsi. rewrite !N. cbn [gausspdf gausscdf nmul nadd nsub].
    destruct (gausscdf erf a (scaled Infinity 1 0)), (gausspdf b (scaled Infinity 1 0)), (gausscdf erf a (scaled (Fin 0) 1 0)), (gausspdf b (scaled (Fin 0) 1 0)); cbn [gausspdf gausscdf nmul nadd nsub bind fst snd]; reflexivity.
  - split; cbn [fst snd]; [lra|]. intros _. pose proof (hv_area 0 [{| f0 := 1; f1 := 1 |}] 0 1 2) as H. cbn [hv f0 f1 stairs] in H.
    rewrite (Rmax_left 0 (1 - 1)) in H by lra. rewrite !Rmax_right in H by lra.
    replace ((1 - 0 - 0) * (2 - 1) + 0 * (2 - 0)) with 1 in H by ring. apply H; [|lra]. repeat split; try lra. constructor.
Qed.

(** * A point of the front left of the reference point: the value is too large *)
Lemma tail_pos mu s c : 0 < s -> 0 < tail mu s c.
Proof.
  intro Hs. unfold tail, erfc0. set (x := - ((mu - c) / s) / sqrt 2).
  assert (L : E x < E (x + 1)).
  { assert (HI : is_RInt ge x (x + 1) (E (x + 1) - E x)) by (apply (is_RInt_derive E ge); intros; [apply E_derive|apply ge_cont]).
    pose proof (is_RInt_unique ge x (x + 1) _ HI) as HU. pose proof (RInt_gt_0 ge x (x + 1) ltac:(lra) (fun t _ => ge_pos t) (fun t _ => ge_cont t)). lra. }
  assert (U : E (x + 1) <= sqrt PI / 2).
  { apply (is_lim_le_loc (fun _ => E (x + 1)) E p_infty (E (x + 1)) (sqrt PI / 2)); [|apply is_lim_const|apply gauss_integral].
    exists (x + 1). intros y Hy. assert (HI : is_RInt ge (x + 1) y (E y - E (x + 1))) by (apply (is_RInt_derive E ge); intros; [apply E_derive|apply ge_cont]).
    pose proof (is_RInt_ge_0 ge (x + 1) y _ (Rlt_le _ _ Hy) HI (fun t _ => Rlt_le _ _ (ge_pos t))). lra. }
  pose proof sqrtPI_pos as HP. assert (2 / sqrt PI * E x < 2 / sqrt PI * (sqrt PI / 2)) by (apply Rmult_lt_compat_l; [apply Rdiv_lt_0_compat; lra|lra]).
  replace (2 / sqrt PI * (sqrt PI / 2)) with 1 in * by (field; lra). lra.
Qed.
Lemma ei_strict mu s c d : 0 < s -> c < d -> ei_ mu s d < ei_ mu s c.
Proof.
  intros Hs H. pose proof (above_mono mu s Hs c c d (Rle_refl c) (Rlt_le _ _ H)) as M. pose proof (tail_pos mu s d Hs).
  assert (0 < (d - c) * tail mu s d) by (apply Rmult_lt_0_compat; lra). lra.
Qed.
Theorem C56_below_reference_refuted erf mu s : is_erf erf -> 0 < fst s -> 0 < snd s ->
  exists P r v e, (forall p q, In p P -> In q P -> f0 p <= f0 q -> f1 p <= f1 q -> p = q) /\
    ehvi2d erf (sqrt 2) (/ sqrt (2 * PI)) isort P r mu s = Done v /\ is_ehvi P r mu s e /\ e < v.
Proof.
  intros He H0 H1. set (p := {| f0 := -1; f1 := 1 |}).
  exists [p], (0, 0). destruct (sorted_below [p] (0, 0) mu s erf He H0 H1) as (v & V1 & V2).
  exists v, (ei_ (fst mu) (fst s) 0 * ei_ (snd mu) (snd s) 0). split; [|split; [exact V1|split]].
  - intros x y [<-|[]] [<-|[]] _ _. reflexivity.
  - exists (hv 0 0 []), (hvE (snd mu) (snd s) 0 0 []). split; [|split].
    + intros x y. split; cbn [fst snd]; intro Hx; [apply hv_left; [exact I|lra]|].
      apply is_RInt_ext with (f := fun t => Rmax 0 (y - cover [] 0 t)); [|apply hv_area; [exact I|exact Hx]].
      intros t [Ht _]. rewrite Rmin_left in Ht by exact Hx. rewrite cover_cons. destruct (Rle_dec t (f0 p)) as [L|]; [cbn in L; lra|reflexivity].
    + intro x. now apply inner_ok.
    + exact (outer_ok (fst mu) (fst s) (snd mu) (snd s) 0 H0 [] 0).
  - eapply Rlt_le_trans; [|exact V2]. cbn [length rsum]. unfold A_, B_, as_, bs_. cbn [length Nat.leb map nth fst snd f0 f1 p].
    pose proof (ei_strict (fst mu) (fst s) (-1) 0 H0 ltac:(lra)) as X. pose proof (ei_strict (snd mu) (snd s) 0 1 H1 ltac:(lra)) as Y.
    assert (0 < (ei_ (fst mu) (fst s) (-1) - ei_ (fst mu) (fst s) 0) * (ei_ (snd mu) (snd s) 0 - ei_ (snd mu) (snd s) 1)) by (apply Rmult_lt_0_compat; lra). lra.
Qed.
