(** C30 and C31 for the kernels and mean functions of limbo, and where they fail. *)
From Coq Require Import Reals List Bool ZArith Lia Lra.
From Coquelicot Require Import Coquelicot.
From Verif Require Import LinAlgModel LinAlg MatCalc Det KernelModel GPModel GPSpec GPFacts Prop_GP KernelSpec KernelFacts KernelGrad Prop_Kernel
  MeanSpec MeanFacts Prop_Mean Prop_Lik Prop_Loo.
Import ListNotations.
Open Scope R_scope.

(** mean functions that ignore the observations *)
Inductive blind_means : Mean -> Prop :=
| bm_null : blind_means NullFunction
| bm_constant : forall c, blind_means (Constant c)
| bm_ard : forall M, blind_means M -> blind_means (FunctionARD M).
Lemma blind_means_are_means M : blind_means M -> means M.
Proof. induction 1; constructor; auto. Qed.
Lemma blind_means_blind M : blind_means M -> forall st x mo mo', m_val M st x mo = m_val M st x mo'.
Proof.
  induction 1 as [| |M H IH]; intros st x mo mo'; try reflexivity.
  cbn [m_val FunctionARD]. unfold fard_val. now rewrite (IH _ _ mo mo').
Qed.

Section Limbo.
Variables (sf2 l : R) (k : nat) (C : CKern) (noise0 : R) (opt : bool) (M : Mean).
Hypotheses (Hs : 0 < sf2) (Hl : 0 < l) (HC : In C (kernels sf2 l k)) (Hn : 0 <= noise0) (Ho : opt = true -> 0 < noise0) (HM : means M).
Notation K := (BaseKernel C noise0 opt).

Lemma reach_KO (O : CKernOK C) : KernOK K.
Proof.
  refine (@Build_KernOK K (kreach K) (fun d => kr_new K d) (fun d st p => kr_set K d st p) _ _ _).
  - intros d st x y H. apply (kok_sym (base_OK C O noise0 opt Hn Ho)). now apply kreach_ok.
  - intros d st n pts H. apply (kok_psd (base_OK C O noise0 opt Hn Ho)). now apply kreach_ok.
  - intros d st H. apply (kok_noise (base_OK C O noise0 opt Hn Ho) d). now apply kreach_ok.
Defined.
Lemma reach_MO (T : MeanRT M) : MeanOK M.
Proof.
  refine (@Build_MeanOK M (mreach M) (fun d => MeanSpec.mr_new M d) (fun d st p => MeanSpec.mr_set M d st p) _).
  intros d st x mo H. apply (mok_len (RT_OK M T)). now apply mreach_ok.
Defined.
Lemma limbo_KernDiff O : KernDiff (reach_KO O).
Proof.
  constructor.
  - intros d st H. apply (base_sizes C O noise0 opt Ho d). now apply kreach_ok.
  - intros d st H. apply (base_set_get C O noise0 opt Ho d); now apply kreach_ok.
  - intros d st x y i j q H Hq. apply is_derive_Reals. now apply (C22_gradient sf2 l k C noise0 opt d st x y i j q).
Qed.
Lemma limbo_MeanDiff T : MeanDiff (reach_MO T).
Proof.
  constructor.
  - intros d st H. apply (mr_hlen T d). now apply mreach_ok.
  - intros d st H. apply (mr_set_get T d); now apply mreach_ok.
  - intros d st x mo o q H Hmo Ho' Hq. apply is_derive_Reals. now apply (C33_gradient M d st x mo o q).
Qed.

(** C30, all limbo GPs, any valid history.  [ll]/[lm]: what compute_log_lik() returns after setting
    one parameter of the kernel/mean to [t] and recomputing. *)
Theorem C30_limbo_gp g0 s0 os :
  fresh K M g0 s0 -> valid_all K M s0 os ->
  let s := meaning K M s0 os in
  let n := length (s_xs K M s) in
  let p := oget (s_dout K M s) in
  let S := gram K (s_k K M s) (s_xs K M s) in
  s_xs K M s <> [] -> s_dk K M s = false -> s_dm K M s = false ->
  exists g B, run K M g0 os = Done g /\ is_inv n S B /\ 0 < det n S /\
    (p = 1%nat -> compute_log_lik K M g = Done (log_gauss n S B (fun i => resid M (s_m K M s) (s_xs K M s) (s_ys K M s) p i 0))) /\
    (exists g' gr, compute_kernel_grad_log_lik K M g = Done (g', gr) /\ length gr = k_hsize K (g_k K M g) /\
      let h := k_hparams K (g_k K M g) in
      forall q, (q < length gr)%nat -> exists ll,
        (forall t, exists gt, run K M g [SetK (vupd h q t); Recompute false true] = Done gt /\ compute_log_lik K M gt = Done (ll t)) /\
        compute_log_lik K M g = Done (ll (vget h q)) /\
        derivable_pt_lim ll (vget h q) (vget gr q)) /\
    ((0 < m_hsize M (g_m K M g))%nat ->
     exists g' gr, compute_mean_grad_log_lik K M g = Done (g', gr) /\ length gr = m_hsize M (g_m K M g) /\
      let h := m_hparams M (g_m K M g) in
      forall q, (q < length gr)%nat -> exists lm,
        (forall t, exists gt, run K M g [SetM (vupd h q t); Recompute true false] = Done gt /\ compute_log_lik K M gt = Done (lm t)) /\
        compute_log_lik K M g = Done (lm (vget h q)) /\
        derivable_pt_lim lm (vget h q) (vget gr q)).
Proof.
  intros F V s n p S Hx Hk Hm. destruct (kernels_OK _ _ _ _ Hs Hl HC) as [O]. destruct (means_RT M HM) as [T].
  set (KO := reach_KO O). set (MO := reach_MO T).
  destruct (C24_valid_histories_succeed K M KO MO g0 s0 os F V) as (g & E).
  destruct (C30_log_likelihood_value K M KO MO g0 s0 os g F E Hx Hk Hm) as (Hd & (B & HB) & HV).
  exists g, B. split; [exact E|]. split; [exact HB|]. split; [exact Hd|]. split; [apply (HV B HB)|]. split.
  - assert (Hpos : (0 < k_hsize K (g_k K M g))%nat).
    { pose proof (run_inv K M KO MO os g0 s0 g (fresh_inv _ _ _ _ _ _ F) E) as I. fold s in I.
      destruct (v_nonempty _ _ _ _ _ _ I Hx) as ((d & D1 & _) & _). rewrite (v_k _ _ _ _ _ _ I).
      pose proof (v_kok _ _ _ _ _ _ I d D1) as Hr. apply (base_sizes C O noise0 opt Ho d). now apply kreach_ok. }
    destruct (C30_kernel_gradient K M KO MO g0 s0 os g 0 (limbo_KernDiff O) F E Hx Hk Hm Hpos) as (g' & gr & _ & E1 & E2 & _).
    exists g', gr. split; [exact E1|]. split; [exact E2|]. cbn zeta. intros q Hq. rewrite E2 in Hq.
    destruct (C30_kernel_gradient K M KO MO g0 s0 os g q (limbo_KernDiff O) F E Hx Hk Hm Hq) as (g1 & gr1 & ll & E1' & _ & H1 & H2 & H3).
    rewrite E1 in E1'. injection E1' as -> ->. exists ll. auto.
  - intro Hpos.
    destruct (C30_mean_gradient K M KO MO g0 s0 os g 0 (limbo_MeanDiff T) F E Hx Hk Hm Hpos) as (g' & gr & _ & E1 & E2 & _).
    exists g', gr. split; [exact E1|]. split; [exact E2|]. cbn zeta. intros q Hq. rewrite E2 in Hq.
    destruct (C30_mean_gradient K M KO MO g0 s0 os g q (limbo_MeanDiff T) F E Hx Hk Hm Hq) as (g1 & gr1 & ll & E1' & _ & H1 & H2 & H3).
    rewrite E1 in E1'. injection E1' as -> ->. exists ll. auto.
Qed.

(** C31, all limbo GPs whose mean ignores the observations, any valid history *)
Theorem C31_limbo_gp g0 s0 os : blind_means M ->
  fresh K M g0 s0 -> valid_all K M s0 os ->
  let s := meaning K M s0 os in
  let xs := s_xs K M s in let p := oget (s_dout K M s) in
  s_xs K M s <> [] -> s_dk K M s = false -> s_dm K M s = false ->
  exists g Bs g1, run K M g0 os = Done g /\
    (forall i, (i < length xs)%nat -> is_inv (length xs - 1) (gram K (s_k K M s) (without i xs)) (Bs i)) /\
    compute_log_loo_cv K M g = Done (g1, rsum p (fun o => rsum (length xs) (fun i =>
      left_out K M (s_k K M s) (s_m K M s) xs (s_ys K M s) p (Bs i) i o))) /\
    exists g' gr, compute_kernel_grad_log_loo_cv K M g = Done (g', gr) /\ length gr = k_hsize K (g_k K M g) /\
      let h := k_hparams K (g_k K M g) in
      forall q, (q < length gr)%nat -> exists ll,
        (forall t, exists gt gt', run K M g [SetK (vupd h q t); Recompute false true] = Done gt /\ compute_log_loo_cv K M gt = Done (gt', ll t)) /\
        (exists g'', compute_log_loo_cv K M g = Done (g'', ll (vget h q))) /\
        derivable_pt_lim ll (vget h q) (vget gr q).
Proof.
  intros HBl F V s xs p Hx Hk Hm. destruct (kernels_OK _ _ _ _ Hs Hl HC) as [O]. destruct (means_RT M HM) as [T].
  set (KO := reach_KO O). set (MO := reach_MO T).
  destruct (C24_valid_histories_succeed K M KO MO g0 s0 os F V) as (g & E).
  pose proof (run_inv K M KO MO os g0 s0 g (fresh_inv _ _ _ _ _ _ F) E) as I. fold s in I.
  destruct (v_nonempty _ _ _ _ _ _ I Hx) as ((d & D1 & _ & D3) & _).
  pose proof (v_kok _ _ _ _ _ _ I d D1) as Hr.
  destruct (reduced_inverses K KO d (s_k K M s) xs Hr D3) as (Bs & HBs).
  destruct (C31_leave_one_out K M KO MO (blind_means_blind M HBl) g0 s0 os g Bs F E Hx Hk Hm HBs) as (g1 & Ev).
  exists g, Bs, g1. split; [exact E|]. split; [exact HBs|]. split; [exact Ev|].
  assert (Hpos : (0 < k_hsize K (g_k K M g))%nat).
  { rewrite (v_k _ _ _ _ _ _ I). apply (base_sizes C O noise0 opt Ho d). now apply kreach_ok. }
  destruct (C31_loo_gradient K M KO MO g0 s0 os g 0 (limbo_KernDiff O) F E Hx Hk Hm Hpos) as (g' & gr & _ & E1 & E2 & _).
  exists g', gr. split; [exact E1|]. split; [exact E2|]. cbn zeta. intros q Hq. rewrite E2 in Hq.
  destruct (C31_loo_gradient K M KO MO g0 s0 os g q (limbo_KernDiff O) F E Hx Hk Hm Hq) as (g2 & gr1 & ll & E1' & _ & H1 & H2 & H3).
  rewrite E1 in E1'. injection E1' as -> ->. exists ll. auto.
Qed.
(** with any mean, data-dependent ones included, the gradient is the derivative of the returned score *)
Theorem C31_limbo_gradient g0 s0 os :
  fresh K M g0 s0 -> valid_all K M s0 os ->
  let s := meaning K M s0 os in
  s_xs K M s <> [] -> s_dk K M s = false -> s_dm K M s = false ->
  exists g, run K M g0 os = Done g /\
    exists g' gr, compute_kernel_grad_log_loo_cv K M g = Done (g', gr) /\ length gr = k_hsize K (g_k K M g) /\
      let h := k_hparams K (g_k K M g) in
      forall q, (q < length gr)%nat -> exists ll,
        (forall t, exists gt gt', run K M g [SetK (vupd h q t); Recompute false true] = Done gt /\ compute_log_loo_cv K M gt = Done (gt', ll t)) /\
        (exists g'', compute_log_loo_cv K M g = Done (g'', ll (vget h q))) /\
        derivable_pt_lim ll (vget h q) (vget gr q).
Proof.
  intros F V s Hx Hk Hm. destruct (kernels_OK _ _ _ _ Hs Hl HC) as [O]. destruct (means_RT M HM) as [T].
  set (KO := reach_KO O). set (MO := reach_MO T).
  destruct (C24_valid_histories_succeed K M KO MO g0 s0 os F V) as (g & E). exists g. split; [exact E|].
  pose proof (run_inv K M KO MO os g0 s0 g (fresh_inv _ _ _ _ _ _ F) E) as I. fold s in I.
  destruct (v_nonempty _ _ _ _ _ _ I Hx) as ((d & D1 & _ & D3) & _).
  pose proof (v_kok _ _ _ _ _ _ I d D1) as Hr.
  assert (Hpos : (0 < k_hsize K (g_k K M g))%nat).
  { rewrite (v_k _ _ _ _ _ _ I). apply (base_sizes C O noise0 opt Ho d). now apply kreach_ok. }
  destruct (C31_loo_gradient K M KO MO g0 s0 os g 0 (limbo_KernDiff O) F E Hx Hk Hm Hpos) as (g' & gr & _ & E1 & E2 & _).
  exists g', gr. split; [exact E1|]. split; [exact E2|]. cbn zeta. intros q Hq. rewrite E2 in Hq.
  destruct (C31_loo_gradient K M KO MO g0 s0 os g q (limbo_KernDiff O) F E Hx Hk Hm Hq) as (g2 & gr1 & ll & E1' & _ & H1 & H2 & H3).
  rewrite E1 in E1'. injection E1' as -> ->. exists ll. auto.
Qed.
End Limbo.

(** The history of [Prop_Mean.history_is_valid] meets the hypotheses of [C30_limbo_gp]; the following
    one those of [C31_limbo_gp]. *)
Example C31_hypotheses :
  let K := BaseKernel (SquaredExpARD 1 1) (1 / 100) true in let M := FunctionARD (Constant 3) in
  let os := [Compute [[0; 0]; [1; 2]] [[1]; [5]] true; Add (fun _ _ => 0) (fun _ _ => 7) [0; 0] [2]; SetM [2; 1; 4]; Recompute true false] in
  blind_means M /\ fresh K M (gp_default K M) (s_default K M) /\ valid_all K M (s_default K M) os /\
  s_xs K M (meaning K M (s_default K M) os) <> [] /\ s_dk K M (meaning K M (s_default K M) os) = false /\
  s_dm K M (meaning K M (s_default K M) os) = false.
Proof.
  split; [repeat constructor|]. split; [constructor|]. split; [|cbn; repeat split; discriminate].
  cbn. repeat split; try discriminate; try lia; repeat constructor; auto.
Qed.

(** * Where the claims fail *)
Section Refuted.
Let C := Exp 1 1.
Let K := BaseKernel C 0 false.
Let HC : In C (kernels 1 1 0). Proof. left. reflexivity. Qed.
Let Ho : false = true -> 0 < 0. Proof. discriminate. Qed.
Let O := exp_OK 1 1 Rlt_0_1 Rlt_0_1.
Let KO : KernOK K := base_OK C O 0 false (Rle_refl 0) Ho.
Lemma ker00 x : k_ker K (k_new K 1) [x] [x] = 1.
Proof.
  unfold K, C. cbn [k_ker BaseKernel c_ker Exp k_new b_c c_new]. unfold exp_kernel, iso_new. cbn [i_l i_sf2].
  replace (- (1 / 2) * (sqdist [x] [x] / (1 * 1))) with 0; [rewrite exp_0; ring|].
  unfold sqdist. cbn. field.
Qed.
Lemma ker01 : k_ker K (k_new K 1) [0] [1] = exp (- (1 / 2)) /\ k_ker K (k_new K 1) [1] [0] = exp (- (1 / 2)).
Proof.
  unfold K, C. cbn [k_ker BaseKernel c_ker Exp k_new b_c c_new]. unfold exp_kernel, iso_new. cbn [i_l i_sf2]. rewrite !Rmult_1_l.
  split; f_equal; unfold sqdist; cbn; field.
Qed.
Lemma lin2 a b x y u v : a * a - b * b <> 0 -> 0 + a * x + b * y = u -> 0 + b * x + a * y = v ->
  x = (a * u - b * v) / (a * a - b * b) /\ y = (a * v - b * u) / (a * a - b * b).
Proof. intros D <- <-. split; field; exact D. Qed.
Lemma noise_new : k_noise K (k_new K 1) = 0. Proof. reflexivity. Qed.

(** With two outputs compute_log_lik() is not the sum of the log densities of the outputs: the
    log determinant and the constant are counted once. *)
Theorem C30_two_outputs_refuted :
  exists (os : list (op K NullFunction)) g v, run K NullFunction (gp_default K NullFunction) os = Done g /\
    compute_log_lik K NullFunction g = Done v /\
    let s := meaning K NullFunction (s_default K NullFunction) os in
    let n := length (s_xs K NullFunction s) in
    s_dout K NullFunction s = Some 2%nat /\ s_dk K NullFunction s = false /\ s_dm K NullFunction s = false /\
    forall B, is_inv n (gram K (s_k K NullFunction s) (s_xs K NullFunction s)) B ->
      v <> rsum 2 (fun o => log_gauss n (gram K (s_k K NullFunction s) (s_xs K NullFunction s)) B
                    (fun i => resid NullFunction (s_m K NullFunction s) (s_xs K NullFunction s) (s_ys K NullFunction s) 2 i o)).
Proof.
  set (M := NullFunction). set (os := [Compute [[0]] [[1; 2]] true] : list (op K M)).
  set (MO := RT_OK M null_RT).
  assert (V : valid_all K M (s_default K M) os) by (cbn; repeat split; try discriminate; try lia; repeat constructor; auto).
  assert (F : fresh K M (gp_default K M) (s_default K M)) by constructor.
  destruct (C24_valid_histories_succeed K M KO MO _ _ os F V) as (g & E).
  destruct (C30_log_likelihood_value K M KO MO _ _ os g F E) as (Hd & (B & HB) & HV); try (cbn; congruence).
  destruct (HV B HB) as [Hv _]. eexists os, g, _. split; [exact E|]. split; [exact Hv|].
  cbn zeta. split; [reflexivity|]. split; [reflexivity|]. split; [reflexivity|].
  intros B' HB' H. destruct (HV B' HB') as [Hv' _]. rewrite Hv in Hv'.
  apply (f_equal (fun o => match o with Done v => v | _ => 0 end)) in Hv'. cbv beta iota in Hv'.
  assert (Z : forall x y z : R, x = y -> x = y + z -> z = 0) by (intros; lra).
  pose proof (Z _ _ _ H Hv') as Hz. clear H Hv' Hv HV Z.
  set (S := gram K (s_k K M (meaning K M (s_default K M) os)) (s_xs K M (meaning K M (s_default K M) os))) in *.
  change (length (s_xs K M (meaning K M (s_default K M) os))) with 1%nat in Hz.
  change (oget (s_dout K M (meaning K M (s_default K M) os))) with 2%nat in Hz.
  assert (Ed : det 1 S = 1 + / 100000000).
  { cbn [det rsum]. unfold S, gram. change (s_xs K M (meaning K M (s_default K M) os)) with [[0]].
    change (s_k K M (meaning K M (s_default K M) os)) with (k_new K 1). unfold x_. cbn [nth Nat.eqb]. rewrite ker00, noise_new. field. }
  rewrite Ed in Hz.
  assert (L1 : 0 < ln (1 + / 100000000)) by (rewrite <- ln_1; apply ln_increasing; lra).
  assert (L2 : 0 < ln (2 * PI)) by (rewrite <- ln_1; apply ln_increasing; pose proof PI2_1; lra).
  change (INR 2) with (1 + 1) in Hz. change (INR 1) with 1 in Hz. lra.
Qed.

(** With mean::Data the left-out prediction is not the one of a GP trained without the sample: the
    prior mean still contains the left-out observation. *)
Theorem C31_data_mean_refuted :
  exists (os : list (op K Data)) g v g', run K Data (gp_default K Data) os = Done g /\
    compute_log_loo_cv K Data g = Done (g', v) /\
    let s := meaning K Data (s_default K Data) os in
    let xs := s_xs K Data s in
    length xs = 2%nat /\ s_dout K Data s = Some 1%nat /\ s_dk K Data s = false /\ s_dm K Data s = false /\
    forall Bs, (forall i, (i < length xs)%nat -> is_inv (length xs - 1) (gram K (s_k K Data s) (without i xs)) (Bs i)) ->
      v > rsum (length xs) (fun i => left_out K Data (s_k K Data s) (s_m K Data s) xs (s_ys K Data s) 1 (Bs i) i 0).
Proof.
  set (M := Data). set (os := [Compute [[0]; [1]] [[0]; [2]] true] : list (op K M)).
  set (MO := RT_OK M data_RT).
  assert (V : valid_all K M (s_default K M) os) by (cbn; repeat split; try discriminate; try lia; repeat constructor; auto).
  assert (F : fresh K M (gp_default K M) (s_default K M)) by constructor.
  destruct (C24_valid_histories_succeed K M KO MO _ _ os F V) as (g & E).
  pose proof (run_inv K M KO MO os _ _ g (fresh_inv _ _ _ _ _ _ F) E) as I. set (s := meaning K M (s_default K M) os) in *.
  set (G := gram K (k_new K 1) [[0]; [1]]).
  set (a := 1 + / 100000000). set (b := exp (- (1 / 2))).
  assert (G00 : G 0%nat 0%nat = a) by (unfold G, gram, x_; cbn [nth Nat.eqb]; rewrite ker00, noise_new; unfold a; ring).
  assert (G11 : G 1%nat 1%nat = a) by (unfold G, gram, x_; cbn [nth Nat.eqb]; rewrite ker00, noise_new; unfold a; ring).
  assert (G01 : G 0%nat 1%nat = b) by (unfold G, gram, x_; cbn [nth Nat.eqb]; rewrite (proj1 ker01); unfold b; ring).
  assert (G10 : G 1%nat 0%nat = b) by (unfold G, gram, x_; cbn [nth Nat.eqb]; rewrite (proj2 ker01); unfold b; ring).
  assert (Hb : 0 < b < 1). { split; [apply exp_pos|]. unfold b. apply Rlt_le_trans with (exp 0); [apply exp_increasing; lra|rewrite exp_0; lra]. }
  assert (Ha : 1 < a) by (unfold a; lra).
  assert (Ea : a = 1 + / 100000000) by reflexivity. assert (Eb : exp (- (1 / 2)) = b) by reflexivity. clearbody a b.
  assert (HL : is_chol 2 (Lof K (k_new K 1) [[0]; [1]]) G).
  { apply (Lof_ok K KO 1 (k_new K 1) [[0]; [1]]); [apply (kok_new KO)|repeat constructor]. }
  set (L := Lof K (k_new K 1) [[0]; [1]]) in *.
  destruct (loo_value K M KO MO g s L I) as (g' & Ev); [discriminate|reflexivity|reflexivity|exact HL|].
  destruct (inv_of_is_inv _ _ _ HL) as [[HI _] SI].
  pose proof (HI 0%nat 0%nat ltac:(lia) ltac:(lia)) as I00. pose proof (HI 0%nat 1%nat ltac:(lia) ltac:(lia)) as I01.
  pose proof (HI 1%nat 0%nat ltac:(lia) ltac:(lia)) as I10. pose proof (HI 1%nat 1%nat ltac:(lia) ltac:(lia)) as I11.
  unfold mmul, delta in I00, I01, I10, I11. cbn [rsum Nat.eqb] in I00, I01, I10, I11. rewrite ?G00, ?G01, ?G10, ?G11 in *.
  set (B := inv_of 2 L) in *.
  assert (D : a * a - b * b <> 0) by (apply Rgt_not_eq; nra).
  destruct (lin2 _ _ _ _ _ _ D I00 I10) as [B00 B10]. destruct (lin2 _ _ _ _ _ _ D I01 I11) as [B01 B11].
  exists os, g, (rsum 2 (fun i => - (1 / 2) * (bwd 2 L (fwd 2 L (fun j => Rs K M s j 0)) i * bwd 2 L (fwd 2 L (fun j => Rs K M s j 0)) i * / B i i)
     - 1 / 2 * ln (/ B i i) - 1 / 2 * ln (2 * PI))), g'.
  split; [exact E|]. split; [rewrite Ev; unfold GPFacts.P, GPFacts.N; cbn -[s B L bwd fwd PI Rs]; f_equal; f_equal; cbn -[B L bwd fwd PI Rs]; fold B; ring|].
  cbn zeta. split; [reflexivity|]. split; [reflexivity|]. split; [reflexivity|]. split; [reflexivity|].
  intros Bs HBs.
  set (r := fun j => Rs K M s j 0). 
  assert (r0 : r 0%nat = -1) by (unfold r, GPFacts.Rs, resid, prior_mean, y_, data_mean; cbn; field).
  assert (r1 : r 1%nat = 1) by (unfold r, GPFacts.Rs, resid, prior_mean, y_, data_mean; cbn; field).
  assert (Sol : forall i, (i < 2)%nat -> bwd 2 L (fwd 2 L r) i = rsum 2 (fun j => B i j * r j)).
  { intros i Hi. exact (inv_solves 2 G B r _ (proj1 (inv_of_is_inv _ _ _ HL)) (solve_both 2 L G r HL) i Hi). }

  set (xs := s_xs K M s) in *. change (s_k K M s) with (k_new K 1) in *. set (ys := s_ys K M s) in *. set (mm := s_m K M s) in *.
  set (v := (a * a - b * b) / a).
  assert (Dp : 0 < a * a - b * b) by nra. assert (a0 : a <> 0) by lra.
  assert (Bv : forall i, (i < 2)%nat -> / B i i = v).
  { intros i Hi. destruct i as [|[|i]]; [rewrite B00|rewrite B11|lia]; unfold v; field; split; auto. }
  assert (G1 : forall i, (i < 2)%nat -> Bs i 0%nat 0%nat = / a).
  { intros i Hi. destruct (HBs i Hi) as [H _]. specialize (H 0%nat 0%nat ltac:(cbn; lia) ltac:(cbn; lia)). unfold mmul, delta in H.
    change (0 + gram K (k_new K 1) (without i xs) 0 0 * Bs i 0%nat 0%nat = 1) in H.
    assert (Hg : gram K (k_new K 1) (without i xs) 0 0 = a).
    { unfold gram, x_. cbn [Nat.eqb]. destruct i as [|[|i]]; [| |lia];
        [change (nth 0 (without 0 xs) []) with [1]|change (nth 0 (without 1 xs) []) with [0]]; rewrite ker00, noise_new, Ea; ring. }
    rewrite Hg in H. apply Rmult_eq_reg_l with a; [|exact a0]. rewrite Rinv_r by exact a0. lra. }
  assert (Lo : forall i, (i < 2)%nat -> left_out K M (k_new K 1) mm xs ys 1 (Bs i) i 0 = - (1 / 2) * (4 / v) - 1 / 2 * ln v - 1 / 2 * ln (2 * PI)).
  { intros i Hi. unfold left_out, log_normal.
    assert (Em : (y_ ys i 0 - post_mean K M (k_new K 1) mm (without i xs) (without i ys) 1 (Bs i) (x_ xs i) 0) *
                 (y_ ys i 0 - post_mean K M (k_new K 1) mm (without i xs) (without i ys) 1 (Bs i) (x_ xs i) 0) = 4).
    { unfold post_mean, resid, prior_mean, y_, data_mean. cbn zeta. destruct i as [|[|i]]; [| |lia]; cbn -[cov k_new K]; field. }
    assert (Ev' : post_var K (k_new K 1) (without i xs) (Bs i) (x_ xs i) + (k_noise K (k_new K 1) + / 100000000) = v).
    { unfold post_var, cov. cbn zeta. replace (length (without i xs)) with 1%nat by (destruct i as [|[|i]]; [reflexivity|reflexivity|lia]). cbn [rsum].
      rewrite G1 by exact Hi. rewrite noise_new. unfold x_. destruct i as [|[|i]]; [| |lia];
      [change (nth 0 (without 0 xs) []) with [1]; change (nth 0 xs []) with [0]|change (nth 0 (without 1 xs) []) with [0]; change (nth 1 xs []) with [1]];
      rewrite ker00; [rewrite (proj2 ker01)|rewrite (proj1 ker01)]; rewrite Eb; unfold v; replace 1 with (a - / 100000000) at 1 by (rewrite Ea; ring); field; exact a0. }
    rewrite Em, Ev'. reflexivity. }
  assert (Al : forall i, (i < 2)%nat -> bwd 2 L (fwd 2 L r) i * bwd 2 L (fwd 2 L r) i = / ((a - b) * (a - b))).
  { intros i Hi. rewrite (Sol i Hi). cbn [rsum]. rewrite r0, r1. assert (a - b <> 0) by (apply Rgt_not_eq; lra). 
    destruct i as [|[|i]]; [rewrite B00, B01|rewrite B10, B11|lia]; field; split; auto. }
  match goal with |- ?u > ?w =>
    assert (Ew : w = rsum 2 (fun _ => - (1 / 2) * (4 / v) - 1 / 2 * ln v - 1 / 2 * ln (2 * PI))) by (apply (rsum_ext 2); exact Lo);
    assert (Eu : u = rsum 2 (fun _ => - (1 / 2) * (/ ((a - b) * (a - b)) * v) - 1 / 2 * ln v - 1 / 2 * ln (2 * PI)))
  end.
  { apply (rsum_ext 2). intros i Hi. rewrite <- (Al i Hi), <- (Bv i Hi). reflexivity. }
  rewrite Ew, Eu. cbn [rsum].
  assert (Hlt : / ((a - b) * (a - b)) * v < 4 / v); [|lra].
  assert (Hab : 0 < a - b) by lra.
  replace (4 / v) with (/ ((a - b) * (a - b)) * v + (3 * a + b) / (a * (a + b))); [|unfold v; field; repeat split; apply Rgt_not_eq; nra].
  assert (0 < (3 * a + b) / (a * (a + b))) by (apply Rdiv_lt_0_compat; nra). lra.
Qed.
End Refuted.
