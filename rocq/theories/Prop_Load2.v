(** C39 for the kernels and mean functions of limbo; C29 and C39: what [load(archive, false)] leaves behind. *)
From Coq Require Import Reals List Bool ZArith Lia Lra.
From Verif Require Import LinAlgModel LinAlg KernelModel GPModel GPSpec GPFacts Prop_GP Prop_Load KernelSpec KernelFacts MeanSpec MeanFacts Prop_Mean.
Import ListNotations.
Open Scope R_scope.

Section Limbo.
Variables (sf2 l : R) (k : nat) (C : CKern) (noise0 : R) (opt : bool) (M : Mean).
Hypotheses (Hs : 0 < sf2) (Hl : 0 < l) (HC : In C (kernels sf2 l k)) (Hn : 0 <= noise0) (Ho : opt = true -> 0 < noise0) (HM : means M).
Notation K := (BaseKernel C noise0 opt).

Lemma limbo_KernRT (O : CKernOK C) : KernRT (base_OK C O noise0 opt Hn Ho).
Proof.
  constructor.
  - intros d st H. apply (base_sizes C O noise0 opt Ho d st H).
  - intros d st H. apply (base_sizes C O noise0 opt Ho d st H).
  - intros d st st' H H'. apply (base_set_get C O noise0 opt Ho d st st' H H').
Qed.
Lemma limbo_MeanRT (T : MeanRT M) : MeanRT' (RT_OK M T).
Proof.
  constructor.
  - intros p st H. now apply (mr_size T).
  - intros p st H. now apply (mr_hlen T p).
  - intros p st st' H H'. now apply (mr_set_get T p).
Qed.

(** C39 for every limbo GP: any valid history, saved, loaded into any object, then any valid history *)
Theorem C39_limbo_gp g0 s0 os g1 b os' :
  fresh K M g0 s0 -> valid_all K M s0 os ->
  let s := meaning K M s0 os in
  s_xs K M s <> [] -> s_dk K M s = false -> s_dm K M s = false ->
  valid_all K M s os' -> first_call_fine K M b os' ->
  exists g g2 g' g2', run K M g0 os = Done g /\ load K M g1 (save K M g) b = Done g2 /\
    run K M g os' = Done g' /\ run K M g2 os' = Done g2' /\
  let s' := meaning K M s os' in
  (s_dk K M s' = false -> s_dm K M s' = false ->
   forall v, s_din K M s' = Some (length v) ->
    mu K M g2' v = mu K M g' v /\ sigma K M g2' v = sigma K M g' v /\ query K M g2' v = query K M g' v).
Proof.
  intros F V s Hx Hk Hm V' FC. destruct (kernels_OK _ _ _ _ Hs Hl HC) as [O]. destruct (means_RT M HM) as [T].
  destruct (C24_valid_histories_succeed K M (base_OK C O noise0 opt Hn Ho) (RT_OK M T) g0 s0 os F V) as (g & E).
  destruct (C39_stays_equivalent K M (base_OK C O noise0 opt Hn Ho) (RT_OK M T) (limbo_KernRT O) (limbo_MeanRT T) g0 s0 os g g1 b os' F E Hx Hk Hm V' FC)
    as (g2 & g' & g2' & E2 & E3 & E4 & H).
  exists g, g2, g', g2'. auto.
Qed.
End Limbo.

Section Witness.
Let C := Exp 1 1.
Let K := BaseKernel C 0 false.
Let M := NullFunction.
Let Ok0 : CKernOK C := exp_OK 1 1 Rlt_0_1 Rlt_0_1.
Lemma w_Hn : 0 <= 0. Proof. lra. Qed.
Lemma w_Ho : false = true -> 0 < 0. Proof. discriminate. Qed.
Let KO := base_OK C Ok0 0 false w_Hn w_Ho.
Let MO := RT_OK M null_RT.
Let trained : list (op K M) := [Compute [[0]] [[1]] true; Inverse].
Let other : list (op K M) := [Compute [[0]] [[1]] true; SetK [0; 1]; Recompute false true].
Let s0 := s_default K M.

(** the hypotheses of [C39_limbo_gp] are met by a non-trivial history *)
Example C39_hypotheses : valid_all K M s0 other /\ s_xs K M (meaning K M s0 other) <> [] /\
  s_dk K M (meaning K M s0 other) = false /\ s_dm K M (meaning K M s0 other) = false /\
  valid_all K M (meaning K M s0 other) [Add (fun _ _ => 0) (fun _ _ => 7) [3] [2]; Inverse; SetK [0; 0]; Recompute true true] /\
  first_call_fine K M false [Add (fun _ _ => 0) (fun _ _ => 7) [3] [2]; Inverse; SetK [0; 0]; Recompute true true].
Proof. cbn. repeat split; try discriminate; try lia; repeat constructor; auto. Qed.

Lemma ker_new : k_ker K (k_new K 1) [0] [0] = 1.
Proof.
  unfold K, C. cbn [k_ker BaseKernel c_ker Exp k_new b_c c_new]. unfold exp_kernel, iso_new. cbn [i_l i_sf2].
  replace (- (1 / 2) * (sqdist [0] [0] / (1 * 1))) with 0; [rewrite exp_0; ring|].
  unfold sqdist. cbn. field.
Qed.
Lemma ker_other st : k_ker K (k_set K st [0; 1]) [0] [0] = exp 2.
Proof.
  unfold K, C. cbn [k_ker BaseKernel c_ker Exp k_set b_c c_set c_size firstn]. unfold exp_kernel, iso_set. cbn [i_l i_sf2 vget nth].
  replace (- (1 / 2) * (sqdist [0] [0] / (exp 0 * exp 0))) with 0.
  - rewrite exp_0, Rmult_1_r. f_equal. ring.
  - rewrite exp_0. unfold sqdist. cbn. field.
Qed.
Lemma noise0_ st : k_noise K st = b_noise st. Proof. reflexivity. Qed.
Lemma is_inv_1 A B : is_inv 1 A B -> A 0%nat 0%nat * B 0%nat 0%nat = 1.
Proof. intros (H & _). specialize (H O O ltac:(lia) ltac:(lia)). cbn in H. unfold mmul, delta in H. cbn in H. lra. Qed.

Lemma trained_state : exists g, run K M (gp_default K M) trained = Done g /\ inv K M KO MO g (meaning K M s0 trained) /\
  g_inv_updated K M g = true /\ (1 + / 100000000) * at_ (g_inv K M g) 0 0 = 1.
Proof.
  assert (I0 : inv K M KO MO (gp_default K M) s0) by (apply fresh_inv; constructor).
  assert (V : valid_all K M s0 trained) by (cbn; repeat split; try discriminate; try lia; repeat constructor; auto).
  destruct (run_progress K M KO MO trained _ _ I0 V) as (g & E & I). exists g. split; [exact E|]. split; [exact I|].
  assert (U : g_inv_updated K M g = true).
  { unfold trained in E. cbn [run exec] in E. apply bind_done in E. destruct E as (ga & _ & E). apply bind_done in E.
    destruct E as (gb & E & E'). injection E' as <-. unfold compute_inv_kernel in E. apply check_done in E. destruct E as [_ E].
    destruct diag_ok; [|discriminate]. now injection E as <-. }
  split; [exact U|]. destruct (v_nonempty _ _ _ _ _ _ I) as (_ & _ & _ & _ & _ & _ & _ & _ & _ & A10); [cbn; discriminate|].
  destruct (A10 eq_refl) as (_ & _ & _ & L4 & _). destruct (L4 U) as (_ & _ & L5).
  apply is_inv_1 in L5. unfold GPFacts.G, gram in L5. cbn [meaning fold_left trained s_step s_xs s_k onat_eqb s_din s0 s_default x_ nth Nat.eqb] in L5.
  change (length (hd [] [[0]])) with 1%nat in L5. cbn in L5. change (k_ker K (k_new K 1) [0] [0] + (0 + / 100000000)) with (k_ker K (k_new K 1) [0] [0] + (0 + / 100000000)) in L5.
  change (exp_kernel (iso_new 1 1) [0] [0]) with (k_ker K (k_new K 1) [0] [0]) in L5. rewrite ker_new in L5. lra.
Qed.

(** C29 fails when the kernel parameters are set without a recomputation: the cached inverse is
    considered up to date but is not the inverse of the kernel matrix of the current parameters. *)
Theorem C29_stale_inverse_after_set_params_refuted : exists (K : Kern) (M : Mean) os g,
  valid_all K M (s_default K M) os /\ run K M (gp_default K M) os = Done g /\
  need_inv K M g = Done g /\ ~ is_inv (length (g_samples K M g)) (gram K (g_k K M g) (g_samples K M g)) (at_ (g_inv K M g)).
Proof.
  destruct trained_state as (g & E & I & U & V).
  assert (X : exists g', exec K M g (SetK [0; 1]) = Done g' /\ need_inv K M g' = Done g' /\
    g_samples K M g' = [[0]] /\ g_inv K M g' = g_inv K M g /\ g_k K M g' = k_set K (k_new K 1) [0; 1]).
  { eexists. split; [reflexivity|]. unfold need_inv. cbn [with_dims g_inv_updated g_samples g_inv g_k]. rewrite U.
    repeat split. rewrite (v_samples _ _ _ _ _ _ I). reflexivity. rewrite (v_k _ _ _ _ _ _ I). reflexivity. }
  destruct X as (g' & E' & U' & S' & V' & K').
  exists K, M, [Compute [[0]] [[1]] true; Inverse; SetK [0; 1]], g'.
  split; [cbn; repeat split; try discriminate; try lia; repeat constructor; auto|].
  split. { unfold trained in E. cbn [run] in *. apply bind_done in E. destruct E as (ga & -> & E). cbn [bind] in *. apply bind_done in E.
           destruct E as (gb & -> & E0). injection E0 as ->. cbn [bind]. rewrite E'. reflexivity. }
  split; [exact U'|]. rewrite S', V', K'. intro H. apply is_inv_1 in H. unfold gram in H. cbn [x_ nth Nat.eqb] in H. rewrite ker_other in H.
  change (k_noise K (k_set K (k_new K 1) [0; 1])) with 0 in H. pose proof (exp_ineq1 2 ltac:(lra)). nra.
Qed.

(** C29 fails after [load(archive, false)] into a GP whose inverse was computed before: the loaded GP
    predicts correctly (C39) but gradients and the leave-one-out score use the inverse of the kernel
    matrix the object had before loading. *)
Theorem C29_stale_inverse_after_load_refuted : exists (K : Kern) (M : Mean) os1 os2 g1 g2 g,
  valid_all K M (s_default K M) os1 /\ run K M (gp_default K M) os1 = Done g1 /\
  valid_all K M (s_default K M) os2 /\ run K M (gp_default K M) os2 = Done g2 /\
  s_dk K M (meaning K M (s_default K M) os2) = false /\
  load K M g1 (save K M g2) false = Done g /\
  need_inv K M g = Done g /\ ~ is_inv (length (g_samples K M g)) (gram K (g_k K M g) (g_samples K M g)) (at_ (g_inv K M g)).
Proof.
  destruct trained_state as (g1 & E1 & I1 & U & V).
  assert (I0 : inv K M KO MO (gp_default K M) s0) by (apply fresh_inv; constructor).
  assert (V2 : valid_all K M s0 other) by (cbn; repeat split; try discriminate; try lia; repeat constructor; auto).
  destruct (run_progress K M KO MO other _ _ I0 V2) as (g2 & E2 & I2).
  assert (X : exists g, load K M g1 (save K M g2) false = Done g /\ need_inv K M g = Done g /\
    g_samples K M g = [[0]] /\ g_inv K M g = g_inv K M g1 /\ g_k K M g = k_set K (k_new K 1) [0; 1]).
  { unfold load, save. cbn [ar_samples ar_kernel ar_mean ar_obs ar_L ar_alpha].
    rewrite (v_samples _ _ _ _ _ _ I2), (v_k _ _ _ _ _ _ I2). cbn. eexists. split; [reflexivity|]. unfold need_inv. cbn. rewrite U. auto. }
  destruct X as (g & E & U' & S' & V' & K').
  exists K, M, trained, other, g1, g2, g. split; [cbn; repeat split; try discriminate; try lia; repeat constructor; auto|].
  split; [exact E1|]. split; [exact V2|]. split; [exact E2|]. split; [reflexivity|]. split; [exact E|].
  split; [exact U'|]. rewrite S', V', K'. intro H. apply is_inv_1 in H. unfold gram in H. cbn [x_ nth Nat.eqb] in H. rewrite ker_other in H.
  change (k_noise K (k_set K (k_new K 1) [0; 1])) with 0 in H. pose proof (exp_ineq1 2 ltac:(lra)). nra.
Qed.

(** C39: besides, [load(archive, false)] does not restore [_obs_mean]; in a new object the likelihood
    of the loaded GP is a product of matrices of incompatible sizes. *)
Theorem C39_likelihood_after_load_refuted : exists (K : Kern) (M : Mean) os g g2 l,
  valid_all K M (s_default K M) os /\ run K M (gp_default K M) os = Done g /\ compute_log_lik K M g = Done l /\
  load K M (gp_default K M) (save K M g) false = Done g2 /\ compute_log_lik K M g2 = Undefined.
Proof.
  destruct trained_state as (g & E & I & U & V).
  destruct (v_nonempty _ _ _ _ _ _ I) as (_ & _ & _ & A4 & _ & _ & A7 & A8 & _ & A10); [cbn; discriminate|].
  destruct (A10 eq_refl) as (L1 & L2 & L3 & L4 & AL). destruct (AL eq_refl) as (B1 & B2 & _).
  assert (X : exists g2, load K M (gp_default K M) (save K M g) false = Done g2 /\ g_alpha K M g2 = g_alpha K M g /\ g_obs_mean K M g2 = empty_mat).
  { unfold load, save. cbn [ar_samples ar_kernel ar_mean ar_obs ar_L ar_alpha].
    rewrite (v_samples _ _ _ _ _ _ I), (v_k _ _ _ _ _ _ I). cbn. eexists. split; [reflexivity|]. cbn. auto. }
  destruct X as (g2 & E2 & Ea & Eo).
  assert (Y : exists l, compute_log_lik K M g = Done l).
  { unfold compute_log_lik. rewrite A7, A8, B1, B2, L1, L2, !Nat.eqb_refl. cbn [andb check].
    change (GPFacts.N K M (meaning K M s0 trained)) with 1%nat. change (GPFacts.N K M (meaning K M s0 trained)) with 1%nat in L3.
    cbn [all_pos]. destruct L3 as ((_ & Lp) & _). pose proof (Lp 0%nat ltac:(lia)) as Lp0. destruct Rlt_dec; [|contradiction]. eexists; reflexivity. }
  destruct Y as (ll & Ell). exists K, M, trained, g, g2, ll.
  split; [cbn; repeat split; try discriminate; try lia; repeat constructor; auto|].
  split; [exact E|]. split; [exact Ell|]. split; [exact E2|]. unfold compute_log_lik. rewrite Ea, Eo, B1. reflexivity.
Qed.
End Witness.
