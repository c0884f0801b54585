(** C64: the objective that the sparse Gaussian process gives to the optimizer of its parameters. *)
From Coq Require Import Reals List Bool Lia Lra ZArith.
From Verif Require Import LinAlgModel LinAlg KernelModel Psd Det GPModel GPSpec GPFacts MeanFacts Prop_Lik SpgpModel SpgpSpec SpgpAlg Prop_Spgp Prop_Spgp2.
Import ListNotations.
Open Scope R_scope.

Lemma fwd_sum m L n (F : nat -> nat -> R) (y : nat -> R) i : lower m L -> (i < m)%nat ->
  rsum n (fun j => fwd m L (fun a => F a j) i * y j) = fwd m L (fun a => rsum n (fun j => F a j * y j)) i.
Proof.
  intros HL. induction i as [i IH] using (well_founded_induction Wf_nat.lt_wf). intro Hi.
  pose proof (proj2 HL i Hi) as P. rewrite (fwd_eq m L (fun a => rsum n (fun j => F a j * y j)) i Hi).
  rewrite (rsum_ext i _ (fun k => rsum n (fun j => L i k * (fwd m L (fun a => F a j) k * y j)))).
  2:{ intros k Hk. rewrite <- IH by lia. now rewrite rsum_scal_l. }
  rewrite rsum_swap, <- rsum_minus. unfold Rdiv. rewrite <- rsum_scal_r. apply rsum_ext. intros j Hj.
  rewrite (fwd_eq m L (fun a => F a j) i Hi). rewrite (rsum_ext i (fun k => L i k * (fwd m L (fun a => F a j) k * y j)) (fun k => L i k * fwd m L (fun a => F a j) k * y j)) by (intros; ring). rewrite rsum_scal_r. field. lra.
Qed.

(** ** Log-density in terms of the quantities that the program computes *)
Section LikCore.
Variables (m n : nat) (Q L K0 : nat -> nat -> R) (c s : R) (B : nat -> nat -> R).
Hypothesis HL : is_chol m L Q.
Hypothesis HB : is_inv m Q B.
Hypothesis Hs : 0 < s.
Hypothesis Hep : forall j, (j < n)%nat -> 0 < ep m L K0 c s j.
Variables (Ai Lm : nat -> nat -> R) (r : nat -> R).
Hypothesis HAi : is_inv n (A_ m K0 c s B) Ai.
Let Vv := V m L K0 c s.
Hypothesis HLm : is_chol m Lm (MM n s Vv).
Let y := y_ m L K0 c s r.
Let e := ep m L K0 c s.
Lemma det_core : 0 < det n (A_ m K0 c s B) /\
  ln (det n (A_ m K0 c s B)) = rsum n (fun j => ln (e j)) + 2 * rsum m (fun i => ln (Lm i i)) + (INR n - INR m) * ln s.
Proof.
  pose proof (HH_symm m n s Vv) as SH. pose proof (HH_pd m n s Vv Hs) as PH. destruct (chol_succeeds n _ SH PH) as [LH EH]. pose proof (chol_is_chol n _ LH SH EH) as CH.
  pose proof (ep_sqrt m n L K0 c s Hep) as SE.
  assert (CA : is_chol n (fun i j => sqrt (e i) * LH i j) (A_ m K0 c s B)).
  { destruct CH as [[U D] F]. split; [split|].
    - intros i j Hi Hj Hij. rewrite U by auto. ring.
    - intros i Hi. apply Rmult_lt_0_compat; [apply SE|apply D]; auto.
    - intros i j Hi Hj. rewrite (A_H m n Q L K0 c s B HL HB Hs Hep i j Hi Hj). fold Vv. rewrite <- (F i j Hi Hj). fold e. rewrite <- rsum_scal_l, <- rsum_scal_r. apply rsum_ext. intros; ring. }
  destruct (logdet_chol n _ _ CA) as [PA EA]. destruct (logdet_chol n _ _ CH) as [PD ED]. destruct (logdet_chol m _ _ HLm) as [PM EM].
  split; [exact PA|]. rewrite EA.
  pose proof (sylvester m n s Vv Hs Lm LH HLm CH) as SY.
  assert (EL : INR n * ln s + ln (det m (MM n s Vv)) = INR m * ln s + ln (det n (HH m s Vv))).
  { rewrite <- (ln_pow s Hs n), <- (ln_pow s Hs m). rewrite <- !ln_mult; auto; try (now apply pow_lt). now rewrite SY. }
  rewrite (rsum_ext n _ (fun i => ln (e i) / 2 + ln (LH i i))).
  2:{ intros i Hi. destruct (SE i Hi) as [P1 P2]. fold e in P1, P2. rewrite ln_mult; auto; [|apply CH; auto]. f_equal. rewrite <- P2 at 2. rewrite ln_mult by auto. field. }
  rewrite rsum_plus. unfold Rdiv. rewrite rsum_scal_r. rewrite <- EM. rewrite ED in EL. nra.
Qed.
Lemma quad_core : rsum n (fun i => rsum n (fun j => r i * Ai i j * r j)) =
  (rsum n (fun j => y j * y j) - rsum m (fun i => fwd m Lm (fun a => rsum n (fun j => Vv a j * y j)) i * fwd m Lm (fun a => rsum n (fun j => Vv a j * y j)) i)) / s.
Proof.
  pose proof (Hi_inv m n Q L K0 c s B HL HB Hs Hep Ai HAi) as HI. pose proof (Mi_inv m n L K0 c s Lm HLm) as HM. fold Vv in HI, HM.
  rewrite <- (bilin_chol m Lm (MM n s Vv) (Mi m Lm) (fun a => rsum n (fun j => Vv a j * y j)) (fun a => rsum n (fun j => Vv a j * y j)) HLm HM).
  apply (Rmult_eq_reg_l s); [|lra].
  match goal with |- _ = s * (?z / s) => replace (s * (z / s)) with z by (field; lra) end.
  transitivity (rsum n (fun i => rsum n (fun j => y i * (s * Hi_ m L K0 c s Ai i j) * y j))).
  { rewrite <- rsum_scal_l. apply rsum_ext. intros i Hi. rewrite <- rsum_scal_l. apply rsum_ext. intros j Hj. destruct (ep_sqrt m n L K0 c s Hep i Hi), (ep_sqrt m n L K0 c s Hep j Hj).
    unfold y, y_, Hi_. field. lra. }
  rewrite (rsum_ext n _ (fun i => y i * y i - rsum n (fun j => y i * rsum m (fun a => Vv a i * mmul m (Mi m Lm) Vv a j) * y j))).
  2:{ intros i Hi. rewrite (rsum_ext n _ (fun j => y i * (delta i j * y j) - y i * rsum m (fun a => Vv a i * mmul m (Mi m Lm) Vv a j) * y j)).
      - rewrite rsum_minus, rsum_scal_l, delta_sum by auto. reflexivity.
      - intros j Hj. rewrite (woodbury m n s Vv (Mi m Lm) _ HM HI i j Hi Hj). ring. }
  rewrite rsum_minus. f_equal.
  transitivity (rsum n (fun i => rsum m (fun a => Vv a i * y i * rsum n (fun j => mmul m (Mi m Lm) Vv a j * y j)))).
  { apply rsum_ext. intros i Hi. transitivity (rsum n (fun j => rsum m (fun a => Vv a i * y i * (mmul m (Mi m Lm) Vv a j * y j)))).
    - apply rsum_ext. intros j Hj. rewrite <- rsum_scal_l, <- rsum_scal_r. apply rsum_ext. intros; ring.
    - rewrite rsum_swap. apply rsum_ext. intros a Ha. now rewrite rsum_scal_l. }
  rewrite rsum_swap. apply rsum_ext. intros a Ha. rewrite rsum_scal_r, <- rsum_scal_l. set (sa := rsum n (fun i => Vv a i * y i)).
  transitivity (rsum n (fun j => rsum m (fun b => sa * (Mi m Lm a b * (Vv b j * y j))))).
  - apply rsum_ext. intros j Hj. unfold mmul. rewrite <- rsum_scal_r, <- rsum_scal_l. apply rsum_ext. intros; ring.
  - rewrite rsum_swap. apply rsum_ext. intros b Hb. rewrite !rsum_scal_l. ring.
Qed.
Lemma log_core : log_gauss n (A_ m K0 c s B) Ai r =
  - (rsum m (fun i => ln (Lm i i)) + (INR n - INR m) / 2 * ln s
     + (rsum n (fun j => y j * y j) - rsum m (fun i => fwd m Lm (fun a => rsum n (fun j => Vv a j * y j)) i * fwd m Lm (fun a => rsum n (fun j => Vv a j * y j)) i)) / (2 * s)
     + rsum n (fun j => ln (e j)) / 2 + 0.5 * INR n * ln (2 * PI)).
Proof.
  unfold log_gauss. rewrite quad_core, (proj2 det_core). set (x := ln (2 * PI)). replace 0.5 with (1 / 2) by lra. field. lra.
Qed.
End LikCore.

(** ** The program *)
Lemma half_diff_even n m : (m <= n)%nat -> (Z.of_nat n < 2 ^ 64)%Z -> Nat.even (n - m) = true -> half_diff m n = (INR n - INR m) / 2.
Proof.
  intros Hm Hn He. unfold half_diff. rewrite Z.mod_small by lia. apply Nat.even_spec in He. destruct He as [k Hk].
  replace (Z.of_nat n - Z.of_nat m)%Z with (Z.of_nat k * 2)%Z by lia. rewrite Z.div_mul by lia. rewrite <- INR_IZR_INZ.
  replace n with (m + 2 * k)%nat at 1 by lia. rewrite plus_INR, mult_INR. cbn. lra.
Qed.
Lemma half_diff_odd n m : (m <= n)%nat -> (Z.of_nat n < 2 ^ 64)%Z -> Nat.even (n - m) = false -> half_diff m n = (INR n - INR m) / 2 - 1 / 2.
Proof.
  intros Hm Hn He. unfold half_diff. rewrite Z.mod_small by lia. assert (Ho : Nat.odd (n - m) = true) by (unfold Nat.odd; now rewrite He). apply Nat.odd_spec in Ho. destruct Ho as [k Hk].
  replace (Z.of_nat n - Z.of_nat m)%Z with (1 + Z.of_nat k * 2)%Z by lia. rewrite Z.div_add by lia. change (1 / 2)%Z with 0%Z. rewrite Z.add_0_l, <- INR_IZR_INZ.
  replace n with (m + 2 * k + 1)%nat at 1 by lia. rewrite !plus_INR, mult_INR. cbn. lra.
Qed.

Section Entries.
Variables (d : nat) (h : hyper) (X : nat -> nat -> R).
Hypothesis Hb : forall k, (k < d)%nat -> 0 <= SpgpModel.h_b h k.
Lemma l_Q_cov del i j : l_Q d del h i j = pseudo_cov d (SpgpModel.h_b h) (SpgpModel.h_c h) del (SpgpModel.h_xb h) i j.
Proof.
  unfold l_Q, pseudo_cov. rewrite <- (kernel_entry_se d (SpgpModel.h_b h) (SpgpModel.h_c h) (SpgpModel.h_xb h i) (SpgpModel.h_xb h j) Hb). unfold kernel_entry, l_xb, delta. cbv zeta.
  rewrite Rmult_comm. f_equal. f_equal. f_equal. ring.
Qed.
Lemma l_K_se i j : l_K d h X i j = se d (SpgpModel.h_b h) (SpgpModel.h_c h) (SpgpModel.h_xb h i) (X j).
Proof. unfold l_K. rewrite <- (kernel_entry_se d (SpgpModel.h_b h) (SpgpModel.h_c h) (SpgpModel.h_xb h i) (X j) Hb). unfold kernel_entry, l_xb, l_x. cbv zeta. apply Rmult_comm. Qed.
End Entries.

(** the factorisations succeed, and the value is the negative log-density up to the integer division *)
Section Value.
Variables (m n d : nat) (del : R) (h : hyper) (X : nat -> nat -> R) (r : nat -> R).
Hypothesis Hb : forall k, (k < d)%nat -> 0 < SpgpModel.h_b h k.
Hypothesis Hc : 0 < SpgpModel.h_c h.
Hypothesis Hs : 0 < SpgpModel.h_sig h.
Hypothesis Hdel : 0 < del.
Let b := SpgpModel.h_b h.
Let c := SpgpModel.h_c h.
Let sg := SpgpModel.h_sig h.
Let xb := SpgpModel.h_xb h.
Let Hb' : forall k, (k < d)%nat -> 0 <= SpgpModel.h_b h k := fun k Hk => Rlt_le _ _ (Hb k Hk).
Let K0 := l_K d h X.
Lemma l_Q_symm : symm m (l_Q d del h).
Proof. intros i j Hi Hj. rewrite !l_Q_cov by exact Hb'. now apply (pseudo_symm d b c del m xb). Qed.
Lemma l_Q_pd : pd m (l_Q d del h).
Proof. apply (pd_ext m (pseudo_cov d b c del xb)); [|now apply pseudo_pd]. intros i j _ _. now rewrite l_Q_cov. Qed.
Lemma l_ep_pos L : is_chol m L (l_Q d del h) -> forall j, 0 < l_ep m d h X L j.
Proof.
  intros HL j. assert (HL' : is_chol m L (pseudo_cov d b c del xb)) by (apply (is_chol_ext m L (l_Q d del h)); [intros i k _ _; now apply l_Q_cov|auto]).
  destruct (inv_of_is_inv m L _ HL') as [HB SB]. pose proof (through_le d b c del m xb Hc Hdel Hb _ (X j) HB SB) as T.
  rewrite through_q in T. rewrite (q_V0 m _ L (fun a j => se d b c (xb a) (X j)) _ HL' HB) in T.
  assert (E : rsum m (fun k => V0 m L (fun a j => se d b c (xb a) (X j)) k j * V0 m L (fun a j => se d b c (xb a) (X j)) k j) = rsum m (fun i => l_V0 m d h X L i j * l_V0 m d h X L i j)).
  { apply rsum_ext. intros i Hi. unfold V0, l_V0. rewrite (fwd_ext m L L (fun a => se d b c (xb a) (X j)) (fun a => l_K d h X a j)); auto. intros a Ha. symmetry. now apply l_K_se. }
  rewrite E in T. unfold l_ep.
  assert (0 <= (SpgpModel.h_c h - rsum m (fun i => l_V0 m d h X L i j * l_V0 m d h X L i j)) / SpgpModel.h_sig h); [|lra].
  apply Rmult_le_pos; [fold c; lra|]. apply Rlt_le, Rinv_0_lt_compat, Hs.
Qed.
Lemma l_M_MM L i j : l_M m n d h X L i j = MM n sg (V m L K0 c sg) i j.
Proof. reflexivity. Qed.
Lemma factors_exist : exists L Lm, chol m (l_Q d del h) = Some L /\ is_chol m L (l_Q d del h) /\ all_pos n (l_ep m d h X L) = true /\
  chol m (l_M m n d h X L) = Some Lm /\ is_chol m Lm (l_M m n d h X L).
Proof.
  destruct (chol_succeeds m _ l_Q_symm l_Q_pd) as [L EL]. pose proof (chol_is_chol m _ L l_Q_symm EL) as CL.
  pose proof (MM_symm m n sg (V m L K0 c sg)) as SM. pose proof (MM_pd m n sg (V m L K0 c sg) Hs) as PM.
  destruct (chol_succeeds m (l_M m n d h X L) SM PM) as [Lm EM]. pose proof (chol_is_chol m (l_M m n d h X L) Lm SM EM) as CM.
  exists L, Lm. split; [exact EL|]. split; [exact CL|]. split; [|split; [exact EM|exact CM]].
  apply all_pos_true. intros j Hj. now apply l_ep_pos.
Qed.
Lemma l_bet_fwd L Lm i : is_chol m Lm (l_M m n d h X L) -> (i < m)%nat ->
  l_bet m n d h X r L Lm i = fwd m Lm (fun a => rsum n (fun j => V m L K0 c sg a j * y_ m L K0 c sg r j)) i.
Proof. intros [Lo _] Hi. exact (fwd_sum m Lm n (V m L K0 c sg) (y_ m L K0 c sg r) i Lo Hi). Qed.
Lemma A_obs B i j : A_ m K0 c sg B i j = obs_cov d b c sg m xb X B i j.
Proof.
  assert (E : forall i j, q_ m B (fun a => K0 a i) (fun a => K0 a j) = q_ m B (fun a => se d b c (xb a) (X i)) (fun a => se d b c (xb a) (X j))).
  { intros p q. unfold q_. apply rsum_ext; intros u _; apply rsum_ext; intros v _; unfold K0; now rewrite !l_K_se. }
  unfold A_, obs_cov. rewrite !through_q, !E. reflexivity.
Qed.
Lemma value_ok L Lm B A : is_chol m L (l_Q d del h) -> is_chol m Lm (l_M m n d h X L) ->
  is_inv m (pseudo_cov d b c del xb) B -> is_inv n (obs_cov d b c sg m xb X B) A ->
  - l_fw m n d h X r L Lm = log_gauss n (obs_cov d b c sg m xb X B) A r + ((INR n - INR m) / 2 - half_diff m n) * ln sg.
Proof.
  intros CL CM HB HA.
  assert (HB' : is_inv m (l_Q d del h) B).
  { destruct HB as [H1 H2]. split; intros i j Hi Hj; [rewrite <- (H1 i j Hi Hj)|rewrite <- (H2 i j Hi Hj)]; unfold mmul; apply rsum_ext; intros k Hk; now rewrite l_Q_cov. }
  assert (HA' : is_inv n (A_ m K0 c sg B) A).
  { destruct HA as [H1 H2]. split; intros i j Hi Hj; [rewrite <- (H1 i j Hi Hj)|rewrite <- (H2 i j Hi Hj)]; unfold mmul; apply rsum_ext; intros k Hk; now rewrite A_obs. }
  pose proof (log_core m n _ L K0 c sg B CL HB' Hs (fun j _ => l_ep_pos L CL j) A Lm r HA' CM) as LC.
  assert (E : log_gauss n (obs_cov d b c sg m xb X B) A r = log_gauss n (A_ m K0 c sg B) A r).
  { unfold log_gauss. rewrite (det_ext n (obs_cov d b c sg m xb X B) (A_ m K0 c sg B)); auto. intros i j _ _. symmetry. apply A_obs. }
  rewrite E, LC. unfold l_fw.
  rewrite (rsum_ext m (fun i => l_bet m n d h X r L Lm i * l_bet m n d h X r L Lm i)
    (fun i => fwd m Lm (fun a => rsum n (fun j => V m L K0 c sg a j * y_ m L K0 c sg r j)) i * fwd m Lm (fun a => rsum n (fun j => V m L K0 c sg a j * y_ m L K0 c sg r j)) i)).
  2:{ intros i Hi. now rewrite !l_bet_fwd by auto. }
  fold c sg. change (l_y m d h X r L) with (y_ m L K0 c sg r). change (l_ep m d h X L) with (ep m L K0 c sg). ring.
Qed.
End Value.

Section C64.
Variables (K : Kern) (M : Mean) (MO : MeanOK M) (jit pct : R) (min_m : nat) (sig0 c0 l0 : R).
Hypothesis Hjit : 0 < jit.

(** the likelihood of a state with data: every matrix that is factorised is positive definite *)
Theorem C64_value (s : spgp K M) m d del w :
  p_m K M s = Some m -> p_din K M s = Some d -> p_del K M s = Some del -> 0 < del ->
  rows (p_zm K M s) = length (p_X K M s) -> cols (p_zm K M s) = 1%nat -> ((m + 1) * d + 2 <= length w)%nat ->
  let n := length (p_X K M s) in
  let X := fun i k => vget (nth i (p_X K M s) []) k in
  let r := fun j => at_ (p_zm K M s) j 0 in
  let xb := u_xb m w in let b := u_b m d w in let c := u_c m d w in let sg := u_sig m d w in
  (m <= n)%nat -> (Z.of_nat n < 2 ^ 64)%Z ->
  exists f g, likelihood K M s w = Done (f, g) /\
  (exists B A, is_inv m (pseudo_cov d b c del xb) B /\ is_inv n (obs_cov d b c sg m xb X B) A) /\
  forall B A, is_inv m (pseudo_cov d b c del xb) B -> is_inv n (obs_cov d b c sg m xb X B) A ->
    f = log_gauss n (obs_cov d b c sg m xb X B) A r + (if Nat.even (n - m) then 0 else 1 / 2 * ln sg).
Proof.
  intros Em Ed Edel Hdel Hr Hco Hw n X r xb b c sg Hmn Hn. unfold likelihood. rewrite Em, Ed, Edel. unfold hyper_params.
  rewrite (proj2 (Nat.leb_le _ _) Hw), Hr, Hco, !Nat.eqb_refl. cbn [andb check]. cbv zeta. fold n. unfold of_rows. cbn [at_]. fold X r.
  set (h := mkHp _ _ _ _).
  assert (Hb : forall k, (k < d)%nat -> 0 < SpgpModel.h_b h k) by (intros; apply exp_pos).
  assert (Hc : 0 < SpgpModel.h_c h) by apply exp_pos. assert (Hs : 0 < SpgpModel.h_sig h) by apply exp_pos.
  destruct (factors_exist m n d del h X Hb Hc Hs Hdel) as (L & Lm & EL & CL & EP & EM & CM). rewrite EL, EP, EM.
  do 2 eexists. split; [reflexivity|]. split.
  - destruct (inv_of_is_inv m L _ CL) as [HB _]. exists (inv_of m L).
    destruct (A_inv_ex m n _ L (l_K d h X) c sg _ CL HB Hs (fun j _ => l_ep_pos m d del h X Hb Hc Hs Hdel L CL j)) as (A & HA & _). exists A.
    assert (Hb' : forall k, (k < d)%nat -> 0 <= SpgpModel.h_b h k) by (intros; now apply Rlt_le, Hb). split.
    + destruct HB as [H1 H2]. split; intros i j Hi Hj; [rewrite <- (H1 i j Hi Hj)|rewrite <- (H2 i j Hi Hj)]; unfold mmul; apply rsum_ext; intros k Hk; rewrite (l_Q_cov d h Hb'); reflexivity.
    + destruct HA as [H1 H2]. split; intros i j Hi Hj; [rewrite <- (H1 i j Hi Hj)|rewrite <- (H2 i j Hi Hj)]; unfold mmul; apply rsum_ext; intros k Hk; rewrite (A_obs m d h X Hb); reflexivity.
  - intros B A HB HA. rewrite (value_ok m n d del h X r Hb Hc Hs Hdel L Lm B A CL CM HB HA). f_equal. fold sg. change (SpgpModel.h_sig h) with sg.
    destruct (Nat.even (n - m)) eqn:Ev.
    + rewrite half_diff_even by auto. ring.
    + rewrite half_diff_odd by auto. ring.
Qed.

(** the state in which a call runs its optimizer *)
Definition during (s : spgp K M) (o : sop) : outcome (spgp K M) :=
  match o with
  | SCompute _ _ X Y =>
      match X, Y with
      | x0 :: _, y0 :: _ =>
          check (same_length (length x0) X && same_length (length y0) Y && (length X =? length Y)%nat)
            (with_data_zm K M pct min_m s X Y (length x0) (length y0) (m_new M (length y0)) (k_new K (length x0)) (p_b K M s) (p_c K M s) (p_sig K M s) (Some jit))
      | _, _ => Undefined
      end
  | SAdd _ _ x y =>
      match p_X K M s with
      | [] => with_data_zm K M pct min_m s [x] (p_Y K M s ++ [y]) (length x) (length y) (m_new M (length y)) (k_new K (length x)) (repeat l0 (length x)) (Some c0) (Some sig0) (p_del K M s)
      | _ => check (onat_eqb (p_din K M s) (length x) && onat_eqb (p_dout K M s) (length y))
               (with_data_zm K M pct min_m s (p_X K M s ++ [x]) (p_Y K M s ++ [y]) (length x) (length y) (p_mean K M s) (p_kern K M s) (p_b K M s) (p_c K M s) (p_sig K M s) (p_del K M s))
      end
  | SRecompute _ _ => Done (init_true K M s)
  end.
Lemma exec_during s o : s_exec K M jit pct min_m sig0 c0 l0 s o = bind (during s o) (compute_ K M jit pct min_m (positions o) (optimizer o)).
Proof.
  destruct o as [pos opt X Y|pos opt x y|pos opt]; cbn [s_exec during positions optimizer].
  - unfold p_compute. destruct X as [|x0 X']; [reflexivity|]. destruct Y as [|y0 Y']; [reflexivity|]. cbv zeta.
    destruct (same_length (length x0) (x0 :: X') && same_length (length y0) (y0 :: Y') && (length (x0 :: X') =? length (y0 :: Y'))%nat)%bool; reflexivity.
  - unfold p_add. destruct (p_X K M s); [reflexivity|]. destruct (onat_eqb (p_din K M s) (length x) && onat_eqb (p_dout K M s) (length y))%bool; reflexivity.
  - reflexivity.
Qed.
Lemma with_data_m s X Y din dout mean kern b c sg del s' :
  with_data_zm K M pct min_m s X Y din dout mean kern b c sg del = Done s' -> p_m K M s' = Some (m_of pct min_m (length X)).
Proof. unfold with_data_zm. intro H. apply check_done in H. destruct H as [_ H]. injection H as <-. reflexivity. Qed.

Lemma during_ok d D o s : (is_compute o \/ (usable M pct min_m d D /\ ready K M jit d D s /\ p_m K M s = Some (m_of pct min_m (length (fst D))))) ->
  usable M pct min_m d (data_step D o) ->
  exists s1, during s o = Done s1 /\ ready K M jit d (data_step D o) s1 /\ p_m K M s1 = Some (m_of pct min_m (length (fst (data_step D o)))).
Proof.
  intros Hs U. destruct o as [pos opt X Y|pos opt x y|pos opt]; cbn [during data_step] in *.
  - destruct (data_ok K M MO jit pct min_m d (X, Y) s (k_new K d) (p_b K M s) (p_c K M s) (p_sig K M s) U) as (s1 & E1 & R1 & I1). cbn [fst snd] in E1.
    exists s1. pose proof (with_data_m _ _ _ _ _ _ _ _ _ _ _ _ E1) as E2.
    destruct U as (Hd & Hn & HY & HX & H1 & _). cbn [fst snd] in *. split; [|split; [exact R1|exact E2]].
    destruct X as [|x0 X']; [cbn in Hn; lia|]. destruct Y as [|y0 Y']; [cbn in HY; lia|].
    assert (Lx : length x0 = d) by now inversion HX. assert (Ly : length y0 = 1%nat) by now inversion H1. rewrite Lx, Ly, HY, Nat.eqb_refl.
    rewrite (same_length_true d _ HX), (same_length_true 1 _ H1). cbn [andb check]. exact E1.
  - destruct Hs as [[]|(UD & R & _)]. destruct UD as (_ & Hn & _). assert (NX : fst D <> []) by (intro Z; rewrite Z in Hn; cbn in Hn; lia).
    pose proof U as (Hd & _ & _ & HX & H1 & _). cbn [fst snd] in HX, H1. apply Forall_app in HX. destruct HX as [_ HX]. apply Forall_app in H1. destruct H1 as [_ H1].
    assert (Lx : length x = d) by now inversion HX. assert (Ly : length y = 1%nat) by now inversion H1.
    destruct (data_ok K M MO jit pct min_m d (fst D ++ [x], snd D ++ [y]) s (p_kern K M s) (p_b K M s) (p_c K M s) (p_sig K M s) U) as (s1 & E1 & R1 & I1). cbn [fst snd] in E1.
    exists s1. pose proof (with_data_m _ _ _ _ _ _ _ _ _ _ _ _ E1) as E2. split; [|split; [exact R1|exact E2]].
    rewrite (r_X _ _ _ _ _ _ R), (match_cons (fst D) _ _ NX), (r_din _ _ _ _ _ _ R), (r_dout _ _ _ _ _ _ R), Lx, Ly, (r_mean _ _ _ _ _ _ R), (r_del _ _ _ _ _ _ R), (r_Y _ _ _ _ _ _ R). unfold onat_eqb.
    rewrite !Nat.eqb_refl. cbn [andb check]. exact E1.
  - destruct Hs as [[]|(UD & R & Em)]. exists (init_true K M s). split; [reflexivity|]. split; [now apply init_true_ready|exact Em].
Qed.

Theorem C64_likelihood_partial d os o s0 : valid M pct min_m d (os ++ [o]) ->
  let D := data (os ++ [o]) in
  let n := length (fst D) in
  let m := m_of pct min_m n in
  let X := fun i k => vget (nth i (fst D) []) k in
  (Z.of_nat n < 2 ^ 64)%Z ->
  exists s s1, s_run K M jit pct min_m sig0 c0 l0 s0 os = Done s /\ during s o = Done s1 /\
  forall w, length w = ((m + 1) * d + 2)%nat ->
    let xb := u_xb m w in let b := u_b m d w in let c := u_c m d w in let sg := u_sig m d w in
    exists f g, likelihood K M s1 w = Done (f, g) /\
    (exists B A, is_inv m (pseudo_cov d b c jit xb) B /\ is_inv n (obs_cov d b c sg m xb X B) A) /\
    forall B A, is_inv m (pseudo_cov d b c jit xb) B -> is_inv n (obs_cov d b c sg m xb X B) A ->
      f = log_gauss n (obs_cov d b c sg m xb X B) A (res M D) + (if Nat.even (n - m) then 0 else 1 / 2 * ln sg).
Proof.
  intros Hv D n m X Hn.
  assert (P : exists s, s_run K M jit pct min_m sig0 c0 l0 s0 os = Done s /\
    (is_compute o \/ (usable M pct min_m d (data os) /\ ready K M jit d (data os) s /\ p_m K M s = Some (m_of pct min_m (length (fst (data os))))))).
  { destruct os as [|o1 os1 _] using rev_ind.
    - exists s0. split; [reflexivity|]. left. destruct Hv as [(pos & opt & X1 & Y1 & r1 & E) _]. cbn in E. injection E as -> _. exact Logic.I.
    - assert (Hv' : valid M pct min_m d (os1 ++ [o1])).
      { destruct Hv as [(pos & opt & X1 & Y1 & r1 & E) V1]. split; [|exact (proj1 (valid_app M pct min_m d _ _ _ V1))].
        destruct os1 as [|o2 os2]; cbn in E |- *; injection E as -> _; do 5 eexists; reflexivity. }
      destruct (history_ok K M MO jit pct min_m sig0 c0 l0 Hjit d os1 o1 s0 Hv') as (s & E & U & (w & _ & R & H & _)).
      exists s. split; [exact E|]. right. split; [exact U|]. split; [exact R|]. apply (h_m _ _ _ _ _ _ _ _ _ _ _ H). }
  destruct P as (s & E & P). pose proof (valid_app M pct min_m d os o _ (proj2 Hv)) as (_ & U & _).
  assert (ED : D = data_step (data os) o) by (unfold D, data; now rewrite fold_left_app).
  change (fold_left data_step os ([], [])) with (data os) in U.
  destruct (during_ok d (data os) o s P U) as (s1 & E1 & R1 & M1). rewrite <- ED in R1, M1, U.
  exists s, s1. split; [exact E|]. split; [exact E1|]. intros w Hw xb b c sg.
  destruct (C64_value s1 m d jit w M1 (r_din _ _ _ _ _ _ R1) (r_del _ _ _ _ _ _ R1) Hjit) as (f & g & EL & EX & V).
  - rewrite (r_X _ _ _ _ _ _ R1). apply (r_zr _ _ _ _ _ _ R1).
  - apply (r_zc _ _ _ _ _ _ R1).
  - lia.
  - rewrite (r_X _ _ _ _ _ _ R1). apply U.
  - rewrite (r_X _ _ _ _ _ _ R1). exact Hn.
  - rewrite (r_X _ _ _ _ _ _ R1) in EX, V. exists f, g. split; [exact EL|]. split; [exact EX|]. intros B A HB HA. rewrite (V B A HB HA). f_equal.
    unfold log_gauss. do 3 f_equal. apply rsum_ext. intros i Hi. apply rsum_ext. intros j Hj. now rewrite !(r_z _ _ _ _ _ _ R1).
Qed.
End C64.

(** with an odd number of samples more than pseudo-inputs, the integer division [(n - _m) / 2] loses half a logarithm of the noise *)
Theorem C64_odd_refuted K jit s0 : 0 < jit -> exists o s1 w f g,
  valid NullFunction 10 1 1 ([] ++ [o]) /\ during K NullFunction jit 10 1 0 0 0 s0 o = Done s1 /\ likelihood K NullFunction s1 w = Done (f, g) /\
  exists B A, is_inv 1 (pseudo_cov 1 (u_b 1 1 w) (u_c 1 1 w) jit (u_xb 1 w)) B /\
    let S := obs_cov 1 (u_b 1 1 w) (u_c 1 1 w) (u_sig 1 1 w) 1 (u_xb 1 w) (fun i k => vget (nth i [[0]; [2]] []) k) B in
    is_inv 2 S A /\ f <> log_gauss 2 S A (fun i => vget [1; 0] i) /\ f - log_gauss 2 S A (fun i => vget [1; 0] i) = 1 / 2.
Proof.
  intro Hj. pose (o := SCompute [] zeros [[0]; [2]] [[1]; [0]]). exists o.
  assert (V : valid NullFunction 10 1 1 ([] ++ [o])).
  { destruct C63_nonvacuous as [_ (U & Z & _)]. split; [do 5 eexists; reflexivity|]. split; [exact U|]. split; [exact Z|exact Logic.I]. }
  assert (M2 : m_of 10 1 2 = 1%nat) by (apply m_of_small; cbn [INR]; lra).
  pose proof (C64_likelihood_partial K NullFunction (RT_OK _ null_RT) jit 10 1 0 0 0 Hj 1 [] o s0 V) as P.
  cbv zeta in P. change (length (fst (data ([] ++ [o])))) with 2%nat in P. rewrite M2 in P.
  destruct (P ltac:(cbn; lia)) as (s & s1 & E & E1 & Q). cbn in E. injection E as <-.
  destruct (Q [0; 0; 0; 1] eq_refl) as (f & g & EL & (B & A & HB & HA) & VL). specialize (VL B A HB HA).
  exists s1, [0; 0; 0; 1], f, g. split; [exact V|]. split; [exact E1|]. split; [exact EL|]. exists B, A. split; [exact HB|]. cbv zeta. split; [exact HA|].
  assert (D : f - log_gauss 2 (obs_cov 1 (u_b 1 1 [0; 0; 0; 1]) (u_c 1 1 [0; 0; 0; 1]) (u_sig 1 1 [0; 0; 0; 1]) 1 (u_xb 1 [0; 0; 0; 1]) (fun i k => vget (nth i [[0]; [2]] []) k) B) A (fun i => vget [1; 0] i) = 1 / 2).
  { match goal with |- f - ?x = _ => replace f with (x + 1 / 2) end; [ring|]. rewrite VL. cbn [Nat.even Nat.sub]. replace (ln (u_sig 1 1 [0; 0; 0; 1])) with 1 by (unfold u_sig; now rewrite ln_exp).
    rewrite Rmult_1_r. f_equal. unfold log_gauss. do 3 f_equal. apply rsum_ext. intros i Hi. apply rsum_ext. intros k Hk. rewrite !null_res.
    destruct i as [|[|i]]; [| |lia]; (destruct k as [|[|k]]; [| |lia]); reflexivity. }
  split; [lra|exact D].
Qed.
Example C64_nonvacuous : valid NullFunction 10 1 1 ex_history /\ length (fst (data ex_history)) = 3%nat /\ Nat.even (3 - m_of 10 1 3) = true.
Proof. split; [apply C63_nonvacuous|]. split; [reflexivity|]. rewrite m_of_small by (cbn [INR]; lra). reflexivity. Qed.
