(** The Gaussian integral. *)
From Coq Require Import Reals Lra.
From Coquelicot Require Import Coquelicot.
From Verif Require Import MatCalc.
Open Scope R_scope.

Definition ge (t : R) : R := exp (- (t * t)).
Lemma ge_pos t : 0 < ge t. Proof. apply exp_pos. Qed.
Lemma ge_cont t : continuous ge t.
Proof. apply (ex_derive_continuous ge). unfold ge. auto_derive. auto. Qed.
Lemma ge_int a b : ex_RInt ge a b.
Proof. apply (ex_RInt_continuous ge). intros; apply ge_cont. Qed.
Definition E (x : R) : R := RInt ge 0 x.
Lemma E_derive x : is_derive E x (ge x).
Proof.
  apply (is_derive_RInt ge E 0 x); [|apply ge_cont].
  exists (mkposreal 1 Rlt_0_1). intros y _. apply (RInt_correct ge), ge_int.
Qed.
Definition h (x t : R) : R := exp (- (x * x * (1 + t * t))) / (1 + t * t).
Definition H (x : R) : R := RInt (h x) 0 1.
Lemma den_pos t : 0 < 1 + t * t. Proof. pose proof (Rle_0_sqr t). unfold Rsqr in *. lra. Qed.
Lemma h_derive x t : is_derive (fun u => h u t) x (- (2 * x) * exp (- (x * x * (1 + t * t)))).
Proof.
  pose proof (den_pos t). unfold h. auto_derive; [lra|]. field. lra.
Qed.
Lemma h_int x a b : ex_RInt (h x) a b.
Proof.
  apply (ex_RInt_continuous (h x)). intros t _. apply (ex_derive_continuous (h x)). unfold h. pose proof (den_pos t). auto_derive. lra.
Qed.
Lemma H_derive x : is_derive H x (- (2 * ge x * E x)).
Proof.
  eapply is_derive_val'.
  - unfold H. apply (is_derive_RInt_param h 0 1 x).
    + exists (mkposreal 1 Rlt_0_1). intros y _ t _. eexists. apply h_derive.
    + intros t _. apply continuity_2d_pt_ext with (f := fun u v => - (2 * u) * exp (- (u * u * (1 + v * v)))).
      * intros u v. symmetry. apply is_derive_unique, h_derive.
      * apply continuity_2d_pt_mult.
        -- apply continuity_2d_pt_opp, continuity_2d_pt_mult; [apply continuity_2d_pt_const|apply continuity_2d_pt_id1].
        -- apply (continuity_1d_2d_pt_comp exp (fun u v => - (u * u * (1 + v * v)))).
           ++ apply derivable_continuous_pt, derivable_pt_exp.
           ++ apply continuity_2d_pt_opp, continuity_2d_pt_mult; [apply continuity_2d_pt_mult; apply continuity_2d_pt_id1|].
              apply continuity_2d_pt_plus; [apply continuity_2d_pt_const|apply continuity_2d_pt_mult; apply continuity_2d_pt_id2].
    + exists (mkposreal 1 Rlt_0_1). intros y _. apply h_int.
  - transitivity (RInt (fun t => - (2 * ge x) * (x * ge (x * t + 0))) 0 1).
    { apply RInt_ext. intros t _. etransitivity; [exact (is_derive_unique _ _ _ (h_derive x t))|]. unfold ge.
      replace (- (x * x * (1 + t * t))) with (- (x * x) + - ((x * t + 0) * (x * t + 0))) by ring. rewrite exp_plus. req. ring. }
    pose proof (ex_RInt_comp_lin ge x 0 0 1 (ge_int _ _)) as Hi. unfold scal in Hi; simpl in Hi; unfold mult in Hi; simpl in Hi.
    pose proof (RInt_comp_lin ge x 0 0 1 (ge_int _ _)) as Hc. unfold scal in Hc; simpl in Hc; unfold mult in Hc; simpl in Hc.
    etransitivity; [exact (RInt_scal (fun t => x * ge (x * t + 0)) 0 1 (- (2 * ge x)) Hi)|].
    unfold scal; simpl; unfold mult; simpl. 
    assert (Hb0 : (x * 0 + 0)%R = 0%R) by ring. assert (Hb1 : (x * 1 + 0)%R = x) by ring. rewrite Hb0, Hb1 in Hc. etransitivity; [apply f_equal; exact Hc|].
    unfold E. req. ring.
Qed.
Lemma E2H_const x : 0 <= x -> E x * E x + H x = PI / 4.
Proof.
  assert (D : forall t, is_derive (fun t => E t * E t + H t) t 0).
  { intro t. eapply is_derive_val'.
    - apply @is_derive_plus; [apply is_derive_mul; apply E_derive|apply H_derive].
    - unfold plus; simpl. req. ring. }
  assert (H0 : E 0 * E 0 + H 0 = PI / 4).
  { unfold E. rewrite RInt_point. unfold zero; simpl. rewrite Rmult_0_l, Rplus_0_l. unfold H.
    rewrite (RInt_ext _ (fun t => / (1 + t²))).
    2:{ intros t _. unfold h, Rsqr. replace (- (0 * 0 * (1 + t * t))) with 0 by ring. rewrite exp_0. unfold Rdiv. req. ring. }
    transitivity (minus (atan 1) (atan 0)).
    - apply is_RInt_unique. apply (is_RInt_derive atan (fun t => / (1 + t²))).
      + intros t _. apply is_derive_Reals. replace (t²) with (t ^ 2) by (unfold Rsqr; ring). apply derivable_pt_lim_atan.
      + intros t _. apply (ex_derive_continuous (fun t => / (1 + t²))). unfold Rsqr. pose proof (den_pos t). auto_derive. lra.
    - unfold minus, plus, opp; simpl. rewrite atan_0, atan_1. lra. }
  intro Hx. destruct Hx as [Hx|<-]; [|exact H0]. rewrite <- H0. symmetry.
  apply (eq_is_derive (fun t => E t * E t + H t) 0 x); [|exact Hx]. intros t _. apply D.
Qed.
Lemma H_bounds x : 0 <= H x <= ge x.
Proof.
  split.
  - apply RInt_ge_0; [lra|apply h_int|]. intros t _. unfold h. apply Rlt_le, Rdiv_lt_0_compat; [apply exp_pos|apply den_pos].
  - replace (ge x) with (RInt (fun _ => ge x) 0 1) by (rewrite RInt_const; unfold scal; simpl; unfold mult; simpl; ring).
    apply RInt_le; [lra|apply h_int|apply ex_RInt_const|]. intros t _. unfold h, ge. pose proof (den_pos t) as Hd.
    apply Rle_trans with (exp (- (x * x * (1 + t * t)))).
    + unfold Rdiv. rewrite <- (Rmult_1_r (exp _)) at 2. apply Rmult_le_compat_l; [apply Rlt_le, exp_pos|].
      rewrite <- Rinv_1. apply Rinv_le_contravar; [lra|]. pose proof (Rle_0_sqr t). unfold Rsqr in *. lra.
    + destruct (Rle_lt_or_eq_dec (x * x) (x * x * (1 + t * t))) as [Hl|Hl].
      * assert (0 <= x * x * (t * t)) by (apply Rmult_le_pos; apply Rle_0_sqr). lra.
      * apply Rlt_le, exp_increasing. lra.
      * rewrite <- Hl. lra.
Qed.
Lemma ge_lim : is_lim ge p_infty 0.
Proof.
  unfold ge. apply (is_lim_comp exp (fun t => - (t * t)) p_infty 0 m_infty).
  - apply is_lim_exp_m.
  - replace m_infty with (Rbar_opp p_infty) by reflexivity. apply (is_lim_opp (fun t => t * t) p_infty p_infty).
    apply (is_lim_mult (fun t => t) (fun t => t) p_infty p_infty p_infty); [apply is_lim_id|apply is_lim_id|exact I].
  - exists 0. intros y _. discriminate.
Qed.
Lemma H_lim : is_lim H p_infty 0.
Proof.
  apply (is_lim_le_le_loc (fun _ => 0) ge); [|apply is_lim_const|apply ge_lim].
  exists 0. intros y _. apply H_bounds.
Qed.
(** the Gaussian integral: half of sqrt(pi) on each side *)
Theorem gauss_integral : is_lim E p_infty (sqrt PI / 2).
Proof.
  apply is_lim_ext_loc with (f := fun x => sqrt (PI / 4 - H x)).
  - exists 0. intros x Hx. rewrite <- (E2H_const x) by lra. replace (E x * E x + H x - H x) with (E x * E x) by ring.
    apply sqrt_square. apply RInt_ge_0; [lra|apply ge_int|]. intros; apply Rlt_le, ge_pos.
  - replace (sqrt PI / 2) with (sqrt (PI / 4 - 0)).
    + apply (is_lim_comp_continuous (fun x => PI / 4 - H x) sqrt p_infty (PI / 4 - 0)).
      * apply (is_lim_minus' (fun _ => PI / 4) H p_infty (PI / 4) 0); [apply is_lim_const|apply H_lim].
      * apply continuity_pt_filterlim. apply continuity_pt_sqrt. pose proof PI_RGT_0. lra.
    + rewrite Rminus_0_r. unfold Rdiv. rewrite sqrt_mult_alt by (pose proof PI_RGT_0; lra).
      replace (/ 4) with ((/ 2) * (/ 2)) by lra. rewrite sqrt_square by lra. reflexivity.
Qed.
