(** C39: save and load of a GP; C29: when the cached inverse is stale. *)
From Coq Require Import Reals List Bool ZArith Lia Lra.
From Verif Require Import LinAlgModel LinAlg KernelModel GPModel GPSpec GPFacts Prop_GP Prop_GP2.
Import ListNotations.
Open Scope R_scope.

(** The hyper-parameters determine the kernel and the mean (C21, C33) *)
Record KernRT {K : Kern} (KO : KernOK K) : Prop := {
  krt_size : forall d st, kok KO d st -> k_hsize K st = k_hsize K (k_new K d);
  krt_len : forall d st, kok KO d st -> length (k_hparams K st) = k_hsize K st;
  krt_set : forall d st st', kok KO d st -> kok KO d st' -> k_set K st' (k_hparams K st) = st }.
Record MeanRT' {M : Mean} (MO : MeanOK M) : Prop := {
  mrt_size : forall p st, mok MO p st -> m_hsize M st = m_hsize M (m_new M p);
  mrt_len : forall p st, mok MO p st -> length (m_hparams M st) = m_hsize M st;
  mrt_set : forall p st st', mok MO p st -> mok MO p st' -> m_set M st' (m_hparams M st) = st }.

Section Load.
Variables (K : Kern) (M : Mean).
Variables (KO : KernOK K) (MO : MeanOK M).
Hypotheses (KR : KernRT KO) (MR : MeanRT' MO).
Notation gp := (gp K M). Notation sp := (sp K M).
Notation linv := (linv K M KO MO). Notation inv := (inv K M KO MO). Notation alpha_ok := (alpha_ok K M).
Notation N := (N K M). Notation P := (P K M). Notation G := (G K M). Notation Rs := (Rs K M).

Definition clean (s : sp) : sp := {| s_din := s_din K M s; s_dout := s_dout K M s; s_k := s_k K M s; s_m := s_m K M s;
  s_xs := s_xs K M s; s_ys := s_ys K M s; s_dk := false; s_dm := false |}.

Lemma recompute_linv g s : linv g s -> s_xs K M s <> [] -> exists g', recompute K M g true true = Done g' /\ inv g' (clean s).
Proof.
  intros I Hx. destruct (w_nonempty _ _ _ _ _ _ I Hx) as ((d & D1 & D2 & D3) & (p & P1 & P2) & A3 & A4 & A5 & A6 & _).
  assert (HP : P s = p) by (unfold GPFacts.P; now rewrite P1).
  unfold recompute, nb_samples. rewrite (w_samples _ _ _ _ _ _ I).
  assert (E0 : (0 <? length (s_xs K M s))%nat = true) by (apply Nat.ltb_lt; destruct (s_xs K M s); simpl; [congruence|lia]).
  rewrite E0. cbn [check].
  destruct (obs_mean_ok K M MO g p) as (g1 & E1); auto.
  { now rewrite (w_dout _ _ _ _ _ _ I). }
  { now rewrite (w_samples _ _ _ _ _ _ I). }
  { rewrite (w_samples _ _ _ _ _ _ I), (w_din _ _ _ _ _ _ I). intros x Hin. rewrite Forall_forall in D3. rewrite (D3 x Hin). auto. }
  { rewrite (w_m _ _ _ _ _ _ I). now apply (w_mok _ _ _ _ _ _ I). }
  { rewrite A6, HP. apply data_mean_length. }
  { unfold nb_samples. rewrite (w_samples _ _ _ _ _ _ I). apply (w_orows _ _ _ _ _ _ I). }
  { now rewrite A4. }
  rewrite E1. cbn [bind].
  eapply after_obs_mean with (xs := s_xs K M s) (ys := s_ys K M s) (p := P s) (k := s_k K M s) (m := s_m K M s) in E1;
    try apply I; auto; try (rewrite ?(w_dout _ _ _ _ _ _ I), P1, HP; reflexivity).
  destruct E1 as (Hp0 & (d' & Hd1' & Hd2' & Hd3') & F1 & F2 & F3 & F4 & F5 & F6 & F7 & F8 & F9 & F10 & F11 & F12 & F13).
  destruct (full_kernel_spec K M KO g1 d) as (L & Km & al & B1 & B2 & B3).
  { rewrite F3. now apply (w_kok _ _ _ _ _ _ I). }
  { now rewrite F5. }
  { unfold nb_samples. now rewrite F5. }
  rewrite B3. eexists. split; [reflexivity|]. unfold nb_samples in *. rewrite F5, F3, F9 in *.
  constructor; cbn [clean s_din s_dout s_k s_m s_xs s_ys s_dk s_dm g_din g_dout g_k g_m g_samples g_obs]; auto.
  - rewrite F1. apply (w_din _ _ _ _ _ _ I).
  - rewrite F2, HP. now rewrite P1.
  - apply (w_kok _ _ _ _ _ _ I).
  - apply (w_mok _ _ _ _ _ _ I).
  - apply (w_len _ _ _ _ _ _ I).
  - rewrite F6. apply (w_orows _ _ _ _ _ _ I).
  - intros _. split; [exists d; auto|]. split; [exists p; auto|]. split; [exact A3|].
    rewrite F6. split; [exact A4|]. split; [exact A5|]. cbn [g_mean_obs g_obs_mean g_L g_inv_updated g_alpha rows cols at_].
    split; [exact F7|]. split; [exact F8|]. split; [exact F9|]. split; [intros _; exact F10|]. intros _.
    split; [reflexivity|]. split; [reflexivity|]. split; [exact B1|]. split; [discriminate|]. intros _.
    split; [reflexivity|]. split; [reflexivity|]. intros o Ho i Hi. etransitivity; [exact (B2 o i Hi)|]. apply F10; auto.
Qed.

(** loading what a trained GP saved, into any GP object [g1] *)
Lemma load_state g s g1 b : inv g s -> s_xs K M s <> [] -> s_dk K M s = false -> s_dm K M s = false ->
  exists g2, load K M g1 (save K M g) b = Done g2 /\ linv g2 s /\ alpha_ok g2 s /\ (b = true -> inv g2 s).
Proof.
  intros I Hx Hk Hm. destruct (v_nonempty _ _ _ _ _ _ I Hx) as ((d & D1 & D2 & D3) & (p & P1 & P2) & A3 & A4 & A5 & A6 & A7 & A8 & A9 & A10).
  destruct (A10 Hk) as (L1 & L2 & L3 & _ & AL). destruct (AL Hm) as (B1 & B2 & B3).
  assert (HP : P s = p) by (unfold GPFacts.P; now rewrite P1).
  pose proof (v_kok _ _ _ _ _ _ I d D1) as Kok. pose proof (v_mok _ _ _ _ _ _ I p P1) as Mok.
  unfold load, save. cbn [ar_samples ar_obs ar_kernel ar_mean ar_L ar_alpha].
  rewrite (v_samples _ _ _ _ _ _ I). destruct (s_xs K M s) as [|x0 xr] eqn:Exs; [congruence|].
  assert (Ed : length x0 = d) by now inversion D3. rewrite Ed, A4, HP, (v_k _ _ _ _ _ _ I), (v_m _ _ _ _ _ _ I).
  cbn zeta.
  rewrite (krt_size KO KR d (s_k K M s)) by auto. rewrite (mrt_size MO MR p (s_m K M s)) by auto.
  assert (EK : (if (0 <? k_hsize K (k_new K d))%nat then
            match (if (0 <? k_hsize K (k_new K d))%nat then Some (k_hparams K (s_k K M s)) else None) with
            | Some q => check ((length q =? k_hsize K (k_new K d))%nat) (Done (k_set K (k_new K d) q))
            | None => Undefined end else Done (k_new K d)) = Done (s_k K M s)).
  { destruct (Nat.ltb_spec 0 (k_hsize K (k_new K d))) as [Hs|Hs].
    - rewrite (krt_len KO KR d), (krt_size KO KR d), Nat.eqb_refl by auto. cbn [check].
      rewrite (krt_set KO KR d); auto. apply kok_new.
    - f_equal. pose proof (krt_len KO KR d _ Kok) as Z1. pose proof (krt_len KO KR d _ (kok_new KO d)) as Z2.
      rewrite (krt_size KO KR d) in Z1 by auto.
      rewrite <- (krt_set KO KR d (k_new K d) (k_new K d)) by apply kok_new.
      rewrite <- (krt_set KO KR d (s_k K M s) (k_new K d)) by (auto; apply kok_new). f_equal.
      destruct (k_hparams K (k_new K d)), (k_hparams K (s_k K M s)); simpl in *; auto; lia. }
  assert (EM : (if (0 <? m_hsize M (m_new M p))%nat then
            match (if (0 <? m_hsize M (m_new M p))%nat then Some (m_hparams M (s_m K M s)) else None) with
            | Some q => check ((length q =? m_hsize M (m_new M p))%nat) (Done (m_set M (m_new M p) q))
            | None => Undefined end else Done (m_new M p)) = Done (s_m K M s)).
  { destruct (Nat.ltb_spec 0 (m_hsize M (m_new M p))) as [Hs|Hs].
    - rewrite (mrt_len MO MR p), (mrt_size MO MR p), Nat.eqb_refl by auto. cbn [check].
      rewrite (mrt_set MO MR p); auto. apply mok_new.
    - f_equal. pose proof (mrt_len MO MR p _ Mok) as Z1. pose proof (mrt_len MO MR p _ (mok_new MO p)) as Z2.
      rewrite (mrt_size MO MR p) in Z1 by auto.
      rewrite <- (mrt_set MO MR p (m_new M p) (m_new M p)) by apply mok_new.
      rewrite <- (mrt_set MO MR p (s_m K M s) (m_new M p)) by (auto; apply mok_new). f_equal.
      destruct (m_hparams M (m_new M p)), (m_hparams M (s_m K M s)); simpl in *; auto; lia. }
  rewrite EK, EM. cbn [bind]. clear EK EM.
  assert (Hcm : col_means (g_obs K M g) = data_mean (s_ys K M s) (P s)).
  { unfold col_means, data_mean. rewrite A4. apply vec_of_ext. intros j Hj. f_equal.
    - rewrite (v_orows _ _ _ _ _ _ I). unfold GPFacts.N. rewrite <- (v_len _ _ _ _ _ _ I). apply rsum_ext. intros i Hi. apply A5; auto.
      unfold GPFacts.N. now rewrite <- (v_len _ _ _ _ _ _ I).
    - f_equal. rewrite (v_orows _ _ _ _ _ _ I). symmetry. apply (v_len _ _ _ _ _ _ I). }
  set (g1' := with_data K M (with_dims K M g1 (Some d) (Some p) (s_k K M s) (s_m K M s)) (x0 :: xr) (g_obs K M g)).
  (* a meaning under which the new object is consistent *)
  set (sd := {| s_din := s_din K M s; s_dout := s_dout K M s; s_k := s_k K M s; s_m := s_m K M s; s_xs := s_xs K M s; s_ys := s_ys K M s; s_dk := true; s_dm := true |} : sp).
  assert (J : linv g1' sd).
  { constructor; unfold g1', sd; cbn [with_data with_dims g_din g_dout g_k g_m g_samples g_obs s_din s_dout s_k s_m s_xs s_ys s_dk g_mean_obs]; auto.
    - intros d0 E0. rewrite D1 in E0. injection E0 as <-. exact Kok.
    - intros d0 E0. rewrite P1 in E0. injection E0 as <-. exact Mok.
    - apply (v_len _ _ _ _ _ _ I).
    - apply (v_orows _ _ _ _ _ _ I).
    - intros _. split; [exists d; rewrite Exs; auto|]. split; [exists p; auto|]. split; [exact A3|]. split; [exact A4|]. split; [exact A5|].
      split; [exact Hcm|]. discriminate. }
  destruct b.
  - destruct (recompute_linv g1' sd J) as (g2 & E2 & I2); [unfold sd; simpl; rewrite Exs; discriminate|].
    assert (Es : clean sd = s).
    { unfold clean, sd. simpl. destruct s. simpl in *. rewrite Hk, Hm. reflexivity. }
    rewrite Es in I2. exists g2. split; [exact E2|]. split; [now apply inv_linv|]. split; [now apply (inv_alpha _ _ _ _ _ _ I2)|auto].
  - eexists. split; [reflexivity|]. split; [|split; [|discriminate]].
    + constructor; unfold g1'; cbn [with_data with_dims g_din g_dout g_k g_m g_samples g_obs g_mean_obs g_L]; auto.
      * apply (v_kok _ _ _ _ _ _ I).
      * apply (v_mok _ _ _ _ _ _ I).
      * apply (v_len _ _ _ _ _ _ I).
      * apply (v_orows _ _ _ _ _ _ I).
      * intros _. split; [exists d; rewrite Exs; auto|]. split; [exists p; auto|]. split; [exact A3|]. split; [exact A4|]. split; [exact A5|].
        split; [exact Hcm|]. intros _. split; [exact L1|]. split; [exact L2|exact L3].
    + intros _ _ _. cbn [g_alpha]. split; [exact B1|]. split; [exact B2|exact B3].
Qed.

(** C39.  A GP trained by any history (nothing left to recompute), saved, and loaded into any GP
    object of the same type, with or without recomputation: *)
Theorem C39_load_save_predicts_the_same g0 s0 os g g1 b :
  fresh K M g0 s0 -> run K M g0 os = Done g ->
  let s := meaning K M s0 os in
  s_xs K M s <> [] -> s_dk K M s = false -> s_dm K M s = false ->
  exists g2, load K M g1 (save K M g) b = Done g2 /\
  forall v, s_din K M s = Some (length v) ->
    mu K M g2 v = mu K M g v /\ sigma K M g2 v = sigma K M g v /\ query K M g2 v = query K M g v.
Proof.
  intros F E s Hx Hk Hm. assert (I : inv g s) by (eapply run_inv; eauto; now apply fresh_inv).
  destruct (load_state g s g1 b I Hx Hk Hm) as (g2 & E2 & J & A & _). exists g2. split; [exact E2|]. intros v Hv.
  destruct (predict K M KO MO g s v) as [(B & HB) Hp]; auto using inv_linv. { eapply inv_alpha; eauto. }
  destruct (predict K M KO MO g2 s v) as [_ Hp2]; auto.
  destruct (Hp B HB) as (-> & -> & ->). destruct (Hp2 B HB) as (-> & -> & ->). auto.
Qed.

(** ... and afterwards, whatever further calls are made ([add_sample] and [compute] only, as the first
    one, when loaded without recomputation) both objects keep predicting the same *)
Definition first_call_fine (b : bool) (os : list (op K M)) : Prop :=
  match os with
  | [] => True
  | Add _ _ _ _ :: _ | Compute _ _ _ :: _ => True
  | _ => b = true
  end.
Theorem C39_stays_equivalent g0 s0 os g g1 b os' :
  fresh K M g0 s0 -> run K M g0 os = Done g ->
  let s := meaning K M s0 os in
  s_xs K M s <> [] -> s_dk K M s = false -> s_dm K M s = false ->
  valid_all K M s os' -> first_call_fine b os' ->
  exists g2 g' g2', load K M g1 (save K M g) b = Done g2 /\ run K M g os' = Done g' /\ run K M g2 os' = Done g2' /\
  let s' := meaning K M s os' in
  (s_dk K M s' = false -> s_dm K M s' = false ->
   forall v, s_din K M s' = Some (length v) ->
    mu K M g2' v = mu K M g' v /\ sigma K M g2' v = sigma K M g' v /\ query K M g2' v = query K M g' v).
Proof.
  intros F E s Hx Hk Hm V FC. assert (I : inv g s) by (eapply run_inv; eauto; now apply fresh_inv).
  destruct (load_state g s g1 b I Hx Hk Hm) as (g2 & E2 & J & A & Hb). exists g2.
  destruct (run_progress K M KO MO os' g s I V) as (g' & Eg' & I').
  assert (Hx' : forall os t, s_xs K M t <> [] -> valid_all K M t os -> s_xs K M (meaning K M t os) <> []).
  { clear. induction os as [|o os IH]; intros t Ht V; [exact Ht|]. cbn [meaning fold_left valid_all] in *. destruct V as [V1 V2].
    apply IH; auto. destruct o; cbn [s_step s_xs valid] in *; auto; [apply V1|].
    destruct (s_xs K M t); cbn [s_xs]; discriminate. }
  assert (X : exists g2', run K M g2 os' = Done g2' /\
    (inv g2' (meaning K M s os') \/ os' = [] /\ g2' = g2)).
  { destruct os' as [|o os'']; [exists g2; auto|]. cbn [run meaning fold_left valid_all] in *. destruct V as [V1 V2].
    assert (Y : exists g3, exec K M g2 o = Done g3 /\ inv g3 (s_step K M s o)).
    { destruct b.
      - destruct (progress K M KO MO g2 s o (Hb eq_refl) V1) as (g3 & E3). exists g3. split; [exact E3|]. exact (step_inv K M KO MO g2 s o g3 (Hb eq_refl) E3).
      - destruct o as [xs ys c|j1 j2 x y|q|q|a c|]; cbn [first_call_fine] in FC; try discriminate; cbn [exec].
        + destruct (comp_progress K M KO MO xs ys c g2 s J V1) as (g3 & E3). exists g3. split; [exact E3|]. eapply comp_inv; eauto.
        + destruct (add_progress K M KO MO j1 j2 x y g2 s J V1) as (g3 & E3). exists g3. split; [exact E3|]. eapply add_inv; eauto. }
    destruct Y as (g3 & E3 & I3). rewrite E3. cbn [bind].
    destruct (run_progress K M KO MO os'' g3 (s_step K M s o) I3 V2) as (g2' & E4 & I4). exists g2'. auto. }
  destruct X as (g2' & Er & HX). exists g', g2'. split; [exact E2|]. split; [exact Eg'|]. split; [exact Er|].
  cbn zeta. intros Hk' Hm' v Hv. specialize (Hx' os' s Hx V).
  destruct (predict K M KO MO g' (meaning K M s os') v) as [(B & HB) Hp]; auto using inv_linv. { eapply inv_alpha; eauto. }
  destruct HX as [I2'|[-> ->]].
  - destruct (predict K M KO MO g2' (meaning K M s os') v) as [_ Hp2]; auto using inv_linv. { eapply inv_alpha; eauto. }
    destruct (Hp B HB) as (-> & -> & ->). destruct (Hp2 B HB) as (-> & -> & ->). auto.
  - destruct (predict K M KO MO g2 s v) as [_ Hp2]; auto.
    destruct (Hp B HB) as (-> & -> & ->). destruct (Hp2 B HB) as (-> & -> & ->). auto.
Qed.
End Load.
