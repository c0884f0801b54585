(** C53: saving and loading a MultiGP. *)
From Coq Require Import Reals List Bool ZArith Lia Lra Permutation.
From Verif Require Import LinAlgModel LinAlg KernelModel KernelSpec KernelFacts GPModel GPSpec GPFacts MeanSpec MeanFacts Prop_GP Prop_Lik2
  Prop_Load Prop_Load2 MultiGPModel MultiGPSpec MultiGPFacts Prop_MultiGP Prop_MultiGP2 Prop_ParLf.
Import ListNotations.
Open Scope R_scope.

Lemma par_each_ext {A} (f f' : nat -> A -> outcome A) od : (forall i a, In i od -> f i a = f' i a) -> forall l, par_each od f l = par_each od f' l.
Proof.
  induction od as [|i od IH]; intros H l; cbn [par_each]; auto. destruct (nth_error l i); auto. rewrite (H i) by now left.
  destruct (f' i a); cbn [bind]; auto. apply IH. intros. apply H. now right.
Qed.

Section MultiLoad.
Variables (K : Kern) (M : Mean).
Variable KO : KernOK K.
Variable MO : MeanOK M.
Hypotheses (KR : KernRT KO) (MR : MeanRT' MO).
Notation Nu := NullFunction.
Notation minv := (minv K M KO MO). Notation mlinv := (mlinv K M KO MO). Notation gdef := (gdef K). Notation mgp := (mgp K M). Notation msp := (msp K M).
Let NR : MeanRT' NO := limbo_MeanRT Nu null_RT.

(** two MultiGPs with the same mean function and data, whose inner GPs predict the same at [v] *)
Lemma query_ext (g g2 : mgp) v p : mg_dout K M g = Some p -> mg_dout K M g2 = Some p -> mg_m K M g2 = mg_m K M g ->
  mg_mean_observation K M g2 = mg_mean_observation K M g -> length (mg_gps K M g) = p -> length (mg_gps K M g2) = p ->
  (forall i, (i < p)%nat -> let a := nth i (mg_gps K M g) gdef in let a2 := nth i (mg_gps K M g2) gdef in
     mu K Nu a2 v = mu K Nu a v /\ sigma K Nu a2 v = sigma K Nu a v /\ query K Nu a2 v = query K Nu a v) ->
  forall od junk, schedule p od ->
    mg_query K M junk od g2 v = mg_query K M junk od g v /\ mg_mu K M (fst junk) od g2 v = mg_mu K M (fst junk) od g v /\
    mg_sigma K M (snd junk) od g2 v = mg_sigma K M (snd junk) od g v.
Proof.
  intros D D2 Em Eo L L2 H od junk Sc.
  assert (Ea : mg_mean_at K M g2 v = mg_mean_at K M g v) by (unfold mg_mean_at; now rewrite Em, Eo).
  assert (Hd : mg_dout_pos K M g2 = mg_dout_pos K M g) by (unfold mg_dout_pos; now rewrite D, D2).
  destruct (schedule_facts p od Sc) as (_ & Hin & _).
  assert (N1 : forall i, In i od -> nth_error (mg_gps K M g) i = Some (nth i (mg_gps K M g) gdef)) by (intros i Hi; apply nth_error_nth'; rewrite L; now apply Hin).
  assert (N2 : forall i, In i od -> nth_error (mg_gps K M g2) i = Some (nth i (mg_gps K M g2) gdef)) by (intros i Hi; apply nth_error_nth'; rewrite L2; now apply Hin).
  split; [|split].
  - unfold mg_query. rewrite D, D2, Hd, Ea. f_equal. f_equal. apply par_each_ext. intros i a Hi. rewrite (N1 i Hi), (N2 i Hi).
    destruct (H i) as (_ & _ & E); [now apply Hin|]. now rewrite E.
  - unfold mg_mu. rewrite D, D2, Hd, Ea. f_equal. apply par_each_ext. intros i a Hi. rewrite (N1 i Hi), (N2 i Hi).
    destruct (H i) as (E & _ & _); [now apply Hin|]. now rewrite E.
  - unfold mg_sigma. rewrite D, D2. apply par_each_ext. intros i a Hi. rewrite (N1 i Hi), (N2 i Hi).
    destruct (H i) as (_ & E & _); [now apply Hin|]. now rewrite E.
Qed.

(** the inner GPs *)
Lemma load_gps_state (l : list (gp1 K)) : forall (si : nat -> sp K Nu) gps1,
  (forall i, (i < length l)%nat -> inv K Nu KO NO (nth i l gdef) (si i) /\ s_xs K Nu (si i) <> [] /\ s_dk K Nu (si i) = false /\ s_dm K Nu (si i) = false) ->
  exists gs, load_gps K gps1 (map (save K Nu) l) = Done gs /\ length gs = length l /\
    forall i, (i < length l)%nat -> linv K Nu KO NO (nth i gs gdef) (si i) /\ alpha_ok K Nu (nth i gs gdef) (si i).
Proof.
  induction l as [|a l IH]; intros si gps1 H.
  - exists []. split; [reflexivity|]. split; [reflexivity|]. intros i Hi. cbn in Hi. lia.
  - cbn [map load_gps]. set (hd1 := match gps1 with g :: gs => (g, gs) | [] => (gp_default K Nu, []) end). destruct hd1 as [g gs].
    destruct (H O ltac:(cbn; lia)) as (I & Hx & Hk & Hm). cbn [nth] in I.
    destruct (load_state K Nu KO NO KR NR a (si O) g false I Hx Hk Hm) as (g2 & E2 & J & A & _). rewrite E2. cbn [bind].
    destruct (IH (fun i => si (S i)) gs) as (gs' & E & L & HH). { intros i Hi. exact (H (S i) ltac:(cbn; lia)). }
    rewrite E. cbn [bind]. exists (g2 :: gs'). split; [reflexivity|]. split; [cbn; congruence|].
    intros [|i] Hi; [split; assumption|]. cbn [nth]. apply HH. cbn in Hi. lia.
Qed.

Lemma firstn_all' {A} (l : list A) n : length l = n -> firstn n l = l. Proof. intros <-. apply firstn_all. Qed.

(** what loading without recomputation restores *)
Lemma load_restores g s : minv g s -> q_xs K M s <> [] -> up_to_date K M s -> exists a, mg_save K M g = Done a /\
  forall g1, exists g2, (forall od b, mg_load K M od g1 a b = if b then mg_recompute K M od g2 true true else Done g2) /\
    mlinv g2 s /\ mg_m K M g2 = mg_m K M g /\ mg_mean_observation K M g2 = mg_mean_observation K M g /\
    forall i, (i < length (q_ks K M s))%nat -> alpha_ok K Nu (nth i (mg_gps K M g2) gdef) (sub K M s i).
Proof.
  intros I Hx Hu. set (n := length (q_ks K M s)) in *.
  assert (Hy : q_ys K M s <> []) by (intro H; pose proof (i_lx _ _ _ _ _ _ I) as L; rewrite H in L; destruct (q_xs K M s); [congruence|discriminate]).
  pose proof (i_pos _ _ _ _ _ _ I Hy) as P0. pose proof (i_p _ _ _ _ _ _ I) as Lp. pose proof (i_gps _ _ _ _ _ _ I) as Lg.
  destruct (q_dout K M s) as [p|] eqn:Ep; [|cbn in P0; lia]. cbn [oget] in *. fold n in Lp, Lg.
  assert (Hd : exists d, q_din K M s = Some d).
  { pose proof (i_inner _ _ _ _ _ _ I 0%nat ltac:(fold n; lia)) as I0. destruct (v_nonempty _ _ _ _ _ _ I0 Hx) as ((d & Ed & _) & _). exists d. exact Ed. }
  destruct Hd as (d & Ed).
  unfold mg_save. rewrite (i_dout _ _ _ _ _ _ I), Ep, (i_din _ _ _ _ _ _ I), Ed, (i_obs _ _ _ _ _ _ I), (i_m _ _ _ _ _ _ I).
  assert (Hle : (p <=? length (mg_gps K M g))%nat = true) by (apply Nat.leb_le; lia). rewrite Hle. cbn [check].
  rewrite (firstn_all' (mg_gps K M g)) by lia. eexists. split; [reflexivity|]. intro g1.
  destruct (load_gps_state (mg_gps K M g) (fun i => sub K M s i) (mg_gps K M g1)) as (gs & E & L & HH).
  { intros i Hi. rewrite Lg in Hi. split; [exact (i_inner _ _ _ _ _ _ I i Hi)|]. split; [exact Hx|]. split; [exact (Hu i Hi)|reflexivity]. }
  pose proof (i_mok _ _ _ _ _ _ I p Ep) as Mok.
  exists {| mg_gps := gs; mg_din := Some d; mg_dout := Some p; mg_m := q_m K M s; mg_obs := q_ys K M s; mg_mean_obs := average p (q_ys K M s) |}.
  split; [|split; [|split; [|split]]].
  - intros od b. unfold mg_load. cbn [ma_dims ma_obs ma_mean ma_gps].
    assert (C1 : (0 <? length (q_ys K M s))%nat = true) by (apply Nat.ltb_lt; destruct (q_ys K M s); cbn; [congruence|lia]).
    assert (C2 : forallb (fun o : vec => (length o =? p)%nat) (q_ys K M s) = true).
    { apply forallb_len. pose proof (i_rect _ _ _ _ _ _ I) as R0. rewrite Ep in R0. exact R0. }
    assert (C3 : (length (map (save K Nu) (mg_gps K M g)) =? p)%nat = true) by (rewrite map_length; apply Nat.eqb_eq; rewrite <- Lp; exact Lg).
    match goal with |- check ?c _ = _ => replace c with true by (symmetry; exact (andb_true_intro (conj (andb_true_intro (conj C1 C2)) C3))) end. cbn [andb check]. rewrite (mrt_size MO MR p (q_m K M s)) by auto.
    assert (EM : (if (0 <? m_hsize M (m_new M p))%nat then
            match (if (0 <? m_hsize M (m_new M p))%nat then Some (m_hparams M (q_m K M s)) else None) with
            | Some q => check ((length q =? m_hsize M (m_new M p))%nat) (Done (m_set M (m_new M p) q))
            | None => Undefined end else Done (m_new M p)) = Done (q_m K M s)).
    { destruct (Nat.ltb_spec 0 (m_hsize M (m_new M p))) as [Hs|Hs].
      - rewrite (mrt_len MO MR p), (mrt_size MO MR p), Nat.eqb_refl by auto. cbn [check].
        rewrite (mrt_set MO MR p); auto. apply mok_new.
      - f_equal. pose proof (mrt_len MO MR p _ Mok) as Z1. pose proof (mrt_len MO MR p _ (mok_new MO p)) as Z2.
        rewrite (mrt_size MO MR p) in Z1 by auto.
        rewrite <- (mrt_set MO MR p (m_new M p) (m_new M p)) by apply mok_new.
        rewrite <- (mrt_set MO MR p (q_m K M s) (m_new M p)) by (auto; apply mok_new). f_equal.
        destruct (m_hparams M (m_new M p)), (m_hparams M (q_m K M s)); simpl in *; auto; lia. }
    rewrite EM. cbn [bind]. rewrite E. cbn [bind]. reflexivity.
  - constructor; cbn [mg_gps mg_din mg_dout mg_m mg_obs mg_mean_obs]; auto.
    + fold n. congruence.
    + now rewrite Ep.
    + intros i Hi. apply HH. rewrite Lg. exact Hi.
    + intros q Hq. rewrite Ep in Hq. injection Hq as <-. exact Mok.
  - reflexivity.
  - unfold mg_mean_observation. cbn [mg_obs mg_mean_obs]. rewrite (i_obs _ _ _ _ _ _ I). destruct (q_ys K M s) as [|y0 ys0] eqn:Eys; [congruence|].
    rewrite <- Eys in *. rewrite (i_mean _ _ _ _ _ _ I Hy), Ep. cbn [oget]. apply average_is_data_mean.
  - intros i Hi. cbn [mg_gps]. apply HH. rewrite Lg. exact Hi.
Qed.

(** recompute(true, true) on a MultiGP just loaded *)
Lemma recompute_loaded g s od : mlinv g s -> q_xs K M s <> [] -> mvalid K M s (MCompute od (q_xs K M s) (q_ys K M s) true) -> (0 < length (q_ks K M s))%nat ->
  exists g', mg_recompute K M od g true true = Done g' /\ minv g' (q_compute K M s (q_xs K M s) (q_ys K M s) true).
Proof.
  intros I Hx V P0. unfold mg_recompute, mg_recompute_by. pose proof (l_gps _ _ _ _ _ _ I) as Lg. pose proof (l_inner _ _ _ _ _ _ I 0%nat P0) as I0.
  destruct (mg_gps K M g) as [|a0 gs0] eqn:Eg; [cbn in Lg; lia|]. cbn [nth] in I0. rewrite (w_samples _ _ _ _ _ _ I0), (l_obs _ _ _ _ _ _ I). cbn [sub s_xs].
  destruct (compute_lprogress K M KO MO od g s _ _ true I V) as (g' & E). exists g'. split; [exact E|].
  apply (compute_mlinv K M KO MO od g s _ _ true g' I); auto. apply V.
Qed.
Lemma recompute_valid g s od : minv g s -> q_xs K M s <> [] -> schedule (oget (q_dout K M s)) od -> mvalid K M s (MCompute od (q_xs K M s) (q_ys K M s) true).
Proof.
  intros I Hx Sc.
  assert (Hy : q_ys K M s <> []) by (intro H; pose proof (i_lx _ _ _ _ _ _ I) as L; rewrite H in L; destruct (q_xs K M s); [congruence|discriminate]).
  pose proof (i_pos _ _ _ _ _ _ I Hy) as P0. pose proof (i_p _ _ _ _ _ _ I) as Lp.
  pose proof (i_inner _ _ _ _ _ _ I 0%nat ltac:(lia)) as I0. destruct (v_nonempty _ _ _ _ _ _ I0 Hx) as ((d & Ed & D0 & Fd) & _). cbn [sub s_xs] in Fd.
  pose proof (i_rect _ _ _ _ _ _ I) as R0.
  assert (E1 : length (hd [] (q_ys K M s)) = oget (q_dout K M s)) by (destruct (q_ys K M s); [congruence|]; now inversion R0).
  assert (E2 : length (hd [] (q_xs K M s)) = d) by (destruct (q_xs K M s); [congruence|]; now inversion Fd).
  cbn [mvalid]. rewrite E1, E2. split; [exact Hx|]. split; [symmetry; apply (i_lx _ _ _ _ _ _ I)|]. split; [split; auto|]. split; [split; auto|exact Sc].
Qed.
End MultiLoad.

Section Limbo.
Variables (sf2 l : R) (k : nat) (C : CKern) (noise0 : R) (opt : bool) (M : Mean).
Hypotheses (Hs : 0 < sf2) (Hl : 0 < l) (HC : In C (kernels sf2 l k)) (Hn : 0 <= noise0) (Ho : opt = true -> 0 < noise0) (HM : means M).
Notation K := (BaseKernel C noise0 opt).

(** C53.  A MultiGP with any history of valid calls, nothing left to recompute, is saved.  Loaded into any
    MultiGP object without recomputation, it predicts the same *)
Theorem C53_load_predicts_the_same g0 s0 os : mfresh K M g0 s0 -> mvalid_all K M s0 os ->
  let s := mmeaning K M s0 os in let p := oget (q_dout K M s) in
  q_xs K M s <> [] -> up_to_date K M s ->
  exists g a, mrun K M g0 os = Done g /\ mg_save K M g = Done a /\
  forall od1 g1, exists g2, mg_load K M od1 g1 a false = Done g2 /\
  forall v, q_din K M s = Some (length v) -> forall od junk, schedule p od ->
    mg_query K M junk od g2 v = mg_query K M junk od g v /\ mg_mu K M (fst junk) od g2 v = mg_mu K M (fst junk) od g v /\
    mg_sigma K M (snd junk) od g2 v = mg_sigma K M (snd junk) od g v.
Proof.
  intros F V s p Hx Hu. destruct (kernels_OK _ _ _ _ Hs Hl HC) as [O]. destruct (means_RT M HM) as [T].
  set (KO := base_OK C O noise0 opt Hn Ho). set (MO := RT_OK M T).
  destruct (mrun_progress K M KO MO os g0 s0 (fresh_minv K M KO MO _ _ F) V) as (g & E & I). fold s in I.
  destruct (load_restores K M KO MO (limbo_KernRT C noise0 opt Hn Ho O) (limbo_MeanRT M T) g s I Hx Hu) as (a & Ea & HL).
  exists g, a. split; [exact E|]. split; [exact Ea|]. intros od1 g1. destruct (HL g1) as (g2 & E2 & J & Em & Eo & A). exists g2.
  split; [exact (E2 od1 false)|]. intros v Hv od junk Sc. pose proof (i_p _ _ _ _ _ _ I) as Lp. fold p in Lp.
  assert (Hy : q_ys K M s <> []) by (intro H; pose proof (i_lx _ _ _ _ _ _ I) as L; rewrite H in L; destruct (q_xs K M s); [congruence|discriminate]).
  pose proof (i_pos _ _ _ _ _ _ I Hy) as P0.
  assert (Ep : q_dout K M s = Some p) by (unfold p in *; destruct (q_dout K M s); [reflexivity|cbn in P0; lia]).
  apply (query_ext K M g g2 v p); auto.
  - rewrite (i_dout _ _ _ _ _ _ I). exact Ep.
  - rewrite (l_dout _ _ _ _ _ _ J). exact Ep.
  - rewrite (i_gps _ _ _ _ _ _ I). exact Lp.
  - rewrite (l_gps _ _ _ _ _ _ J). exact Lp.
  - intros i Hi. cbn zeta. rewrite <- Lp in Hi.
    pose proof (i_inner _ _ _ _ _ _ I i Hi) as Ii. pose proof (l_inner _ _ _ _ _ _ J i Hi) as Ji.
    destruct (predict K NullFunction KO NO _ (sub K M s i) v (inv_linv _ _ _ _ _ _ Ii) (inv_alpha _ _ _ _ _ _ Ii) Hx (Hu i Hi) eq_refl Hv) as ((B & HB) & H1).
    destruct (predict K NullFunction KO NO _ (sub K M s i) v Ji (A i Hi) Hx (Hu i Hi) eq_refl Hv) as (_ & H2).
    destruct (H1 B HB) as (-> & -> & ->). destruct (H2 B HB) as (-> & -> & ->). auto.
Qed.

(** Loaded with recomputation, it is from then on indistinguishable from the MultiGP that was saved with
    recompute(true, true) called on it: any further calls succeed on both and they predict the same *)
Theorem C53_load_recompute g0 s0 os od1 : mfresh K M g0 s0 -> mvalid_all K M s0 os ->
  let s := mmeaning K M s0 os in let p := oget (q_dout K M s) in
  q_xs K M s <> [] -> up_to_date K M s -> schedule p od1 ->
  exists g a, mrun K M g0 os = Done g /\ mg_save K M g = Done a /\
  forall g1, exists g2 g3, mg_load K M od1 g1 a true = Done g2 /\ mg_recompute K M od1 g true true = Done g3 /\
  forall os', mvalid_all K M (q_step K M s (MRecompute od1 true true)) os' ->
  exists g2' g3', mrun K M g2 os' = Done g2' /\ mrun K M g3 os' = Done g3' /\
  let s' := mmeaning K M s0 (os ++ MRecompute od1 true true :: os') in
  (q_xs K M s' <> [] -> up_to_date K M s' -> forall v, q_din K M s' = Some (length v) -> forall od junk, schedule (oget (q_dout K M s')) od ->
    exists r, mg_query K M junk od g2' v = Done r /\ mg_query K M junk od g3' v = Done r /\
      mg_mu K M (fst junk) od g2' v = Done (fst r) /\ mg_mu K M (fst junk) od g3' v = Done (fst r) /\
      mg_sigma K M (snd junk) od g2' v = Done (snd r) /\ mg_sigma K M (snd junk) od g3' v = Done (snd r)).
Proof.
  intros F V s p Hx Hu Sc1. destruct (kernels_OK _ _ _ _ Hs Hl HC) as [O]. destruct (means_RT M HM) as [T].
  set (KO := base_OK C O noise0 opt Hn Ho). set (MO := RT_OK M T).
  destruct (mrun_progress K M KO MO os g0 s0 (fresh_minv K M KO MO _ _ F) V) as (g & E & I). fold s in I.
  destruct (load_restores K M KO MO (limbo_KernRT C noise0 opt Hn Ho O) (limbo_MeanRT M T) g s I Hx Hu) as (a & Ea & HL).
  exists g, a. split; [exact E|]. split; [exact Ea|]. intros g1. destruct (HL g1) as (g2 & E2 & J & _).
  pose proof (recompute_valid K M KO MO g s od1 I Hx Sc1) as RV.
  assert (Hy : q_ys K M s <> []) by (intro H; pose proof (i_lx _ _ _ _ _ _ I) as L; rewrite H in L; destruct (q_xs K M s); [congruence|discriminate]).
  pose proof (i_pos _ _ _ _ _ _ I Hy) as P0. pose proof (i_p _ _ _ _ _ _ I) as Lp.
  assert (P0' : (0 < length (q_ks K M s))%nat) by (rewrite Lp; exact P0).
  destruct (recompute_loaded K M KO MO g2 s od1 J Hx RV P0') as (g2r & E2r & I2).
  destruct (recompute_loaded K M KO MO g s od1 (minv_mlinv _ _ _ _ _ _ I) Hx RV P0') as (g3 & E3 & I3).
  exists g2r, g3. split; [rewrite E2; exact E2r|]. split; [exact E3|]. intros os' V'.
  assert (Es : q_step K M s (MRecompute od1 true true) = q_compute K M s (q_xs K M s) (q_ys K M s) true).
  { cbn [q_step]. destruct (q_ks K M s); [cbn in P0'; lia|reflexivity]. }
  rewrite Es in V'.
  destruct (mrun_progress K M KO MO os' g2r _ I2 V') as (g2' & E2' & I2'). destruct (mrun_progress K M KO MO os' g3 _ I3 V') as (g3' & E3' & I3').
  exists g2', g3'. split; [exact E2'|]. split; [exact E3'|]. cbn zeta. rewrite mmeaning_app. fold s.
  change (mmeaning K M s (MRecompute od1 true true :: os')) with (mmeaning K M (q_step K M s (MRecompute od1 true true)) os'). rewrite Es.
  set (s' := mmeaning K M (q_compute K M s (q_xs K M s) (q_ys K M s) true) os') in *. intros Hx' Hu' v Hv od junk Sc.
  assert (Hy' : q_ys K M s' <> []) by (intro H; pose proof (i_lx _ _ _ _ _ _ I2') as L; rewrite H in L; destruct (q_xs K M s'); [congruence|discriminate]).
  pose proof (i_pos _ _ _ _ _ _ I2' Hy') as P2.
  assert (HB : exists B, forall i, (i < oget (q_dout K M s'))%nat -> is_inv (length (q_xs K M s')) (gram K (q_kernel K M s' i) (q_xs K M s')) (B i)).
  { pose proof (inverses K M KO MO g2' s' I2' Hx') as HI. clear - HI. induction (oget (q_dout K M s')) as [|q IH]; [exists (fun _ _ _ => 0); intros; lia|].
    destruct IH as (B & HB); [intros; apply HI; lia|]. destruct (HI q ltac:(lia)) as (b & Hb).
    exists (fun i => if (i =? q)%nat then b else B i). intros i Hi. destruct (i =? q)%nat eqn:Ei.
    - apply Nat.eqb_eq in Ei. now subst.
    - apply Nat.eqb_neq in Ei. apply HB. lia. }
  destruct HB as (B & HB).
  destruct (outputs K M KO MO g2' s' v I2' Hx' Hu' Hv P2 B HB od junk Sc) as (Q1 & Q2 & Q3).
  destruct (outputs K M KO MO g3' s' v I3' Hx' Hu' Hv P2 B HB od junk Sc) as (R1 & R2 & R3).
  eexists. split; [exact Q1|]. split; [exact R1|]. split; [exact Q2|]. split; [exact R2|]. split; [exact Q3|exact R3].
Qed.

(** ... hence the same predictions as before saving, when the values of the mean that were subtracted are the current ones *)
Theorem C53_load_recompute_predicts_the_same_partial g0 s0 os od1 : mfresh K M g0 s0 -> mvalid_all K M s0 os ->
  let s := mmeaning K M s0 os in let p := oget (q_dout K M s) in
  q_xs K M s <> [] -> up_to_date K M s -> settled K M s -> schedule p od1 ->
  exists g a, mrun K M g0 os = Done g /\ mg_save K M g = Done a /\
  forall g1, exists g2, mg_load K M od1 g1 a true = Done g2 /\
  forall v, q_din K M s = Some (length v) -> forall od junk, schedule p od ->
    mg_query K M junk od g2 v = mg_query K M junk od g v.
Proof.
  intros F V s p Hx Hu St Sc1. destruct (C53_load_recompute g0 s0 os od1 F V Hx Hu Sc1) as (g & a & E & Ea & H). fold s in H.
  exists g, a. split; [exact E|]. split; [exact Ea|]. intro g1. destruct (H g1) as (g2 & g3 & E2 & E3 & HH). exists g2. split; [exact E2|].
  destruct (HH [] Logic.I) as (g2' & g3' & E2' & E3' & Q). injection E2' as <-. injection E3' as <-. cbn zeta in Q. rewrite mmeaning_app in Q. fold s in Q.
  change (mmeaning K M s [MRecompute od1 true true]) with (q_step K M s (MRecompute od1 true true)) in Q.
  intros v Hv od junk Sc.
  destruct (kernels_OK _ _ _ _ Hs Hl HC) as [O]. destruct (means_RT M HM) as [T].
  set (KO := base_OK C O noise0 opt Hn Ho). set (MO := RT_OK M T).
  destruct (mrun_progress K M KO MO os g0 s0 (fresh_minv K M KO MO _ _ F) V) as (g' & E' & I). fold s in I.
  assert (g' = g) as -> by (rewrite E in E'; now injection E').
  assert (Hy : q_ys K M s <> []) by (intro H'; pose proof (i_lx _ _ _ _ _ _ I) as L; rewrite H' in L; destruct (q_xs K M s); [congruence|discriminate]).
  pose proof (i_pos _ _ _ _ _ _ I Hy) as P0. fold p in P0. pose proof (i_p _ _ _ _ _ _ I) as Lp. fold p in Lp.
  pose proof (recompute_valid K M KO MO g s od1 I Hx Sc1) as RV.
  destruct (recompute_loaded K M KO MO g s od1 (minv_mlinv _ _ _ _ _ _ I) Hx RV ltac:(lia)) as (g3' & E3' & I3).
  assert (g3' = g3) as -> by (rewrite E3 in E3'; now injection E3').
  assert (Es : q_step K M s (MRecompute od1 true true) = q_compute K M s (q_xs K M s) (q_ys K M s) true).
  { cbn [q_step]. destruct (q_ks K M s); [cbn in Lp; lia|reflexivity]. }
  rewrite Es in Q. set (t := q_compute K M s (q_xs K M s) (q_ys K M s) true) in *.
  assert (Ed : length (hd [] (q_xs K M s)) = length v).
  { pose proof (i_inner _ _ _ _ _ _ I 0%nat ltac:(lia)) as I0. destruct (v_nonempty _ _ _ _ _ _ I0 Hx) as ((d & D1 & _ & Fd) & _). cbn [sub s_din s_xs] in D1, Fd.
    rewrite Hv in D1. injection D1 as <-. destruct (q_xs K M s); [congruence|]. now inversion Fd. }
  assert (Eo : length (hd [] (q_ys K M s)) = p).
  { pose proof (i_rect _ _ _ _ _ _ I) as R0. fold p in R0. destruct (q_ys K M s); [congruence|]. now inversion R0. }
  assert (Ep : q_dout K M s = Some p) by (unfold p in *; destruct (q_dout K M s); [reflexivity|cbn in P0; lia]).
  assert (T1 : q_din K M t = Some (length v)) by (unfold t, q_compute; cbn [q_din]; now rewrite Ed).
  assert (T2 : q_dout K M t = Some p) by (unfold t, q_compute; cbn [q_dout]; now rewrite Eo).
  assert (T3 : q_m K M t = q_m K M s) by (unfold t, q_compute; cbn [q_m]; rewrite Eo, Ep; cbn [same]; now rewrite Nat.eqb_refl).
  assert (T4 : forall i, (i < p)%nat -> q_kernel K M t i = q_kernel K M s i /\ q_stale K M t i = false).
  { intros i Hi. unfold q_kernel at 1, q_stale, t, q_compute. cbn [q_ks]. rewrite Eo, Ep, Ed, Hv. cbn [same]. rewrite !Nat.eqb_refl.
    rewrite (nth_map_dflt _ _ _ (k_new K 1, false)) by lia. split; reflexivity. }
  assert (T5 : length (q_ks K M t) = p) by (unfold t, q_compute; cbn [q_ks]; rewrite Eo, Ep; cbn [same]; rewrite Nat.eqb_refl, map_length; exact Lp).
  assert (T6 : q_xs K M t = q_xs K M s /\ q_ys K M t = q_ys K M s) by (split; reflexivity). destruct T6 as [T6 T7].
  assert (Ut : up_to_date K M t) by (intros i Hi; apply T4; lia).
  assert (Stt : settled K M t) by apply settled_compute.
  destruct (Q Hx Ut v T1 od junk) as (r & Q1 & Q2 & _). { rewrite T2. exact Sc. }
  rewrite Q1. rewrite <- Q2.
  assert (HB : exists B, forall i, (i < p)%nat -> is_inv (length (q_xs K M s)) (gram K (q_kernel K M s i) (q_xs K M s)) (B i)).
  { pose proof (inverses K M KO MO g s I Hx) as HI. fold p in HI. clear - HI. induction p as [|q IH]; [exists (fun _ _ _ => 0); intros; lia|].
    destruct IH as (B & HB); [intros; apply HI; lia|]. destruct (HI q ltac:(lia)) as (b & Hb).
    exists (fun i => if (i =? q)%nat then b else B i). intros i Hi. destruct (i =? q)%nat eqn:Ei.
    - apply Nat.eqb_eq in Ei. now subst.
    - apply Nat.eqb_neq in Ei. apply HB. lia. }
  destruct HB as (B & HB).
  destruct (outputs K M KO MO g s v I Hx Hu Hv P0 B HB od junk Sc) as (-> & _).
  pose proof (outputs K M KO MO g3 t v I3) as O3. rewrite T1, T2, T6 in O3. cbn [oget] in O3.
  destruct (O3 Hx Ut eq_refl P0 B) with (od := od) (junk := junk) as (-> & _); auto.
  { intros i Hi. rewrite (proj1 (T4 i Hi)). now apply HB. }
  fold p. f_equal. f_equal; apply vec_of_ext; intros i Hi.
  - unfold out_mean. rewrite T2, T3, T6, T7, Ep. cbn [oget]. cbv zeta. rewrite (proj1 (T4 i Hi)). f_equal. apply rsum_ext. intros a' Ha'. apply rsum_ext. intros b Hb.
    f_equal. unfold left_over. rewrite (Stt b i), (St b i); rewrite ?T6, ?T2, ?Ep; cbn [oget]; auto. now rewrite T3, T7.
  - unfold out_var. now rewrite (proj1 (T4 i Hi)), T6.
Qed.
End Limbo.

(** * With mean::Data, load() with recomputation (the default) changes the predictions *)
Section Refuted.
Let C := Exp 1 1.
Let K := BaseKernel C 0 false.
Let HC : In C (kernels 1 1 0). Proof. left. reflexivity. Qed.
Let Ho : false = true -> 0 < 0. Proof. discriminate. Qed.
Let sch1 : schedule 1 [0%nat]. Proof. apply Permutation_refl. Qed.

Theorem C53_load_recompute_refuted : forall j1 j2, let os := [MAdd j1 j2 [0%nat] [0] [0]; MAdd j1 j2 [0%nat] [0] [2]] in
  mvalid_all K Data (q_default K Data) os /\
  exists g a g2 x y, mrun K Data (mgp_default K Data) os = Done g /\ mg_save K Data g = Done a /\
    mg_load K Data [0%nat] (mgp_default K Data) a true = Done g2 /\
    mg_mu K Data 0 [0%nat] g [0] = Done [x] /\ mg_mu K Data 0 [0%nat] g2 [0] = Done [y] /\ x <> y.
Proof.
  intros j1 j2 os. set (os' := [MCompute [0%nat] [[0]; [0]] [[0]; [2]] true]).
  assert (F : mfresh K Data (mgp_default K Data) (q_default K Data)) by constructor.
  assert (V : mvalid_all K Data (q_default K Data) os).
  { cbn [os mvalid_all mvalid length]. repeat split; auto; try (cbn; lia); try (cbn; congruence); try (intros ? i Hi; destruct i; [reflexivity|cbn in Hi; lia]). all: exfalso; match goal with H : _ <> _ |- _ => now apply H end. }
  assert (V' : mvalid_all K Data (q_default K Data) os').
  { cbn [os' mvalid_all mvalid length hd]. repeat split; auto; try discriminate; try (cbn; lia); repeat constructor. }
  split; [exact V|].
  destruct (C34_data_mean_refuted j1 j2) as (g & g' & x & y & E & E' & Qx & Qy & Hne). fold os in E.
  assert (U : up_to_date K Data (mmeaning K Data (q_default K Data) os)) by (intros i Hi; destruct i; [reflexivity|cbn in Hi; lia]).
  destruct (C53_load_recompute 1 1 0 C 0 false Data Rlt_0_1 Rlt_0_1 HC (Rle_refl 0) Ho mn_data _ _ os [0%nat] F V) as (g_ & a & E_ & Ea & H); auto.
  { discriminate. }
  change (BaseKernel C 0 false) with K in E_, Ea, H.
  assert (g_ = g) as -> by (apply (f_equal (fun o => match o with Done z => z | _ => g end)) in E_; rewrite <- E_; apply (f_equal (fun o => match o with Done z => z | _ => g end)) in E; exact E).
  destruct (H (mgp_default K Data)) as (g2 & g3 & E2 & E3 & HH). destruct (HH [] Logic.I) as (g2' & g3' & R2 & R3 & Q). injection R2 as <-. injection R3 as <-.
  assert (Em : mmeaning K Data (q_default K Data) (os ++ [MRecompute [0%nat] true true]) = mmeaning K Data (q_default K Data) os') by reflexivity.
  cbn zeta in Q. rewrite Em in Q.
  assert (U' : up_to_date K Data (mmeaning K Data (q_default K Data) os')) by (intros i Hi; destruct i; [reflexivity|cbn in Hi; lia]).
  destruct (Q ltac:(discriminate) U' [0] eq_refl [0%nat] (0, 0) sch1) as (r & _ & _ & M2 & M3 & _). cbn [fst] in M2, M3.
  destruct (C34_independent_outputs 1 1 0 C 0 false Data Rlt_0_1 Rlt_0_1 HC (Rle_refl 0) Ho mn_data _ _ os' F V') as (ga & Ega & HA).
  assert (V3 : mvalid_all K Data (q_default K Data) (os ++ [MRecompute [0%nat] true true])).
  { apply mvalid_app; auto. cbn [mvalid_all mvalid]. split; auto. intros _. split; [discriminate|]. split; [exact sch1|discriminate]. }
  destruct (C34_independent_outputs 1 1 0 C 0 false Data Rlt_0_1 Rlt_0_1 HC (Rle_refl 0) Ho mn_data _ _ _ F V3) as (gb & Egb & HB).
  cbv zeta in HA, HB. change (BaseKernel C 0 false) with K in Ega, HA, Egb, HB. rewrite Em in HB.
  destruct (HA ltac:(discriminate) U' [0] eq_refl) as (HI & HQ). destruct (HB ltac:(discriminate) U' [0] eq_refl) as (_ & HQ').
  destruct (HI 0%nat ltac:(cbn; lia)) as (B & HBi).
  destruct (HQ (fun _ => B)) with (od := [0%nat]) (junk := (0, 0)) as (_ & QA & _); auto. { intros i Hi. destruct i; [exact HBi|cbn in Hi; lia]. }
  destruct (HQ' (fun _ => B)) with (od := [0%nat]) (junk := (0, 0)) as (_ & QB & _); auto. { intros i Hi. destruct i; [exact HBi|cbn in Hi; lia]. }
  cbn [fst] in QA, QB.
  assert (ga = g') as ->. { cbn [os' mrun mexec] in Ega. unfold K, C in *. rewrite E' in Ega. cbn [bind] in Ega. now injection Ega. }
  assert (gb = g3) as ->. { unfold K, C in *. rewrite mrun_app, E in Egb. cbn [bind mrun mexec] in Egb. rewrite E3 in Egb. cbn [bind] in Egb. now injection Egb. }
  exists g, a, g2, x, y. split; [exact E|]. split; [exact Ea|]. split; [exact E2|]. split; [exact Qx|]. split; [|exact Hne].
  unfold K, C in *. rewrite M2. rewrite <- Qy. rewrite QA. rewrite <- QB. symmetry. exact M3.
Qed.
End Refuted.
(** the hypotheses of C53 are those of C52, met by [C52_nontrivial] *)
