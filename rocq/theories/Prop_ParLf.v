(** C52: optimising the hyper-parameters of the outputs of a MultiGP in parallel. *)
From Coq Require Import Reals List Bool ZArith Lia Lra Permutation.
From Verif Require Import LinAlgModel LinAlg KernelModel KernelSpec KernelFacts GPModel GPSpec GPFacts MeanSpec MeanFacts Prop_GP Prop_Lik2
  HpOptModel Prop_Load Prop_Load2 Prop_HpOpt MultiGPModel MultiGPSpec MultiGPFacts Prop_MultiGP Prop_MultiGP2 ParLfModel.
Import ListNotations.
Open Scope R_scope.

(** gp_models()[k].kernel_function().set_h_params(ps[0]), gp_models()[k+1]... *)
Fixpoint set_from (k : nat) (ps : list vec) : list mop :=
  match ps with [] => [] | p :: r => MSetK k p :: set_from (S k) r end.

Section ParLf.
Variables (K : Kern) (M : Mean).
Variable KO : KernOK K.
Variable MO : MeanOK M.
Notation Nu := NullFunction.
Notation minv := (minv K M KO MO). Notation gdef := (gdef K). Notation mgp := (mgp K M). Notation msp := (msp K M).
Definition with_gps (g : mgp) gps : mgp := {| mg_gps := gps; mg_din := mg_din K M g; mg_dout := mg_dout K M g; mg_m := mg_m K M g;
  mg_obs := mg_obs K M g; mg_mean_obs := mg_mean_obs K M g |}.

Lemma set_from_run (ps : list vec) : forall k (g : mgp), (k + length ps <= length (mg_gps K M g))%nat ->
  (forall j, (j < length ps)%nat -> exists a, set_kernel_params K Nu (nth (k + j) (mg_gps K M g) gdef) (nth j ps []) = Done a) ->
  exists gps1, mrun K M g (set_from k ps) = Done (with_gps g gps1) /\ length gps1 = length (mg_gps K M g) /\
    (forall j, (j < k)%nat -> nth j gps1 gdef = nth j (mg_gps K M g) gdef) /\
    (forall j, (k + length ps <= j)%nat -> nth j gps1 gdef = nth j (mg_gps K M g) gdef) /\
    (forall j, (j < length ps)%nat -> set_kernel_params K Nu (nth (k + j) (mg_gps K M g) gdef) (nth j ps []) = Done (nth (k + j) gps1 gdef)).
Proof.
  induction ps as [|p ps IH]; intros k g Hk Hd.
  - exists (mg_gps K M g). cbn [set_from mrun]. split; [destruct g; reflexivity|]. split; [auto|]. split; [auto|]. split; [auto|]. intros j Hj. cbn in Hj. lia.
  - cbn [length] in Hk. assert (Hlt : (k < length (mg_gps K M g))%nat) by lia. destruct (Hd O ltac:(cbn; lia)) as (a & Ea). rewrite Nat.add_0_r in Ea. cbn [nth] in Ea.
    set (g1 := with_gps g (lput k a (mg_gps K M g))).
    assert (L1 : length (mg_gps K M g1) = length (mg_gps K M g)) by (apply lput_length; lia).
    assert (Hoth : forall j, j <> k -> nth j (mg_gps K M g1) gdef = nth j (mg_gps K M g) gdef).
    { intros j Hj. unfold g1. cbn [with_gps mg_gps]. apply lput_other; lia. }
    destruct (IH (S k) g1) as (gps1 & E1 & E2 & E3 & E4 & E5).
    { rewrite L1. lia. }
    { intros j Hj. rewrite Hoth by lia. destruct (Hd (S j) ltac:(cbn; lia)) as (b & Eb). cbn [nth] in Eb.
      replace (S k + j)%nat with (k + S j)%nat by lia. eauto. }
    exists gps1. split.
    { cbn [set_from mrun mexec]. unfold mg_set_kernel_params. rewrite (nth_error_nth' _ gdef) by lia. rewrite Ea. cbn [bind].
      change (mrun K M g1 (set_from (S k) ps) = Done (with_gps g gps1)). rewrite E1. reflexivity. }
    split; [congruence|]. split; [|split].
    + intros j Hj. rewrite E3 by lia. apply Hoth. lia.
    + intros j Hj. cbn [length] in Hj. rewrite E4 by lia. apply Hoth. lia.
    + intros [|j] Hj; cbn [length] in Hj.
      * rewrite Nat.add_0_r. cbn [nth]. rewrite Ea, E3 by lia. f_equal. unfold g1. cbn [with_gps mg_gps]. symmetry. apply lput_same. exact Hlt.
      * replace (k + S j)%nat with (S k + j)%nat by lia. cbn [nth]. rewrite <- E5 by lia. now rewrite Hoth by lia.
Qed.

Lemma mrun_app (g : mgp) os os' : mrun K M g (os ++ os') = bind (mrun K M g os) (fun g' => mrun K M g' os').
Proof. revert g. induction os as [|o os IH]; intro g; cbn [mrun app]; [reflexivity|]. destruct (mexec K M g o); cbn [bind]; auto. Qed.
Lemma mvalid_app (s : msp) os os' : mvalid_all K M s os -> mvalid_all K M (mmeaning K M s os) os' -> mvalid_all K M s (os ++ os').
Proof. revert s. induction os as [|o os IH]; intros s H H'; cbn [mvalid_all app] in *; auto. destruct H. split; auto. Qed.
Lemma mmeaning_app (s : msp) os os' : mmeaning K M s (os ++ os') = mmeaning K M (mmeaning K M s os) os'.
Proof. unfold mmeaning. apply fold_left_app. Qed.

(** the meaning of setting all of them *)
Lemma set_from_meaning (ps : list vec) : forall k (s : msp), (k + length ps <= length (q_ks K M s))%nat ->
  (forall j, (j < length ps)%nat -> length (nth j ps []) = k_hsize K (q_kernel K M s (k + j))) ->
  mvalid_all K M s (set_from k ps) /\
  let t := mmeaning K M s (set_from k ps) in
  q_din K M t = q_din K M s /\ q_dout K M t = q_dout K M s /\ q_m K M t = q_m K M s /\ q_xs K M t = q_xs K M s /\ q_ys K M t = q_ys K M s /\
  q_off K M t = q_off K M s /\ length (q_ks K M t) = length (q_ks K M s) /\
  (forall j, (j < k)%nat -> q_kernel K M t j = q_kernel K M s j) /\
  (forall j, (j < length ps)%nat -> q_kernel K M t (k + j) = k_set K (q_kernel K M s (k + j)) (nth j ps [])).
Proof.
  induction ps as [|p ps IH]; intros k s Hk Hl.
  - cbn. repeat split; auto. intros j Hj. lia.
  - cbn [length] in Hk. pose proof (Hl O ltac:(cbn; lia)) as Hl0. rewrite Nat.add_0_r in Hl0. cbn [nth] in Hl0.
    set (s1 := q_step K M s (MSetK k p)).
    assert (L1 : length (q_ks K M s1) = length (q_ks K M s)) by (apply lput_length; lia).
    assert (Hoth : forall j, j <> k -> q_kernel K M s1 j = q_kernel K M s j).
    { intros j Hj. unfold q_kernel, s1. cbn [q_step q_ks]. rewrite lput_other; auto; lia. }
    assert (Hsame : q_kernel K M s1 k = k_set K (q_kernel K M s k) p).
    { unfold q_kernel at 1, s1. cbn [q_step q_ks]. rewrite lput_same by lia. reflexivity. }
    destruct (IH (S k) s1) as (V & A1 & A2 & A3 & A4 & A5 & A6 & A7 & A8 & A9).
    { rewrite L1. lia. }
    { intros j Hj. rewrite Hoth by lia. replace (S k + j)%nat with (k + S j)%nat by lia. exact (Hl (S j) ltac:(cbn; lia)). }
    split; [cbn [set_from mvalid_all mvalid]; split; [split; [lia|exact Hl0]|exact V]|].
    cbn zeta. change (mmeaning K M s (set_from k (p :: ps))) with (mmeaning K M s1 (set_from (S k) ps)).
    cbn zeta in A1, A2, A3, A4, A5, A6, A7, A8, A9. rewrite A1, A2, A3, A4, A5, A6, A7.
    split; [reflexivity|]. split; [reflexivity|]. split; [reflexivity|]. split; [reflexivity|]. split; [reflexivity|]. split; [reflexivity|].
    split; [exact L1|]. split.
    + intros j Hj. rewrite A8 by lia. apply Hoth. lia.
    + intros [|j] Hj; cbn [length] in Hj.
      * rewrite Nat.add_0_r. cbn [nth]. rewrite A8 by lia. exact Hsame.
      * replace (k + S j)%nat with (S k + j)%nat by lia. cbn [nth]. rewrite A9 by lia. now rewrite Hoth by lia.
Qed.

Hypothesis RT : KernRT KO.
Variable opt : (vec -> outcome (R * vec)) -> vec -> outcome vec.
Hypothesis Hopt : improves opt.
Notation hp := (kernel_lf_opt K Nu opt).

Lemma parallel_state g s od : minv g s -> q_xs K M s <> [] -> up_to_date K M s -> schedule (length (q_ks K M s)) od ->
  exists (ps : list vec) g', parallel_lf_opt K M hp od g = Done g' /\ length ps = length (q_ks K M s) /\
    (forall i, (i < length ps)%nat -> length (nth i ps []) = k_hsize K (q_kernel K M s i)) /\
    mrun K M g (set_from 0 ps ++ [MRecompute od false true]) = Done g' /\
    (forall od', schedule (length (q_ks K M s)) od' -> parallel_lf_opt K M hp od' g = Done g') /\
    forall i, (i < length ps)%nat -> exists v v', compute_log_lik K Nu (nth i (mg_gps K M g) gdef) = Done v /\
      compute_log_lik K Nu (nth i (mg_gps K M g') gdef) = Done v' /\ v <= v'.
Proof.
  intros I Hx Hu Sc. set (n := length (q_ks K M s)) in *.
  assert (Ln : length (mg_gps K M g) = n) by apply I.
  assert (H1 : forall i, (i < n)%nat -> exists p a' v v', hp (nth i (mg_gps K M g) gdef) = Done a' /\
     run K Nu (nth i (mg_gps K M g) gdef) [SetK p; Recompute false true] = Done a' /\ length p = k_hsize K (q_kernel K M s i) /\
     compute_log_lik K Nu (nth i (mg_gps K M g) gdef) = Done v /\ compute_log_lik K Nu a' = Done v' /\ v <= v').
  { intros i Hi. pose proof (i_inner _ _ _ _ _ _ I i Hi) as Ii.
    destruct (klf_state K Nu KO NO opt Hopt RT _ _ Ii) as (p & a' & v & v' & E1 & E2 & E3 & E4).
    { split; [exact Hx|]. split; [exact (Hu i Hi)|reflexivity]. }
    exists p, a', v, v'. rewrite (v_k _ _ _ _ _ _ Ii) in E3. auto. }
  assert (H2 : exists ps : list vec, length ps = n /\ forall i, (i < n)%nat -> exists a' v v', hp (nth i (mg_gps K M g) gdef) = Done a' /\
     run K Nu (nth i (mg_gps K M g) gdef) [SetK (nth i ps []); Recompute false true] = Done a' /\ length (nth i ps []) = k_hsize K (q_kernel K M s i) /\
     compute_log_lik K Nu (nth i (mg_gps K M g) gdef) = Done v /\ compute_log_lik K Nu a' = Done v' /\ v <= v').
  { clear - H1. induction n as [|n IH]; [exists []; split; auto; intros; lia|].
    destruct IH as (ps & L & H); [intros; apply H1; lia|]. destruct (H1 n ltac:(lia)) as (p & Hp). exists (ps ++ [p]).
    split; [rewrite app_length; cbn; lia|]. intros i Hi. destruct (Nat.eq_dec i n) as [->|Hne].
    - rewrite app_nth2 by lia. rewrite L, Nat.sub_diag. exact Hp.
    - rewrite app_nth1 by lia. apply H. lia. }
  destruct H2 as (ps & Lp & H2).
  destruct (@par_each_progress (gp1 K) (fun _ a => hp a) gdef n od (mg_gps K M g) Sc Ln) as (l' & El).
  { intros i Hi. destruct (H2 i Hi) as (a' & _ & _ & E & _). eauto. }
  destruct (@par_each_spec (gp1 K) _ gdef n od _ l' Sc Ln El) as (Ll & Hl).
  assert (Hl' : forall i, (i < n)%nat -> run K Nu (nth i (mg_gps K M g) gdef) [SetK (nth i ps []); Recompute false true] = Done (nth i l' gdef)).
  { intros i Hi. destruct (H2 i Hi) as (a' & _ & _ & E & E' & _). specialize (Hl i Hi). cbv beta in Hl. rewrite E in Hl. rewrite E'. exact Hl. }
  exists ps, (with_gps g l'). split; [unfold parallel_lf_opt; now rewrite El|]. split; [exact Lp|].
  split; [intros i Hi; rewrite Lp in Hi; destruct (H2 i Hi) as (? & ? & ? & _ & _ & H & _); exact H|].
  split; [|split].
  - destruct (set_from_run ps 0 g) as (gps1 & E1 & E2 & _ & _ & E5).
    { rewrite Ln, Lp. apply le_n. }
    { intros j Hj. rewrite Lp in Hj. destruct (run2 _ _ _ _ _ _ (Hl' j Hj)) as (b & Eb & _). exists b. exact Eb. }
    rewrite mrun_app, E1. cbn [bind mrun mexec]. unfold mg_recompute, mg_recompute_by. cbn [with_gps mg_gps].
    destruct gps1 as [|a0 gs0] eqn:Eg.
    { cbn [length] in E2. rewrite Ln in E2. subst n. rewrite <- E2 in *. destruct l'; [|discriminate]. reflexivity. }
    rewrite <- Eg in *. clear a0 gs0 Eg.
    assert (Lg : length gps1 = n) by congruence.
    assert (Hr : forall i, (i < n)%nat -> recompute K Nu (nth i gps1 gdef) false true = Done (nth i l' gdef)).
    { intros i Hi. destruct (run2 _ _ _ _ _ _ (Hl' i Hi)) as (b & Eb & Er). cbn [exec] in Eb, Er. rewrite <- (Nat.add_0_l i) in Eb at 1.
      rewrite E5 in Eb by (rewrite Lp; exact Hi). injection Eb as <-. exact Er. }
    destruct (@par_each_progress (gp1 K) (fun _ a => recompute K Nu a false true) gdef n od gps1 Sc Lg) as (l2 & El2).
    { intros i Hi. eexists. exact (Hr i Hi). }
    unfold gp1 in El2 |- *. rewrite El2. cbn [bind]. destruct (@par_each_spec (gp1 K) _ gdef n od _ l2 Sc Lg El2) as (Ll2 & Hl2).
    unfold with_gps. f_equal. f_equal. apply nth_ext with gdef gdef; [congruence|]. intros i Hi. specialize (Hl2 i ltac:(lia)). cbv beta in Hl2.
    rewrite Hr in Hl2 by lia. now injection Hl2.
  - intros od' Sc'. unfold parallel_lf_opt. now rewrite (par_each_schedules _ n od od' _ l' Sc Sc' Ln El).
  - intros i Hi. rewrite Lp in Hi. destruct (H2 i Hi) as (a' & v & v' & E & _ & _ & Ev & Ev' & Hle). exists v, v'. split; [exact Ev|].
    cbn [with_gps mg_gps]. specialize (Hl i Hi). cbv beta in Hl. rewrite E in Hl. injection Hl as Hl. subst a'. auto.
Qed.
End ParLf.

Section Limbo.
Variables (sf2 l : R) (k : nat) (C : CKern) (noise0 : R) (opt : bool) (M : Mean).
Hypotheses (Hs : 0 < sf2) (Hl : 0 < l) (HC : In C (kernels sf2 l k)) (Hn : 0 <= noise0) (Ho : opt = true -> 0 < noise0) (HM : means M).
Notation K := (BaseKernel C noise0 opt).
Notation found od ps := (set_from 0 ps ++ [MRecompute od false true]).

(** C52.  Any history of valid calls, nothing left to recompute, any settings of Rprop, any schedule:
    the optimisation ends; it is the history extended by setting the parameters [ps] of the outputs and one
    recompute(false, true); no output has a lower likelihood; the result is the same for every schedule; and the
    predictions are the posteriors of the kernels with the parameters found *)
Theorem C52_parallel_lf_opt g0 s0 os od eps it : mfresh K M g0 s0 -> mvalid_all K M s0 os ->
  let s := mmeaning K M s0 os in let p := oget (q_dout K M s) in
  q_xs K M s <> [] -> up_to_date K M s -> schedule p od -> 0 <= eps ->
  let hp := kernel_lf_opt K NullFunction (fun f init => rprop_R f eps it init) in
  exists g (ps : list vec) g', mrun K M g0 os = Done g /\ parallel_lf_opt K M hp od g = Done g' /\
    (forall od', schedule p od' -> parallel_lf_opt K M hp od' g = Done g') /\
    length ps = p /\
    mvalid_all K M s0 (os ++ found od ps) /\ mrun K M g0 (os ++ found od ps) = Done g' /\
    (forall i, (i < p)%nat -> exists a a' v v', nth_error (mg_gps K M g) i = Some a /\ nth_error (mg_gps K M g') i = Some a' /\
       k_hparams K (g_k K NullFunction a') = nth i ps [] /\
       compute_log_lik K NullFunction a = Done v /\ compute_log_lik K NullFunction a' = Done v' /\ v <= v') /\
    forall v, q_din K M s = Some (length v) ->
    exists B, (forall i, (i < p)%nat -> is_inv (length (q_xs K M s)) (gram K (k_set K (q_kernel K M s i) (nth i ps [])) (q_xs K M s)) (B i)) /\
    forall od' junk, schedule p od' ->
      mg_query K M junk od' g' v =
        Done (vec_of p (fun i => prior_mean M (q_m K M s) (q_ys K M s) p v i +
                 rsum (length (q_xs K M s)) (fun a => rsum (length (q_xs K M s)) (fun b =>
                   cov K (k_set K (q_kernel K M s i) (nth i ps [])) (q_xs K M s) v a * B i a b * left_over K M s i b))),
              vec_of p (fun i => clamp (post_var K (k_set K (q_kernel K M s i) (nth i ps [])) (q_xs K M s) (B i) v) +
                 k_noise K (k_set K (q_kernel K M s i) (nth i ps [])))).
Proof.
  intros F V s p Hx Hu Sc He hp. destruct (kernels_OK _ _ _ _ Hs Hl HC) as [O]. destruct (means_RT M HM) as [T].
  set (KO := base_OK C O noise0 opt Hn Ho). set (MO := RT_OK M T).
  pose proof (limbo_KernRT C noise0 opt Hn Ho O) as RT. fold KO in RT.
  destruct (mrun_progress K M KO MO os g0 s0 (fresh_minv K M KO MO _ _ F) V) as (g & E & I). fold s in I.
  assert (Hp : length (q_ks K M s) = p) by apply (i_p _ _ _ _ _ _ I).
  destruct (parallel_state K M KO MO RT _ (rprop_improves eps it He) g s od I Hx Hu) as (ps & g' & E1 & E2 & E3 & E4 & E5 & E6).
  { now rewrite Hp. }
  rewrite Hp in *.
  destruct (set_from_meaning K M ps 0 s) as (VS & A1 & A2 & A3 & A4 & A5 & A6 & A7 & _ & A9).
  { rewrite Hp, E2. apply le_n. }
  { intros j Hj. cbn [Nat.add]. now apply E3. }
  cbn zeta in A1, A2, A3, A4, A5, A6, A7, A9.
  assert (Vall : mvalid_all K M s (found od ps)).
  { apply mvalid_app; auto. cbn [mvalid_all mvalid]. split; auto. intros _. rewrite A4, A7, Hp. split; [exact Hx|]. split; [exact Sc|discriminate]. }
  assert (Eall : mrun K M g0 (os ++ found od ps) = Done g') by (rewrite mrun_app, E; exact E4).
  exists g, ps, g'. split; [exact E|]. split; [exact E1|]. split; [exact E5|]. split; [exact E2|].
  split; [now apply mvalid_app|]. split; [exact Eall|].
  set (t := mmeaning K M s (found od ps)).
  destruct (mrun_progress K M KO MO (found od ps) g s I Vall) as (g'' & Eg'' & I'). fold t in I'.
  assert (g'' = g') as -> by (rewrite E4 in Eg''; now injection Eg'').
  assert (P0 : (0 < p)%nat).
  { apply (i_pos _ _ _ _ _ _ I). intro H. pose proof (i_lx _ _ _ _ _ _ I) as Lx. rewrite H in Lx. destruct (q_xs K M s); [congruence|discriminate]. }
  assert (Et : q_din K M t = q_din K M s /\ q_dout K M t = q_dout K M s /\ q_m K M t = q_m K M s /\ q_xs K M t = q_xs K M s /\
    q_ys K M t = q_ys K M s /\ q_off K M t = q_off K M s /\ length (q_ks K M t) = p /\ up_to_date K M t /\
    forall i, (i < p)%nat -> q_kernel K M t i = k_set K (q_kernel K M s i) (nth i ps [])).
  { unfold t. rewrite mmeaning_app. set (u := mmeaning K M s (set_from 0 ps)) in *. cbn [mmeaning fold_left q_step].
    destruct (q_ks K M u) as [|k0 ks0] eqn:Ek; [rewrite Hp in A7; cbn [length] in A7; lia|]. rewrite <- Ek in *.
    cbn [q_din q_dout q_m q_xs q_ys q_off q_ks]. rewrite map_length.
    split; [exact A1|]. split; [exact A2|]. split; [exact A3|]. split; [exact A4|]. split; [exact A5|]. split; [exact A6|]. split; [congruence|].
    split.
    - intros i Hi. cbn [q_ks] in Hi. rewrite map_length in Hi. unfold q_stale. cbn [q_ks]. rewrite (nth_map_dflt _ _ _ (k_new K 1, false)) by auto. cbn [snd]. apply andb_false_r.
    - intros i Hi. unfold q_kernel at 1. cbn [q_ks]. rewrite (nth_map_dflt _ _ _ (k_new K 1, false)) by (rewrite A7, Hp; exact Hi). cbn [fst].
      change (fst (nth i (q_ks K M u) (k_new K 1, false))) with (q_kernel K M u i). rewrite <- (Nat.add_0_l i) at 1. apply A9. now rewrite E2. }
  destruct Et as (T1 & T2 & T3 & T4 & T5 & T6 & T7 & T8 & T9).
  split.
  - intros i Hi. destruct (E6 i ltac:(lia)) as (v & v' & Ev & Ev' & Hle). do 4 eexists.
    split; [apply (nth_error_nth' _ (gdef K)); rewrite (i_gps _ _ _ _ _ _ I), Hp; exact Hi|].
    split; [apply (nth_error_nth' _ (gdef K)); rewrite (i_gps _ _ _ _ _ _ I'), T7; exact Hi|].
    split; [|split; [exact Ev|split; [exact Ev'|exact Hle]]].
    pose proof (i_inner _ _ _ _ _ _ I' i ltac:(lia)) as Ii. rewrite (v_k _ _ _ _ _ _ Ii). cbn [sub s_k]. rewrite T9 by exact Hi.
    pose proof (i_inner _ _ _ _ _ _ I i ltac:(lia)) as Ij. destruct (v_nonempty _ _ _ _ _ _ Ij Hx) as ((d & Ed & _ & _) & _).
    pose proof (v_kok _ _ _ _ _ _ Ij d Ed) as Hok. cbn [sub s_k] in Hok.
    apply (base_get_set C O noise0 opt Ho d); [exact Hok|]. apply E3. lia.
  - intros v Hv.
    assert (HB : exists B, forall i, (i < p)%nat -> is_inv (length (q_xs K M s)) (gram K (q_kernel K M t i) (q_xs K M s)) (B i)).
    { pose proof (inverses K M KO MO g' t I') as HI. rewrite T4, T2 in HI. specialize (HI Hx). fold p in HI. clear - HI. induction p as [|q IH]; [exists (fun _ _ _ => 0); intros; lia|].
      destruct IH as (B & HB); [intros; apply HI; lia|]. destruct (HI q ltac:(lia)) as (b & Hb).
      exists (fun i => if (i =? q)%nat then b else B i). intros i Hi. destruct (i =? q)%nat eqn:Ei.
      - apply Nat.eqb_eq in Ei. now subst.
      - apply Nat.eqb_neq in Ei. apply HB. lia. }
    destruct HB as (B & HB). exists B. split; [intros i Hi; rewrite <- T9 by exact Hi; now apply HB|].
    intros od' junk Sc'.
    pose proof (outputs K M KO MO g' t v I') as Q. rewrite T1, T2, T4 in Q. specialize (Q Hx T8 Hv P0 B HB od' junk Sc'). cbn zeta in Q.
    destruct Q as (-> & _). fold p. f_equal. f_equal; apply vec_of_ext; intros i Hi.
    + unfold out_mean, left_over. rewrite T2, T3, T4, T5, T6, T9 by exact Hi. reflexivity.
    + unfold out_var. rewrite T4, T9 by exact Hi. reflexivity.
Qed.
End Limbo.

(** the hypotheses of C52 are met by a MultiGP with two outputs and two samples *)
Example C52_nontrivial : let K := BaseKernel (Exp 1 1) (1 / 100) false in let M := Constant 1 in
  exists os, mfresh K M (mgp_default K M) (q_default K M) /\ mvalid_all K M (q_default K M) os /\
    q_xs K M (mmeaning K M (q_default K M) os) <> [] /\ up_to_date K M (mmeaning K M (q_default K M) os) /\
    schedule (oget (q_dout K M (mmeaning K M (q_default K M) os))) [1%nat; 0%nat].
Proof.
  intros K M. exists [MCompute [1%nat; 0%nat] [[0]; [1]] [[1; 2]; [3; 4]] true].
  assert (P2 : Permutation (seq 0 2) [1%nat; 0%nat]) by apply perm_swap.
  split; [constructor|]. split; [|split; [discriminate|split; [|exact P2]]].
  - cbn. repeat split; try discriminate; try lia; repeat constructor.
  - intros i Hi. cbn in Hi. destruct i as [|[|i]]; [reflexivity|reflexivity|lia].
Qed.
