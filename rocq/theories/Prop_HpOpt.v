(** C32: optimising the hyper-parameters never lowers the objective, and the GP afterwards is the one
    of the returned hyper-parameters. *)
From Coq Require Import Reals List Bool ZArith Lia Lra.
From Verif Require Import LinAlgModel LinAlg KernelModel GPModel GPSpec GPFacts Prop_GP Prop_Load HpOptModel Prop_Lik KernelSpec KernelFacts MeanSpec MeanFacts Prop_Mean Prop_Load2.
Import ListNotations.
Open Scope R_scope.

(** what is asked of the optimizer: on an objective defined for all points of the right size, it returns a
    point of this size that is not worse than the starting point *)
Definition improves (opt : (vec -> outcome (R * vec)) -> vec -> outcome vec) : Prop :=
  forall f init, (forall p, length p = length init -> exists v gr, f p = Done (v, gr) /\ length gr = length init) ->
  exists p, opt f init = Done p /\ length p = length init /\
    forall v0 g0 v g, f init = Done (v0, g0) -> f p = Done (v, g) -> v0 <= v.

(** * Rprop *)
Lemma rsteps_length : forall gold g delta p n, length gold = n -> length g = n -> length delta = n -> length p = n ->
  let '(ds, gs, ps) := rsteps gold g delta p in length ds = n /\ length gs = n /\ length ps = n.
Proof.
  induction gold as [|go gold IH]; intros g delta p n H1 H2 H3 H4; destruct g as [|gj g]; destruct delta as [|d delta]; destruct p as [|pj p];
    cbn in H1, H2, H3, H4; try (exfalso; lia); [cbn; lia|].
  destruct n as [|n]; [discriminate|]. specialize (IH g delta p n ltac:(lia) ltac:(lia) ltac:(lia) ltac:(lia)).
  cbn [rsteps]. destruct (rstep (go * gj) gj d pj) as [[d1 g1] p1]. destruct (rsteps gold g delta p) as [[ds gs] ps]. cbn. lia.
Qed.
Section RpropOk.
Variables (f : vec -> outcome (R * vec)) (eps : R) (n : nat).
Hypothesis Hf : forall p, length p = n -> exists v gr, f p = Done (v, gr) /\ length gr = n.
Lemma rloop_ok : forall k gold delta p best best_p, length gold = n -> length delta = n -> length p = n -> length best_p = n ->
  (forall b, best = Some b -> exists gr, f best_p = Done (b, gr)) ->
  exists q, rloop f eps k gold delta p best best_p = Done q /\ length q = n /\
    (forall b, best = Some b -> exists v gr, f q = Done (v, gr) /\ b <= v) /\
    (best = None -> (0 < k)%nat -> exists v0 g0 v gr, f p = Done (v0, g0) /\ f q = Done (v, gr) /\ v0 <= v) /\
    (best = None -> k = 0%nat -> q = best_p).
Proof.
  induction k as [|k IH]; intros gold delta p best best_p H1 H2 H3 H4 Hb; cbn [rloop].
  - exists best_p. repeat split; auto; [|intros; lia]. intros b E. destruct (Hb b E) as (gr & H). exists b, gr. split; auto. lra.
  - destruct (Hf p H3) as (lik & g0 & E & Hg). rewrite E. cbn [bind]. rewrite Hg, H1, Nat.eqb_refl. cbn [check].
    pose proof (rsteps_length gold (map Ropp g0) delta p n H1 ltac:(now rewrite map_length) H2 H3) as HL.
    destruct (rsteps gold (map Ropp g0) delta p) as [[delta' g'] p']. destruct HL as (L1 & L2 & L3).
    set (better := match best with None => true | Some b => if Rlt_dec b lik then true else false end).
    assert (Hbest : forall b, (if better then Some lik else best) = Some b -> exists gr, f (if better then p else best_p) = Done (b, gr)).
    { intros b Eb. destruct better; [injection Eb as <-; eauto|auto]. }
    assert (Hlen : length (if better then p else best_p) = n) by (destruct better; auto).
    assert (Hge : forall b, best = Some b -> exists b', (if better then Some lik else best) = Some b' /\ b <= b').
    { intros b Eb. unfold better. rewrite Eb. destruct (Rlt_dec b lik); eauto using Rlt_le, Rle_refl. }
    assert (Hnone : best = None -> (if better then Some lik else best) = Some lik) by (intro En; unfold better; now rewrite En).
    destruct (Rlt_dec (norm2 g') eps) as [|_].
    + exists (if better then p else best_p). split; [reflexivity|]. split; [exact Hlen|].
      split; [|split; [|discriminate]].
      * intros b Eb. destruct (Hge b Eb) as (b' & E' & Hle). destruct (Hbest b' E') as (gr & H). eauto.
      * intros En _. destruct (Hbest lik (Hnone En)) as (gr & H). exists lik, g0, lik, gr. split; [reflexivity|]. split; [exact H|lra].
    + destruct (IH g' delta' p' (if better then Some lik else best) (if better then p else best_p) L2 L1 L3 Hlen Hbest) as (q & Eq & Hq & Q1 & _ & _).
      exists q. split; [exact Eq|]. split; [exact Hq|]. split; [|split; [|discriminate]].
      * intros b Eb. destruct (Hge b Eb) as (b' & E' & Hle). destruct (Q1 b' E') as (v & gr & H & Hv). exists v, gr. split; [exact H|lra].
      * intros En _. destruct (Q1 lik (Hnone En)) as (v & gr & H & Hv). exists lik, g0, v, gr. auto.
Qed.
End RpropOk.
Theorem rprop_improves eps it : 0 <= eps -> improves (fun f init => rprop_R f eps it init).
Proof.
  intros He f init Hf. unfold rprop_R. destruct (Rle_dec 0 eps) as [_|]; [|contradiction]. cbn [check].
  destruct (rloop_ok f eps (length init) Hf (Z.to_nat it) (repeat 0 (length init)) (repeat (1 / 10) (length init)) init None init) as (q & E & Hq & _ & Q2 & Q3);
    try apply repeat_length; auto; [discriminate|].
  exists q. split; [exact E|]. split; [exact Hq|]. intros v0 g0 v g E0 E1.
  destruct (Z.to_nat it) as [|k] eqn:Ek.
  - rewrite (Q3 eq_refl eq_refl) in E1. rewrite E0 in E1. injection E1 as -> _. lra.
  - destruct (Q2 eq_refl ltac:(lia)) as (v0' & g0' & v' & g' & F0 & F1 & H). rewrite E0 in F0. rewrite E1 in F1. injection F0 as -> _. injection F1 as -> _. exact H.
Qed.

(** * The optimisers of hyper-parameters *)
Section HpOpt.
Variables (K : Kern) (M : Mean) (KO : KernOK K) (MO : MeanOK M).
Variable opt : (vec -> outcome (R * vec)) -> vec -> outcome vec.
Hypothesis Hopt : improves opt.
Notation inv := (inv K M KO MO). Notation gp := (gp K M). Notation sp := (sp K M).

Definition clean (s : sp) : Prop := s_xs K M s <> [] /\ s_dk K M s = false /\ s_dm K M s = false.

(** likelihood and leave-one-out score depend on data and parameters only *)
Lemma lik_same g g' s : clean s -> inv g s -> inv g' s -> exists v, compute_log_lik K M g = Done v /\ compute_log_lik K M g' = Done v.
Proof.
  intros (Hx & Hk & Hm) I I'. destruct (v_nonempty _ _ _ _ _ _ I Hx) as ((d & D1 & _ & D3) & _).
  pose proof (Lof_ok K KO d _ _ (v_kok _ _ _ _ _ _ I d D1) D3) as HL.
  rewrite (lik_value K M KO MO g s _ I Hx Hk Hm HL), (lik_value K M KO MO g' s _ I' Hx Hk Hm HL). eauto.
Qed.
Lemma need_inv_inv g s g' : inv g s -> need_inv K M g = Done g' -> inv g' s.
Proof.
  intros I. unfold need_inv. destruct (g_inv_updated K M g).
  - intro E. injection E as <-. exact I.
  - intro E. pose proof (step_inv K M KO MO g s Inverse g' I E) as H. now destruct s.
Qed.
Lemma loo_done g s : clean s -> inv g s -> exists g1 v, compute_log_loo_cv K M g = Done (g1, v) /\ inv g1 s.
Proof.
  intros (Hx & Hk & Hm) I. destruct (v_nonempty _ _ _ _ _ _ I Hx) as ((d & D1 & _ & D3) & _).
  pose proof (Lof_ok K KO d _ _ (v_kok _ _ _ _ _ _ I d D1) D3) as HL.
  destruct (loo_value K M KO MO g s _ I Hx Hk Hm HL) as (g1 & E). eexists. eexists. split; [exact E|].
  unfold compute_log_loo_cv in E. apply bind_done in E. destruct E as (g2 & E1 & E2). apply check_done in E2. destruct E2 as (_ & E2).
  destruct (all_pos _ _); [|discriminate]. apply (f_equal (fun o => match o with Done (a, _) => a | _ => g1 end)) in E2. cbv beta iota in E2. subst g1. eapply need_inv_inv; eauto.
Qed.
Lemma loo_same g g' s : clean s -> inv g s -> inv g' s -> exists g1 g1' v, compute_log_loo_cv K M g = Done (g1, v) /\ compute_log_loo_cv K M g' = Done (g1', v).
Proof.
  intros (Hx & Hk & Hm) I I'. destruct (v_nonempty _ _ _ _ _ _ I Hx) as ((d & D1 & _ & D3) & _).
  pose proof (Lof_ok K KO d _ _ (v_kok _ _ _ _ _ _ I d D1) D3) as HL.
  destruct (loo_value K M KO MO g s _ I Hx Hk Hm HL) as (g1 & E). destruct (loo_value K M KO MO g' s _ I' Hx Hk Hm HL) as (g1' & E').
  exists g1, g1'. eexists. split; [exact E|exact E'].
Qed.
Lemma kgrad_done g s : clean s -> inv g s -> exists g' gr, compute_kernel_grad_log_lik K M g = Done (g', gr) /\ length gr = k_hsize K (s_k K M s) /\ inv g' s.
Proof.
  intros (Hx & Hk & Hm) I. destruct (need_inv_ok K M KO MO g s I Hx Hk) as (g' & E & R1 & R2 & HB & F1 & F2 & F3 & F4 & F5 & F6 & F7).
  destruct (v_nonempty _ _ _ _ _ _ I Hx) as (_ & _ & _ & _ & _ & _ & A7 & A8 & _ & A10).
  destruct (A10 Hk) as (_ & _ & _ & _ & AL). destruct (AL Hm) as (B1 & B2 & _).
  unfold compute_kernel_grad_log_lik. rewrite E. cbn [bind]. unfold nb_samples. rewrite A7, R1, R2, F3, B1, F5, (v_samples _ _ _ _ _ _ I).
  change (length (s_xs K M s)) with (N K M s). rewrite !Nat.eqb_refl, Nat.leb_refl. cbn [andb check].
  eexists. eexists. split; [reflexivity|]. split; [rewrite F1, (v_k _ _ _ _ _ _ I); apply GPFacts.vec_of_length|eapply need_inv_inv; eauto].
Qed.
Lemma mgrad_done g s : clean s -> inv g s -> (0 < m_hsize M (s_m K M s))%nat ->
  exists g' gr, compute_mean_grad_log_lik K M g = Done (g', gr) /\ length gr = m_hsize M (s_m K M s) /\ inv g' s.
Proof.
  intros (Hx & Hk & Hm) I Hp. destruct (need_inv_ok K M KO MO g s I Hx Hk) as (g' & E & R1 & R2 & HB & F1 & F2 & F3 & F4 & F5 & F6 & F7).
  destruct (v_nonempty _ _ _ _ _ _ I Hx) as (_ & (p & P1 & P2) & _ & _ & _ & _ & A7 & A8 & _ & _).
  unfold compute_mean_grad_log_lik. rewrite E. cbn [bind]. unfold nb_samples, dout_pos. rewrite A7, R1, R2, F4, A8, F5, F6, F2, (v_samples _ _ _ _ _ _ I), (v_dout _ _ _ _ _ _ I), (v_m _ _ _ _ _ _ I).
  unfold GPFacts.P. rewrite P1. cbn [oget]. change (length (s_xs K M s)) with (N K M s). rewrite !Nat.eqb_refl, Nat.leb_refl.
  rewrite (proj2 (Nat.ltb_lt 0 p) P2), (proj2 (Nat.ltb_lt 0 _) Hp). cbn [andb check].
  eexists. eexists. split; [reflexivity|]. split; [apply GPFacts.vec_of_length|eapply need_inv_inv; eauto].
Qed.
Lemma loograd_done g s : clean s -> inv g s -> exists g' gr, compute_kernel_grad_log_loo_cv K M g = Done (g', gr) /\ length gr = k_hsize K (s_k K M s) /\ inv g' s.
Proof.
  intros (Hx & Hk & Hm) I. destruct (need_inv_ok K M KO MO g s I Hx Hk) as (g' & E & R1 & R2 & HB & F1 & F2 & F3 & F4 & F5 & F6 & F7).
  destruct (v_nonempty _ _ _ _ _ _ I Hx) as ((d & D1 & _ & D3) & (p & P1 & P2) & _ & _ & _ & _ & A7 & A8 & _ & A10).
  destruct (A10 Hk) as (_ & _ & _ & _ & AL). destruct (AL Hm) as (B1 & B2 & _).
  unfold compute_kernel_grad_log_loo_cv. rewrite E. cbn [bind]. unfold nb_samples. rewrite A7, R1, R2, F3, B1, B2, F5, F6, (v_samples _ _ _ _ _ _ I), (v_dout _ _ _ _ _ _ I).
  unfold GPFacts.P. rewrite P1. cbn [oget]. change (length (s_xs K M s)) with (N K M s). rewrite !Nat.eqb_refl, Nat.leb_refl. cbn [andb check].
  rewrite all_pos_true.
  2:{ intros i Hi. apply (inv_diag_pos (N K M s) (G K M s)); auto. apply (gram_pd K KO d); [exact (v_kok _ _ _ _ _ _ I d D1)|exact D3]. }
  eexists. eexists. split; [reflexivity|]. split; [rewrite F1, (v_k _ _ _ _ _ _ I); apply GPFacts.vec_of_length|eapply need_inv_inv; eauto].
Qed.

(** setting the kernel parameters and recomputing *)
Lemma at_k g s p : inv g s -> clean s -> length p = k_hsize K (s_k K M s) ->
  exists g', run K M g [SetK p; Recompute false true] = Done g' /\ inv g' (meaning K M s [SetK p; Recompute false true]) /\ clean (meaning K M s [SetK p; Recompute false true]).
Proof.
  intros I (Hx & Hk & Hm) Hp. destruct (run_progress K M KO MO [SetK p; Recompute false true] g s I) as (g' & E & I').
  - cbn. repeat split; auto; discriminate.
  - exists g'. split; [exact E|]. split; [exact I'|]. cbn. split; [exact Hx|]. rewrite Hm. auto.
Qed.
Lemma at_m g s p : inv g s -> clean s -> length p = m_hsize M (s_m K M s) ->
  exists g', run K M g [SetM p; Recompute true false] = Done g' /\ inv g' (meaning K M s [SetM p; Recompute true false]) /\ clean (meaning K M s [SetM p; Recompute true false]).
Proof.
  intros I (Hx & Hk & Hm) Hp. destruct (run_progress K M KO MO [SetM p; Recompute true false] g s I) as (g' & E & I').
  - cbn. repeat split; auto.
  - exists g'. split; [exact E|]. split; [exact I'|]. cbn. split; [exact Hx|]. rewrite Hk. auto.
Qed.
Lemma run_app g os os' : run K M g (os ++ os') = bind (run K M g os) (fun g' => run K M g' os').
Proof. revert g. induction os as [|o os IH]; intro g; cbn [run app]; [reflexivity|]. destruct (exec K M g o); cbn [bind]; auto. Qed.
Lemma run2 g o1 o2 g' : run K M g [o1; o2] = Done g' -> exists g1, exec K M g o1 = Done g1 /\ exec K M g1 o2 = Done g'.
Proof. cbn. intro E. apply bind_done in E. destruct E as (g1 & E1 & E). apply bind_done in E. destruct E as (g2 & E2 & E). injection E as <-. eauto. Qed.

Section K.
Hypothesis RT : KernRT KO.
Lemma back_k g s : inv g s -> clean s -> meaning K M s [SetK (k_hparams K (g_k K M g)); Recompute false true] = s /\ length (k_hparams K (g_k K M g)) = k_hsize K (s_k K M s).
Proof.
  intros I (Hx & Hk & Hm). destruct (v_nonempty _ _ _ _ _ _ I Hx) as ((d & D1 & _) & _). pose proof (v_kok _ _ _ _ _ _ I d D1) as Hok.
  rewrite (v_k _ _ _ _ _ _ I). split; [|exact (krt_len KO RT d _ Hok)].
  cbn [meaning fold_left s_step s_din s_dout s_k s_m s_xs s_ys s_dk s_dm]. rewrite (krt_set KO RT d _ _ Hok Hok), Hm. destruct s; cbn in *. subst. reflexivity.
Qed.
(** from any consistent state (used again for the inner GPs of a MultiGP) *)
Lemma klf_state g s : inv g s -> clean s ->
  exists p g' v v', kernel_lf_opt K M opt g = Done g' /\
    run K M g [SetK p; Recompute false true] = Done g' /\ length p = k_hsize K (g_k K M g) /\
    compute_log_lik K M g = Done v /\ compute_log_lik K M g' = Done v' /\ v <= v'.
Proof.
  intros I C. destruct (back_k g s I C) as [Hback Hlen].
  assert (Obj : forall p, length p = k_hsize K (s_k K M s) -> exists gt v gr, run K M g [SetK p; Recompute false true] = Done gt /\
    inv gt (meaning K M s [SetK p; Recompute false true]) /\ compute_log_lik K M gt = Done v /\ klf_objective K M g p = Done (v, gr) /\ length gr = k_hsize K (s_k K M s)).
  { intros p Hp. destruct (at_k g s p I C Hp) as (gt & E & It & Ct). destruct (lik_same gt gt _ Ct It It) as (v & Ev & _).
    destruct (kgrad_done gt _ Ct It) as (gt' & gr & Eg & Hg & _). exists gt, v, gr. split; [exact E|]. split; [exact It|]. split; [exact Ev|].
    destruct (run2 _ _ _ _ E) as (g1 & E1 & E2). cbn [exec] in E1, E2. unfold klf_objective. rewrite E1. cbn [bind]. rewrite E2. cbn [bind]. rewrite Ev. cbn [bind]. rewrite Eg. cbn [bind snd].
    split; [reflexivity|]. rewrite Hg. cbn [meaning fold_left s_step s_k].
    destruct C as (Hx & _). destruct (v_nonempty _ _ _ _ _ _ I Hx) as ((d & D1 & _) & _). pose proof (v_kok _ _ _ _ _ _ I d D1) as Hok.
    rewrite (krt_size KO RT d _ Hok). apply (krt_size KO RT d). now apply (kok_set KO). }
  destruct (Hopt (klf_objective K M g) (k_hparams K (g_k K M g))) as (p & Ep & Hp & Himp).
  { intros p Hp. rewrite Hlen in *. destruct (Obj p Hp) as (_ & v & gr & _ & _ & _ & H & H'). eauto. }
  rewrite Hlen in Hp. destruct (Obj p Hp) as (g' & v' & gr & Er & Ig' & Ev' & Eo & _). destruct (Obj _ Hlen) as (gi & v & gri & Eri & Igi & Evi & Eoi & _).
  exists p, g', v, v'. split.
  { unfold kernel_lf_opt. rewrite Ep. cbn [bind]. destruct (run2 _ _ _ _ Er) as (g1 & E1 & E2). cbn [exec] in E1, E2. rewrite E1. cbn [bind]. rewrite E2. cbn [bind]. now rewrite Ev'. }
  split; [exact Er|]. split; [now rewrite (v_k _ _ _ _ _ _ I)|].
  rewrite Hback in Igi. destruct (lik_same g gi s C I Igi) as (w & W1 & W2). rewrite Evi in W2. injection W2 as <-.
  split; [exact W1|]. split; [exact Ev'|]. exact (Himp _ _ _ _ Eoi Eo).
Qed.
Theorem C32_kernel_lf_opt g0 s0 os g :
  fresh K M g0 s0 -> run K M g0 os = Done g -> clean (meaning K M s0 os) ->
  exists p g' v v', kernel_lf_opt K M opt g = Done g' /\
    run K M g0 (os ++ [SetK p; Recompute false true]) = Done g' /\ length p = k_hsize K (g_k K M g) /\
    compute_log_lik K M g = Done v /\ compute_log_lik K M g' = Done v' /\ v <= v'.
Proof.
  intros F E0 C. assert (I : inv g (meaning K M s0 os)) by (eapply run_inv; eauto; now apply fresh_inv).
  destruct (klf_state g _ I C) as (p & g' & v & v' & Eo & Er & H). exists p, g', v, v'. split; [exact Eo|].
  split; [rewrite run_app, E0; exact Er|exact H].
Qed.
Lemma recompute_flag g g' a : recompute K M g a true = Done g' -> g_inv_updated K M g' = false.
Proof.
  unfold recompute. intro E. apply check_done in E. destruct E as (_ & E). apply bind_done in E. destruct E as (g1 & _ & E).
  unfold compute_full_kernel in E. destruct (chol _ _); [|discriminate]. apply bind_done in E. destruct E as (g2 & _ & E). injection E as <-. reflexivity.
Qed.
Theorem C32_kernel_loo_opt g0 s0 os g :
  fresh K M g0 s0 -> run K M g0 os = Done g -> clean (meaning K M s0 os) ->
  exists p g' gi v gf v', kernel_loo_opt K M opt g = Done g' /\
    run K M g0 (os ++ [SetK p; Recompute false true; Inverse]) = Done g' /\ length p = k_hsize K (g_k K M g) /\
    compute_log_loo_cv K M g = Done (gi, v) /\ compute_log_loo_cv K M g' = Done (gf, v') /\ v <= v'.
Proof.
  intros F E0 C. assert (I : inv g (meaning K M s0 os)) by (eapply run_inv; eauto; now apply fresh_inv).
  set (s := meaning K M s0 os) in *. destruct (back_k g s I C) as [Hback Hlen].
  assert (Obj : forall p, length p = k_hsize K (s_k K M s) -> exists gt g1 v gr, run K M g [SetK p; Recompute false true] = Done gt /\
    inv gt (meaning K M s [SetK p; Recompute false true]) /\ clean (meaning K M s [SetK p; Recompute false true]) /\
    compute_log_loo_cv K M gt = Done (g1, v) /\ inv g1 (meaning K M s [SetK p; Recompute false true]) /\
    kloo_objective K M g p = Done (v, gr) /\ length gr = k_hsize K (s_k K M s)).
  { intros p Hp. destruct (at_k g s p I C Hp) as (gt & E & It & Ct). destruct (loo_done gt _ Ct It) as (g1 & v & Ev & I1).
    destruct (loograd_done g1 _ Ct I1) as (gt' & gr & Eg & Hg & _). exists gt, g1, v, gr. split; [exact E|]. split; [exact It|]. split; [exact Ct|]. split; [exact Ev|]. split; [exact I1|].
    destruct (run2 _ _ _ _ E) as (g2 & E1 & E2). cbn [exec] in E1, E2. unfold kloo_objective. rewrite E1. cbn [bind]. rewrite E2. cbn [bind]. rewrite Ev. cbn [bind fst]. rewrite Eg. cbn [bind snd].
    split; [reflexivity|]. rewrite Hg. cbn [meaning fold_left s_step s_k].
    destruct C as (Hx & _). destruct (v_nonempty _ _ _ _ _ _ I Hx) as ((d & D1 & _) & _). pose proof (v_kok _ _ _ _ _ _ I d D1) as Hok.
    rewrite (krt_size KO RT d _ Hok). apply (krt_size KO RT d). now apply (kok_set KO). }
  destruct (Hopt (kloo_objective K M g) (k_hparams K (g_k K M g))) as (p & Ep & Hp & Himp).
  { intros p Hp. rewrite Hlen in *. destruct (Obj p Hp) as (_ & _ & v & gr & _ & _ & _ & _ & _ & H & H'). eauto. }
  rewrite Hlen in Hp. destruct (Obj p Hp) as (gt & g' & v' & gr & Er & Ig & Cg & Ev' & Ig' & Eo & _).
  destruct (Obj _ Hlen) as (gi & gi' & v & gri & Eri & Igi & _ & Evi & _ & Eoi & _).
  rewrite Hback in Igi. destruct (loo_same g gi s C I Igi) as (x1 & x2 & w & W1 & W2). rewrite Evi in W2. injection W2 as <- <-.
  destruct (loo_same gt g' _ Cg Ig Ig') as (y1 & y2 & w & W3 & W4). rewrite Ev' in W3. injection W3 as <- <-.
  destruct (run2 _ _ _ _ Er) as (g1 & E1 & E2). cbn [exec] in E1, E2.
  exists p, g', x1, v, y2, v'. split; [|split; [|split; [|split; [|split]]]].
  - unfold kernel_loo_opt. rewrite Ep. cbn [bind]. rewrite E1. cbn [bind]. rewrite E2. cbn [bind]. now rewrite Ev'.
  - rewrite run_app, E0. cbn [bind run exec]. rewrite E1. cbn [bind]. rewrite E2. cbn [bind].
    unfold compute_log_loo_cv in Ev'. apply bind_done in Ev'. destruct Ev' as (g2 & N2 & Ev'). unfold need_inv in N2. rewrite (recompute_flag _ _ _ E2) in N2. rewrite N2. cbn [bind].
    apply check_done in Ev'. destruct Ev' as (_ & Ev'). destruct (all_pos _ _); [|discriminate].
    apply (f_equal (fun o => match o with Done (a, _) => a | _ => g' end)) in Ev'. cbv beta iota in Ev'. now subst.
  - now rewrite (v_k _ _ _ _ _ _ I).
  - exact W1.
  - exact W4.
  - exact (Himp _ _ _ _ Eoi Eo).
Qed.
End K.

Section M.
Hypothesis RT : MeanRT' MO.
Lemma mean_facts g s : inv g s -> clean s -> exists p, s_dout K M s = Some p /\ mok MO p (s_m K M s) /\ g_m K M g = s_m K M s /\
  length (m_hparams M (g_m K M g)) = m_hsize M (s_m K M s) /\ m_set M (s_m K M s) (m_hparams M (g_m K M g)) = s_m K M s.
Proof.
  intros I (Hx & _). destruct (v_nonempty _ _ _ _ _ _ I Hx) as (_ & (p & P1 & _) & _). pose proof (v_mok _ _ _ _ _ _ I p P1) as Hok.
  exists p. rewrite (v_m _ _ _ _ _ _ I). repeat split; auto; [exact (mrt_len MO RT p _ Hok)|exact (mrt_set MO RT p _ _ Hok Hok)].
Qed.
Theorem C32_mean_lf_opt g0 s0 os g :
  fresh K M g0 s0 -> run K M g0 os = Done g -> clean (meaning K M s0 os) -> (0 < m_hsize M (g_m K M g))%nat ->
  exists p g' v v', mean_lf_opt K M opt g = Done g' /\
    run K M g0 (os ++ [SetM p; Recompute true false]) = Done g' /\ length p = m_hsize M (g_m K M g) /\
    compute_log_lik K M g = Done v /\ compute_log_lik K M g' = Done v' /\ v <= v'.
Proof.
  intros F E0 C Hpos. assert (I : inv g (meaning K M s0 os)) by (eapply run_inv; eauto; now apply fresh_inv).
  set (s := meaning K M s0 os) in *. destruct (mean_facts g s I C) as (d & D1 & Hok & Em & Hlen & Hset).
  rewrite Em in Hpos.
  destruct (progress K M KO MO g s Inverse I) as (gc & Ec); [destruct C as (H1 & H2 & _); split; auto|]. cbn [exec] in Ec.
  assert (Ic : inv gc s). { pose proof (step_inv K M KO MO g s Inverse gc I Ec) as H. now destruct s. }
  assert (Hback : meaning K M s [SetM (m_hparams M (g_m K M g)); Recompute true false] = s).
  { cbn [meaning fold_left s_step s_din s_dout s_k s_m s_xs s_ys s_dk s_dm]. rewrite Hset. destruct C as (_ & Hk & Hm). rewrite Hk. destruct s; cbn in *. subst. reflexivity. }
  assert (Obj : forall p, length p = m_hsize M (s_m K M s) -> exists g1 gt v gr, run K M g [SetM p; Recompute true false] = Done g1 /\
    run K M gc [SetM p; Recompute true false] = Done gt /\ inv g1 (meaning K M s [SetM p; Recompute true false]) /\
    inv gt (meaning K M s [SetM p; Recompute true false]) /\ compute_log_lik K M g1 = Done v /\ mlf_objective K M gc p = Done (v, gr) /\ length gr = m_hsize M (s_m K M s)).
  { intros p Hp. destruct (at_m g s p I C Hp) as (g1 & E1 & I1 & C1). destruct (at_m gc s p Ic C Hp) as (gt & E & It & Ct).
    destruct (lik_same g1 gt _ Ct I1 It) as (v & Ev1 & Ev).
    assert (Hsz : m_hsize M (s_m K M (meaning K M s [SetM p; Recompute true false])) = m_hsize M (s_m K M s)).
    { cbn [meaning fold_left s_step s_m]. rewrite (mrt_size MO RT d _ Hok). apply (mrt_size MO RT d). now apply (mok_set MO). }
    destruct (mgrad_done gt _ Ct It) as (gt' & gr & Eg & Hg & _); [now rewrite Hsz|].
    exists g1, gt, v, gr. split; [exact E1|]. split; [exact E|]. split; [exact I1|]. split; [exact It|]. split; [exact Ev1|].
    destruct (run2 _ _ _ _ E) as (g2 & X1 & X2). cbn [exec] in X1, X2. unfold mlf_objective. rewrite X1. cbn [bind]. rewrite X2. cbn [bind]. rewrite Ev. cbn [bind]. rewrite Eg. cbn [bind snd].
    split; [reflexivity|]. now rewrite Hg. }
  destruct (Hopt (mlf_objective K M gc) (m_hparams M (g_m K M g))) as (p & Ep & Hp & Himp).
  { intros p Hp. rewrite Hlen in *. destruct (Obj p Hp) as (_ & _ & v & gr & _ & _ & _ & _ & _ & H & H'). eauto. }
  rewrite Hlen in Hp. destruct (Obj p Hp) as (g' & gt & v' & gr & Er & _ & Ig' & _ & Ev' & Eo & _).
  destruct (Obj _ Hlen) as (gi & gti & v & gri & Eri & _ & Igi & _ & Evi & Eoi & _).
  exists p, g', v, v'. split.
  { unfold mean_lf_opt. rewrite Ec. cbn [bind]. rewrite Ep. cbn [bind]. destruct (run2 _ _ _ _ Er) as (g1 & E1 & E2). cbn [exec] in E1, E2. rewrite E1. cbn [bind]. rewrite E2. cbn [bind]. now rewrite Ev'. }
  split; [rewrite run_app, E0; exact Er|]. split; [now rewrite Em|].
  rewrite Hback in Igi. destruct (lik_same g gi s C I Igi) as (w & W1 & W2). rewrite Evi in W2. injection W2 as <-.
  split; [exact W1|]. split; [exact Ev'|]. exact (Himp _ _ _ _ Eoi Eo).
Qed.
Hypothesis KRT : KernRT KO.
Theorem C32_kernel_mean_lf_opt g0 s0 os g :
  fresh K M g0 s0 -> run K M g0 os = Done g -> clean (meaning K M s0 os) -> (0 < m_hsize M (g_m K M g))%nat ->
  exists pk pm g' v v', kernel_mean_lf_opt K M opt g = Done g' /\
    run K M g0 (os ++ [SetK pk; SetM pm; Recompute true true]) = Done g' /\
    length pk = k_hsize K (g_k K M g) /\ length pm = m_hsize M (g_m K M g) /\
    compute_log_lik K M g = Done v /\ compute_log_lik K M g' = Done v' /\ v <= v'.
Proof.
  intros F E0 C Hpos. assert (I : inv g (meaning K M s0 os)) by (eapply run_inv; eauto; now apply fresh_inv).
  set (s := meaning K M s0 os) in *. destruct (mean_facts g s I C) as (d & D1 & Hok & Em & Hlen & Hset).
  destruct (back_k KRT g s I C) as [_ Hlenk]. assert (Ek : g_k K M g = s_k K M s) by exact (v_k _ _ _ _ _ _ I).
  rewrite Em in Hpos.
  destruct C as (Hx & Hk & Hm) eqn:EC. clear EC. assert (C' : clean s) by (repeat split; auto).
  destruct (v_nonempty _ _ _ _ _ _ I Hx) as ((dk & DK1 & _) & _). pose proof (v_kok _ _ _ _ _ _ I dk DK1) as Kok.
  set (ks := k_hsize K (s_k K M s)) in *. set (ms := m_hsize M (s_m K M s)) in *.
  set (H_ := fun p : vec => [SetK (firstn ks p); SetM (skipn ks p); Recompute true true] : list (op K M)).
  assert (Hback : meaning K M s (H_ (k_hparams K (g_k K M g) ++ m_hparams M (g_m K M g))) = s).
  { unfold H_. rewrite <- Hlenk, firstn_app, skipn_app, firstn_all, skipn_all, Nat.sub_diag. cbn [firstn skipn app]. rewrite app_nil_r.
    cbn [meaning fold_left s_step s_din s_dout s_k s_m s_xs s_ys s_dk s_dm]. rewrite Hset, Ek, (krt_set KO KRT dk _ _ Kok Kok). destruct s; cbn in *. subst. reflexivity. }
  assert (Obj : forall p, length p = (ks + ms)%nat -> exists gt v gr, run K M g (H_ p) = Done gt /\
    inv gt (meaning K M s (H_ p)) /\ compute_log_lik K M gt = Done v /\ kmlf_objective K M g p = Done (v, gr) /\ length gr = (ks + ms)%nat /\
    bind (set_both K M g p) (fun g1 => recompute K M g1 true true) = Done gt).
  { intros p Hp. assert (Lk : length (firstn ks p) = ks) by (rewrite firstn_length; lia). assert (Lm : length (skipn ks p) = ms) by (rewrite skipn_length; lia).
    destruct (run_progress K M KO MO (H_ p) g s I) as (gt & E & It).
    { cbn. repeat split; auto; discriminate. }
    assert (Ct : clean (meaning K M s (H_ p))) by (repeat split; auto).
    assert (Hks : k_hsize K (s_k K M (meaning K M s (H_ p))) = ks).
    { cbn [meaning fold_left s_step s_k H_]. unfold ks at 2. rewrite (krt_size KO KRT dk _ Kok). apply (krt_size KO KRT dk). now apply (kok_set KO). }
    assert (Hms : m_hsize M (s_m K M (meaning K M s (H_ p))) = ms).
    { cbn [meaning fold_left s_step s_m H_]. unfold ms. rewrite (mrt_size MO RT d _ Hok). apply (mrt_size MO RT d). now apply (mok_set MO). }
    destruct (lik_same gt gt _ Ct It It) as (v & Ev & _).
    destruct (kgrad_done gt _ Ct It) as (gk & grk & Egk & Hgk & Ik). destruct (mgrad_done gk _ Ct Ik) as (gm & grm & Egm & Hgm & _); [now rewrite Hms|].
    exists gt, v, (grk ++ grm). split; [exact E|]. split; [exact It|]. split; [exact Ev|].
    cbn [run H_] in E. apply bind_done in E. destruct E as (g1 & X1 & E). apply bind_done in E. destruct E as (g2 & X2 & E). apply bind_done in E. destruct E as (g3 & X3 & E). injection E as ->.
    cbn [exec] in X1, X2, X3.
    assert (SB : set_both K M g p = Done g2).
    { unfold set_both. rewrite Ek, Em. fold ks ms. rewrite Hp, (proj2 (Nat.leb_le ks _)), (proj2 (Nat.leb_le ms _)) by lia. cbn [andb check].
      unfold head, tail. rewrite X1. cbn [bind]. replace (length p - ms)%nat with ks by lia. exact X2. }
    split; [|split; [rewrite app_length; lia|rewrite SB; exact X3]].
    unfold kmlf_objective. rewrite SB. cbn [bind]. rewrite X3. cbn [bind]. rewrite Ev. cbn [bind]. rewrite Egk. cbn [bind fst]. rewrite Egm. cbn [bind snd].
    rewrite Hgk, Hgm, Hks, Hms, Hp, Nat.eqb_refl. reflexivity. }
  assert (Hleni : length (k_hparams K (g_k K M g) ++ m_hparams M (g_m K M g)) = (ks + ms)%nat) by (rewrite app_length; lia).
  destruct (Hopt (kmlf_objective K M g) (k_hparams K (g_k K M g) ++ m_hparams M (g_m K M g))) as (p & Ep & Hp & Himp).
  { intros p Hp. rewrite Hleni in *. destruct (Obj p Hp) as (_ & v & gr & _ & _ & _ & H & H' & _). eauto. }
  rewrite Hleni in Hp. destruct (Obj p Hp) as (g' & v' & gr & Er & Ig' & Ev' & Eo & _ & SB). destruct (Obj _ Hleni) as (gi & v & gri & Eri & Igi & Evi & Eoi & _).
  exists (firstn ks p), (skipn ks p), g', v, v'. split.
  { unfold kernel_mean_lf_opt. rewrite Ep. cbn [bind]. apply bind_done in SB. destruct SB as (g1 & E1 & E2). rewrite E1. cbn [bind]. rewrite E2. cbn [bind]. now rewrite Ev'. }
  split; [rewrite run_app, E0; exact Er|]. split; [rewrite Ek, firstn_length; fold ks; lia|]. split; [rewrite Em, skipn_length; fold ms; lia|].
  rewrite Hback in Igi. destruct (lik_same g gi s C' I Igi) as (w & W1 & W2). rewrite Evi in W2. injection W2 as <-.
  split; [exact W1|]. split; [exact Ev'|]. exact (Himp _ _ _ _ Eoi Eo).
Qed.
End M.
End HpOpt.

(** * KernelLFOpt with Rprop on the GPs of limbo *)
Section Limbo.
Variables (sf2 l : R) (k : nat) (C : CKern) (noise0 : R) (opt : bool) (M : Mean).
Hypotheses (Hs : 0 < sf2) (Hl : 0 < l) (HC : In C (kernels sf2 l k)) (Hn : 0 <= noise0) (Ho : opt = true -> 0 < noise0) (HM : means M).
Notation K := (BaseKernel C noise0 opt).
(** C32: any valid history, any Rprop settings; afterwards the GP predicts with the parameters found *)
Theorem C32_limbo_gp g0 s0 os eps it :
  fresh K M g0 s0 -> valid_all K M s0 os -> clean K M (meaning K M s0 os) -> 0 <= eps ->
  exists g p g' v v', run K M g0 os = Done g /\ kernel_lf_opt K M (fun f init => rprop_R f eps it init) g = Done g' /\
    compute_log_lik K M g = Done v /\ compute_log_lik K M g' = Done v' /\ v <= v' /\
    let s := meaning K M s0 os in
    let k' := k_set K (s_k K M s) p in
    k_hparams K (g_k K M g') = p /\
    forall x, s_din K M s = Some (length x) ->
    exists B, is_inv (length (s_xs K M s)) (gram K k' (s_xs K M s)) B /\
      let q := oget (s_dout K M s) in
      query K M g' x = Done (vec_of q (post_mean K M k' (s_m K M s) (s_xs K M s) (s_ys K M s) q B x),
                             clamp (post_var K k' (s_xs K M s) B x) + k_noise K k').
Proof.
  intros F V Cl He. destruct (kernels_OK _ _ _ _ Hs Hl HC) as [O]. destruct (means_RT M HM) as [T].
  set (KO := base_OK C O noise0 opt Hn Ho). set (MO := RT_OK M T).
  destruct (C24_valid_histories_succeed K M KO MO g0 s0 os F V) as (g & E).
  destruct (C32_kernel_lf_opt K M KO MO _ (rprop_improves eps it He) (limbo_KernRT C noise0 opt Hn Ho O) g0 s0 os g F E Cl)
    as (p & g' & v & v' & Eo & Er & Hp & Ev & Ev' & Hle).
  exists g, p, g', v, v'. split; [exact E|]. split; [exact Eo|]. split; [exact Ev|]. split; [exact Ev'|]. split; [exact Hle|]. cbn zeta.
  assert (Hmean : meaning K M s0 (os ++ [SetK p; Recompute false true]) = meaning K M (meaning K M s0 os) [SetK p; Recompute false true])
    by (unfold meaning; now rewrite fold_left_app).
  pose proof (run_inv K M KO MO _ _ _ _ (fresh_inv _ _ _ _ _ _ F) E) as I.
  pose proof (run_inv K M KO MO _ _ _ _ (fresh_inv _ _ _ _ _ _ F) Er) as I'.
  set (s := meaning K M s0 os) in *. destruct Cl as (Hx & Hk & Hm).
  destruct (v_nonempty _ _ _ _ _ _ I Hx) as ((d & D1 & _) & _). pose proof (v_kok _ _ _ _ _ _ I d D1) as Kok.
  rewrite (v_k _ _ _ _ _ _ I) in Hp.
  split.
  - rewrite (v_k _ _ _ _ _ _ I'), Hmean. cbn [meaning fold_left s_step s_k]. now apply (base_get_set C O noise0 opt Ho d).
  - intros x Hxl.
    destruct (C24_exact_posterior K M KO MO g0 s0 _ g' F Er) with (v := x) as [H1 H2].
    + rewrite Hmean. exact Hx.
    + rewrite Hmean. reflexivity.
    + rewrite Hmean. cbn [meaning fold_left s_step s_dm]. now rewrite Hm.
    + rewrite Hmean. exact Hxl.
    + rewrite Hmean in H1, H2. destruct H1 as (B & HB). exists B. split; [exact HB|]. now destruct (H2 B HB) as (_ & _ & ?).
Qed.
End Limbo.
(** the history of [Prop_Mean.history_is_valid] meets the hypotheses *)
Example C32_hypotheses :
  let K := BaseKernel (SquaredExpARD 1 0) (1 / 100) true in let M := FunctionARD Data in
  let os := [Compute [[0; 0]; [1; 2]] [[1]; [5]] true; SetK [0; 1; 0; -2]; SetM [2; 1]; Recompute true true;
   Add (fun _ _ => 0) (fun _ _ => 7) [0; 0] [2]] in
  fresh K M (gp_default K M) (s_default K M) /\ valid_all K M (s_default K M) os /\ clean K M (meaning K M (s_default K M) os) /\
  (0 < m_hsize M (s_m K M (meaning K M (s_default K M) os)))%nat.
Proof.
  split; [constructor|]. split; [|split; [cbn; repeat split; discriminate|cbn; lia]].
  cbn. repeat split; try discriminate; try lia; repeat constructor; auto.
Qed.
