(** C63: the hypotheses are met by concrete histories; calls for which the sparse Gaussian process does not keep its promise. *)
From Coq Require Import Reals List Bool Lia Lra ZArith R_Ifp.
From Verif Require Import LinAlgModel LinAlg KernelModel Psd GPModel GPSpec GPFacts MeanFacts SpgpModel SpgpSpec SpgpAlg Prop_Spgp.
Import ListNotations.
Open Scope R_scope.

Section Calls.
Variables (K : Kern) (M : Mean) (MO : MeanOK M).
Variables (jit pct : R) (min_m : nat) (sig0 c0 l0 : R).
Hypothesis Hjit : 0 < jit.

(** [mu] and [sigma] called with a vector agree with [query] in one dimension *)
Theorem C63_mu_sigma os o s0 : valid M pct min_m 1 (os ++ [o]) ->
  exists s, s_run K M jit pct min_m sig0 c0 l0 s0 (os ++ [o]) = Done s /\
  forall x, exists mu var A, p_query K M s [x] = Done ([mu], var) /\ p_mu K M s [x] = Done A /\ rows A = 1%nat /\ cols A = 1%nat /\ at_ A 0 0 = mu /\ p_sigma K M s [x] = Done var.
Proof.
  intro Hv. destruct (C63_posterior K M MO jit pct min_m sig0 c0 l0 Hjit 1 os o s0 Hv) as (s & w & E & _ & _ & _ & (B & A & HB & HA) & HQ).
  exists s. split; [exact E|]. intro x. destruct (HQ B A HB HA) as [Q P]. destruct (Q [x] eq_refl) as [Q1 _]. destruct (P (column_of [x]) eq_refl) as (P1 & vr & EP & RP & CP & Z).
  destruct (Z O ltac:(cbn; lia)) as [Z1 Z2]. change (row (column_of [x]) 0) with [x] in Z1.
  eexists _, _, P1. split; [exact Q1|]. unfold p_mu, p_sigma. rewrite EP. cbn [bind fst snd]. split; [reflexivity|]. split; [exact RP|]. split; [exact CP|].
  split; [exact Z1|]. f_equal. exact Z2.
Qed.
(** with more than one input coordinate both calls are undefined *)
Theorem C63_mu_sigma_refuted d os o s0 : valid M pct min_m d (os ++ [o]) -> d <> 1%nat ->
  exists s, s_run K M jit pct min_m sig0 c0 l0 s0 (os ++ [o]) = Done s /\ forall v, p_mu K M s v = Undefined /\ p_sigma K M s v = Undefined.
Proof.
  intros Hv Hd. destruct (history_ok K M MO jit pct min_m sig0 c0 l0 Hjit d os o s0 Hv) as (s & E & U & (w & St & R & H & F)).
  exists s. split; [exact E|]. intro v.
  assert (NX : p_X K M s <> []).
  { rewrite (r_X _ _ _ _ _ _ R). destruct U as (_ & Hn & _). intro Z. rewrite Z in Hn. cbn in Hn. lia. }
  assert (Z : predict K M s (column_of v) = Undefined).
  { unfold predict. rewrite (match_cons _ _ _ NX), (h_c _ _ _ _ _ _ _ _ _ _ _ H), (h_sg _ _ _ _ _ _ _ _ _ _ _ H), (h_b _ _ _ _ _ _ _ _ _ _ _ H).
    rewrite vec_of_length. change (cols (column_of v)) with 1%nat. rewrite (proj2 (Nat.eqb_neq 1 d)) by auto.
    rewrite andb_false_r. reflexivity. }
  unfold p_mu, p_sigma. now rewrite Z.
Qed.
(** [add_sample] on a new object reads an uninitialised member *)
Theorem C63_add_first_refuted pos opt x y : 
  (forall din dout, p_add K M jit pct min_m sig0 c0 l0 pos opt (spgp_new K M sig0 c0 l0 din dout) x y = Undefined) /\
  p_add K M jit pct min_m sig0 c0 l0 pos opt (spgp_default K M) x y = Undefined.
Proof.
  assert (G : forall s, p_X K M s = [] -> p_del K M s = None -> p_add K M jit pct min_m sig0 c0 l0 pos opt s x y = Undefined).
  { intros s HX Hd. unfold p_add. rewrite HX. unfold with_data_zm.
    match goal with |- context [check ?c ?t] => destruct c end; [|reflexivity]. cbn [check bind].
    unfold compute_, optimize_hp. cbn [p_din p_dout p_del]. rewrite Hd. reflexivity. }
  split; [intros din dout|]; apply G; reflexivity.
Qed.
(** observations with more than one output: the sizes do not match *)
Theorem C63_outputs_refuted pos opt s X Y : List.Forall (fun y => length y <> 1%nat) Y -> forall s', p_compute K M jit pct min_m pos opt s X Y <> Done s'.
Proof.
  intros HY s' H. unfold p_compute in H. destruct X as [|x0 X]; [discriminate|]. destruct Y as [|y0 Y]; [discriminate|].
  apply check_done in H. destruct H as [_ H]. apply bind_done in H. destruct H as (s1 & H1 & H2).
  unfold with_data_zm in H1. apply check_done in H1. destruct H1 as [_ H1]. injection H1 as <-.
  unfold compute_ in H2. apply bind_done in H2. destruct H2 as (s2 & H2 & H3). unfold optimize_hp in H2. cbn [p_din p_dout p_del p_X p_zm p_init p_m] in H2.
  apply bind_done in H2. destruct H2 as (w & _ & H2). match type of H2 with match ?h with _ => _ end = _ => destruct h end; [|discriminate]. injection H2 as <-.
  unfold factorize in H3. cbn [p_m p_din p_c p_sig p_xb p_b p_zm p_X] in H3. apply check_done in H3. destruct H3 as [C _].
  apply andb_prop in C. destruct C as [_ C]. cbn [cols] in C. apply Nat.eqb_eq in C. inversion HY. contradiction.
Qed.
(** one sample, or a constant coordinate: the length scale of the start is the logarithm of zero *)
Theorem C63_constant_refuted pos opt s X Y k : (0 < length X)%nat ->
  (forall x, In x X -> (k < length x)%nat) -> (forall x x', In x X -> In x' X -> vget x k = vget x' k) ->
  forall s', p_compute K M jit pct min_m pos opt s X Y <> Done s'.
Proof.
  intros Hn Hl Hk s' H. unfold p_compute in H. destruct X as [|x0 X']; [discriminate|]. destruct Y as [|y0 Y]; [discriminate|]. set (X := x0 :: X') in *.
  apply check_done in H. destruct H as [_ H]. apply bind_done in H. destruct H as (s1 & H1 & H2).
  unfold with_data_zm in H1. apply check_done in H1. destruct H1 as [_ H1]. injection H1 as <-.
  unfold compute_ in H2. apply bind_done in H2. destruct H2 as (s2 & H2 & _). unfold optimize_hp in H2. cbn [p_din p_dout p_del p_X p_zm p_init p_m] in H2.
  apply bind_done in H2. destruct H2 as (w & Hw & _). unfold w_init in Hw. apply check_done in Hw. destruct Hw as [_ Hw].
  match type of Hw with (if ?t then _ else _) = _ => destruct t eqn:Et end; [|discriminate]. apply andb_prop in Et. destruct Et as [Et _].
  assert (AP : forall n f, all_pos n f = true -> forall i, (i < n)%nat -> 0 < f i).
  { clear. induction n as [|n IH]; intros f H i Hi; [lia|]. cbn in H. apply andb_prop in H. destruct H as [H1 H2]. destruct (Nat.eq_dec i n) as [->|].
    - destruct (Rlt_dec 0 (f n)); [auto|discriminate].
    - apply IH; auto. lia. }
  pose proof (AP _ _ Et k (Hl x0 (or_introl eq_refl))) as P.
  change (0 < (col_max (length X) (fun i => vget (nth i X []) k) - col_min (length X) (fun i => vget (nth i X []) k)) / 2) in P.
  destruct (col_max_spec (length X) (fun i => vget (nth i X []) k) Hn) as [(a & Ha & Ea) _], (col_min_spec (length X) (fun i => vget (nth i X []) k) Hn) as [(a' & Ha' & Ea') _].
  rewrite Ea, Ea' in P. rewrite (Hk (nth a X []) (nth a' X [])) in P by now apply nth_In. lra.
Qed.
End Calls.

(** * Concrete histories *)
Lemma Int_part_0 r : 0 <= r < 1 -> Int_part r = 0%Z.
Proof. intro H. unfold Int_part. rewrite <- (tech_up r 1); [reflexivity|lra|lra]. Qed.
Lemma m_of_small pct n : 0 <= pct * INR n / 100 < 1 -> m_of pct 1 n = 1%nat.
Proof. intro H. unfold m_of. now rewrite Int_part_0. Qed.
Lemma m_of_0 k n : m_of 0 k n = k.
Proof. unfold m_of. rewrite Int_part_0 by lra. reflexivity. Qed.
Lemma null_res D i : res NullFunction D i = vget (nth i (snd D) []) 0.
Proof. unfold res, resid, prior_mean, y_, GPSpec.y_. cbn. unfold vget. cbn. ring. Qed.
Definition zeros (w : vec) : vec := repeat 0 (length w).
Definition ex_history : list sop := [SCompute [] zeros [[0]; [2]] [[1]; [0]]; SAdd [] (fun w => w) [5] [3]; SRecompute [1%nat; 0%nat; 2%nat] zeros].
Example C63_nonvacuous : valid NullFunction 10 1 1 ex_history.
Proof.
  split; [do 5 eexists; reflexivity|]. cbn [ex_history valid_from data_step fst snd app optimizer].
  assert (M2 : (m_of 10 1 2 <= 2)%nat) by (rewrite m_of_small by (cbn [INR]; lra); lia).
  assert (M3 : (m_of 10 1 3 <= 3)%nat) by (rewrite m_of_small by (cbn [INR]; lra); lia).
  assert (LZ : forall w, length (zeros w) = length w) by (intro; apply repeat_length).
  assert (U2 : usable NullFunction 10 1 1 ([[0]; [2]], [[1]; [0]])).
  { unfold usable. cbn [fst snd length]. do 3 (split; [lia|]). split; [repeat constructor|]. split; [repeat constructor|]. split; [exact M2|]. split.
    - intros k Hk. replace k with O by lia. exists [0], [2]. cbn. unfold vget. cbn. split; [auto|]. split; [auto|]. lra.
    - exists O. split; [lia|]. rewrite null_res. cbn. unfold vget. cbn. lra. }
  assert (U3 : usable NullFunction 10 1 1 ([[0]; [2]; [5]], [[1]; [0]; [3]])).
  { unfold usable. cbn [fst snd length]. do 3 (split; [lia|]). split; [repeat constructor|]. split; [repeat constructor|]. split; [exact M3|]. split.
    - intros k Hk. replace k with O by lia. exists [0], [2]. cbn. unfold vget. cbn. split; [auto|]. split; [auto|]. lra.
    - exists O. split; [lia|]. rewrite null_res. cbn. unfold vget. cbn. lra. }
  split; [exact U2|]. split; [exact LZ|]. split; [exact U3|]. split; [reflexivity|]. split; [exact U3|]. split; [exact LZ|exact Logic.I].
Qed.

(** the start of the optimisation is written by rows and read by columns: with two coordinates and two pseudo-inputs, they are
    not samples *)
Theorem C63_start_refuted : exists D pos w, usable NullFunction 0 2 2 D /\ start NullFunction 0 2 2 D pos w /\
  forall i, (i < 2)%nat -> ~ exists x, In x (fst D) /\ forall k, (k < 2)%nat -> u_xb 2 w i k = vget x k.
Proof.
  set (D := ([[1; 2]; [3; 4]], [[1]; [0]]) : list vec * list vec).
  assert (U : usable NullFunction 0 2 2 D).
  { unfold usable, D. cbn [fst snd length]. do 3 (split; [lia|]). split; [repeat constructor|]. split; [repeat constructor|]. split; [rewrite m_of_0; lia|]. split.
    - intros k Hk. exists [1; 2], [3; 4]. split; [cbn; auto|]. split; [cbn; auto|]. destruct k as [|[|k]]; [| |lia]; unfold vget; cbn; lra.
    - exists O. split; [lia|]. rewrite null_res. cbn. unfold vget. cbn. lra. }
  destruct (init_ok NullFunction 0 2 2 D [0%nat; 1%nat] (Mat 2 1 (fun i _ => res NullFunction D i)) U eq_refl (fun _ _ => eq_refl)) as (w & _ & St).
  exists D, [0%nat; 1%nat], w. split; [exact U|]. split; [exact St|].
  unfold start in St. cbv zeta in St. change (length (fst D)) with 2%nat in St. rewrite m_of_0 in St. destruct St as (_ & S & _).
  pose proof (S 0%nat 0%nat ltac:(lia) ltac:(lia)) as S0. pose proof (S 0%nat 1%nat ltac:(lia) ltac:(lia)) as S1.
  pose proof (S 1%nat 0%nat ltac:(lia) ltac:(lia)) as S2. pose proof (S 1%nat 1%nat ltac:(lia) ltac:(lia)) as S3.
  cbn in S0, S1, S2, S3. unfold vget in S0, S1, S2, S3. cbn [nth] in S0, S1, S2, S3.
  intros i Hi (x & Hx & E). pose proof (E 0%nat ltac:(lia)) as E0. pose proof (E 1%nat ltac:(lia)) as E1. unfold u_xb in E0, E1.
  destruct i as [|[|i]]; [| |lia]; cbn in E0, E1; unfold vget in E0, E1; cbn [nth] in E0, E1; destruct Hx as [<-|[<-|[]]]; cbn [nth] in E0, E1; lra.
Qed.

Lemma optimize_frame K M pct min_m pos opt s s' : p_optimize K M pct min_m pos opt s = Done s' ->
  p_L K M s' = p_L K M s /\ p_Lm K M s' = p_Lm K M s /\ p_bet K M s' = p_bet K M s.
Proof.
  unfold p_optimize, optimize_hp. cbn [p_din p_dout p_del init_true p_init]. destruct (p_din K M s); [|discriminate]. destruct (p_dout K M s); [|discriminate].
  destruct (p_del K M s); [|discriminate]. intro H. apply bind_done in H. destruct H as (w & _ & H).
  match type of H with match ?h with _ => _ end = _ => destruct h end; [|discriminate]. injection H as <-. auto.
Qed.
(** [optimize_hyperparams] changes the parameters but not the factors computed from them: predicted variances can be negative *)
Theorem C63_optimize_refuted K jit sig0 c0 l0 s0 : 0 < jit <= / 10 ->
  exists os pos opt s s' mu var, valid NullFunction 10 1 1 os /\ (forall w, length (opt w) = length w) /\
    s_run K NullFunction jit 10 1 sig0 c0 l0 s0 os = Done s /\ p_optimize K NullFunction 10 1 pos opt s = Done s' /\
    p_query K NullFunction s' [0] = Done (mu, var) /\ var < 0.
Proof.
  intro Hj. set (M := NullFunction). set (MO := RT_OK _ null_RT : MeanOK M).
  set (o := SCompute [] zeros [[0]; [2]] [[1]; [0]]). set (opt2 := fun w : vec => if (length w =? 4)%nat then [0; 0; ln 4; 0] else w).
  assert (Ho2 : forall w, length (opt2 w) = length w).
  { intro w. unfold opt2. destruct (Nat.eqb_spec (length w) 4) as [E|]; [now rewrite E|reflexivity]. }
  assert (Hv : valid M 10 1 1 ([] ++ [o])).
  { split; [do 5 eexists; reflexivity|]. destruct C63_nonvacuous as [_ (U & H & _)]. split; [exact U|]. split; [exact H|exact Logic.I]. }
  set (D := ([[0]; [2]], [[1]; [0]]) : list vec * list vec).
  assert (Em : m_of 10 1 (length (fst D)) = 1%nat) by (apply m_of_small; cbn [INR length fst D]; lra).
  destruct (history_ok K M MO jit 10 1 sig0 c0 l0 ltac:(lra) 1 [] o s0 Hv) as (s & E & U & P). cbn [app] in Hv, E.
  change (data ([] ++ [o])) with D in U, P. unfold post in P. cbv zeta in P. destruct P as (w & St & R & H & [(L & Lm & bet & EL & ELm & Eb & CL & PE & CM & FB)]).
  rewrite Em in *. change (length (fst D)) with 2%nat in PE, CM, FB.
  destruct (optimize_ok K M jit 10 1 1 D [] opt2 (init_true K M s) U Ho2 (init_true_ready K M jit 1 D s R) eq_refl) as (s' & w' & E' & St' & R' & H').
  change (optimize_hp K M 10 1 [] opt2 (init_true K M s)) with (p_optimize K M 10 1 [] opt2 s) in E'.
  destruct (optimize_frame _ _ _ _ _ _ _ _ E') as (F1 & F2 & F3).
  assert (Lw : length w = 4%nat) by (destruct St as [Lw _]; rewrite Em in Lw; exact Lw).
  assert (Lw' : length w' = 4%nat) by (destruct St' as [Lw' _]; rewrite Em in Lw'; exact Lw').
  assert (Ez : optimizer o w = [0; 0; 0; 0]) by (cbn [optimizer o]; unfold zeros; rewrite Lw; reflexivity).
  assert (Eo : opt2 w' = [0; 0; ln 4; 0]) by (unfold opt2; now rewrite Lw'). rewrite Ez in *. cbv zeta in H'. rewrite Em, Eo in H'.
  pose proof (h_c _ _ _ _ _ _ _ _ _ _ _ H') as Hc. pose proof (h_sg _ _ _ _ _ _ _ _ _ _ _ H') as Hsg. pose proof (h_xb _ _ _ _ _ _ _ _ _ _ _ H') as Hxb. pose proof (h_b _ _ _ _ _ _ _ _ _ _ _ H') as Hbb.
  rewrite Em in Hxb.
  assert (C4 : u_c 1 1 [0; 0; ln 4; 0] = 4) by (unfold u_c, vget; cbn; apply exp_ln; lra).
  assert (S1 : u_sig 1 1 [0; 0; ln 4; 0] = 1) by (unfold u_sig, vget; cbn; apply exp_0). rewrite C4 in Hc. rewrite S1 in Hsg.
  (* the factors *)
  assert (B1 : u_b 1 1 [0; 0; 0; 0] 0 = 1) by (unfold u_b, vget; cbn; apply exp_0).
  assert (C1 : u_c 1 1 [0; 0; 0; 0] = 1) by (unfold u_c, vget; cbn; apply exp_0).
  assert (S1' : u_sig 1 1 [0; 0; 0; 0] = 1) by (unfold u_sig, vget; cbn; apply exp_0). rewrite C1, S1' in *.
  set (b := u_b 1 1 [0; 0; 0; 0]) in *. set (xb := u_xb 1 [0; 0; 0; 0]) in *.
  assert (X0 : xb O O = 0) by reflexivity.
  destruct CL as [[_ LP] LF]. specialize (LP O ltac:(lia)). specialize (LF O O ltac:(lia) ltac:(lia)). cbn [rsum] in LF. unfold pseudo_cov in LF. rewrite se_self in LF. unfold delta in LF. cbn [Nat.eqb] in LF.
  destruct CM as [[_ MP] MF]. specialize (MP O ltac:(lia)). specialize (MF O O ltac:(lia) ltac:(lia)). cbn [rsum] in MF.
  set (K0 := fun a j => se 1 b 1 (xb a) (fun k => vget (nth j (fst D) []) k)) in *.
  assert (K00 : K0 O O = 1) by (unfold K0, se; cbn [rsum fst D nth]; unfold vget; cbn [nth]; rewrite X0; replace (- (1 / 2) * (0 + b 0%nat * ((0 - 0) * (0 - 0)))) with 0 by ring; rewrite exp_0; ring).
  set (l := L O O) in *. set (lm := Lm O O) in *.
  assert (Fw : forall f, fwd 1 L f 0 = f O / l).
  { intro f. rewrite fwd_eq by lia. cbn [rsum]. unfold l. f_equal. ring. }
  assert (Fm : forall f, fwd 1 Lm f 0 = f O / lm).
  { intro f. rewrite fwd_eq by lia. cbn [rsum]. unfold lm. f_equal. ring. }
  assert (V00 : V0 1 L K0 0 0 = / l) by (unfold V0; rewrite Fw, K00; field; lra).
  assert (E0 : ep 1 L K0 1 1 0 = 2 - / (l * l)) by (unfold ep; cbn [rsum]; rewrite V00; field; lra).
  assert (Hl2 : l * l = 1 + jit) by lra.
  assert (MG : lm * lm >= 1 + / (1 + 2 * jit)).
  { replace (lm * lm) with (MM 2 1 (V 1 L K0 1 1) 0 0) by (rewrite <- MF; ring). unfold MM. cbn [rsum]. unfold delta. cbn [Nat.eqb].
    assert (0 <= V 1 L K0 1 1 0 1 * V 1 L K0 1 1 0 1) by apply Rle_0_sqr.
    replace (V 1 L K0 1 1 0 0 * V 1 L K0 1 1 0 0) with (/ (1 + 2 * jit)); [lra|].
    pose proof (PE O ltac:(lia)) as P0. unfold V. rewrite V00. transitivity (/ (l * l) / (sqrt (ep 1 L K0 1 1 0) * sqrt (ep 1 L K0 1 1 0))).
    - rewrite sqrt_sqrt by lra. rewrite E0, Hl2. field. lra.
    - field. split; [lra|apply Rgt_not_eq; now apply sqrt_lt_R0]. }
  do 5 eexists. eexists. exists (4 - 4 / l * (4 / l) + 1 * (4 / l / lm * (4 / l / lm)) + 1). split; [exact Hv|]. split; [exact Ho2|]. split; [exact E|]. split; [exact E'|]. split.
  - unfold p_query, predict. rewrite (r_X _ _ _ _ _ _ R'). cbn [fst D]. rewrite Hc, Hsg, Hxb, Hbb, F1, F2, F3, EL, ELm, Eb, (r_dout _ _ _ _ _ _ R'), (h_opt _ _ _ _ _ _ _ _ _ _ _ H').
    cbn [rows cols at_ row_of oget length vec_of seq map]. cbn [Nat.eqb andb forallb].
    assert (PL : forall v, length (p_mean_at K M s' v) = 1%nat).
    { intro v. unfold p_mean_at. rewrite (r_mean _ _ _ _ _ _ R'). reflexivity. }
    rewrite PL. cbn [Nat.eqb andb check]. fold l lm.
    assert (DL : diag_ok 1 L = true) by (apply diag_ok_spec; intros i Hi; replace i with O by lia; fold l; lra).
    assert (DM : diag_ok 1 Lm = true) by (apply diag_ok_spec; intros i Hi; replace i with O by lia; fold lm; lra).
    rewrite DL, DM. cbn [andb bind fst snd]. cbn [rsum]. rewrite !Fm, !Fw.
    assert (KE : forall bb, kernel_entry 1 bb 4 (u_xb 1 [0; 0; ln 4; 0] 0) (fun j => vget [0] j) = 4).
    { intro bb. unfold kernel_entry. cbn [rsum]. unfold u_xb, vget. cbn [nth Nat.add Nat.mul].
      match goal with |- 4 * exp ?z = 4 => replace z with 0 by ring end. rewrite exp_0. ring. }
    rewrite KE. f_equal. f_equal. ring.
  - assert (P1 : 0 < 1 + 2 * jit) by lra. assert (Pl : 0 < lm * lm) by (apply Rmult_lt_0_compat; lra).
    replace (4 - 4 / l * (4 / l) + 1 * (4 / l / lm * (4 / l / lm)) + 1) with (5 - 16 / (1 + jit) * (1 - / (lm * lm))) by (rewrite <- Hl2; field; lra).
    assert (Q1 : / (lm * lm) <= (1 + 2 * jit) / (2 + 2 * jit)).
    { replace ((1 + 2 * jit) / (2 + 2 * jit)) with (/ (1 + / (1 + 2 * jit))) by (field; lra). apply Rinv_le_contravar; [|lra]. assert (0 < / (1 + 2 * jit)) by now apply Rinv_0_lt_compat. lra. }
    assert (Q2 : 1 - / (lm * lm) >= / (2 + 2 * jit)).
    { replace (/ (2 + 2 * jit)) with (1 - (1 + 2 * jit) / (2 + 2 * jit)) by (field; lra). lra. }
    assert (Q3 : 16 / (1 + jit) * (1 - / (lm * lm)) >= 16 / (1 + jit) * / (2 + 2 * jit)).
    { apply Rmult_ge_compat_l; auto. apply Rle_ge, Rmult_le_pos; [lra|]. apply Rlt_le, Rinv_0_lt_compat. lra. }
    assert (Q4 : 16 / (1 + jit) * / (2 + 2 * jit) > 5).
    { apply Rlt_gt, Rmult_lt_reg_r with ((1 + jit) * (2 + 2 * jit)); [nra|]. replace (16 / (1 + jit) * / (2 + 2 * jit) * ((1 + jit) * (2 + 2 * jit))) with 16 by (field; lra). nra. }
    lra.
Qed.
Example C63_mu_sigma_refuted_nonvacuous : exists o, valid NullFunction 0 2 2 ([] ++ [o]).
Proof.
  exists (SCompute [0%nat; 1%nat] zeros [[1; 2]; [3; 4]] [[1]; [0]]). split; [do 5 eexists; reflexivity|].
  split; [|split; [intro; apply repeat_length|exact Logic.I]].
  unfold usable. cbn [data_step fst snd length]. do 3 (split; [lia|]). split; [repeat constructor|]. split; [repeat constructor|]. split; [rewrite m_of_0; lia|]. split.
  - intros k Hk. exists [1; 2], [3; 4]. split; [cbn; auto|]. split; [cbn; auto|]. destruct k as [|[|k]]; [| |lia]; unfold vget; cbn; lra.
  - exists O. split; [lia|]. rewrite null_res. cbn. unfold vget. cbn. lra.
Qed.
