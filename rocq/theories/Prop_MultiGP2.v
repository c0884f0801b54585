(** C34 for the kernels and mean functions of limbo; where it fails. *)
From Coq Require Import Reals List Bool ZArith Lia Lra Permutation.
From Verif Require Import LinAlgModel LinAlg KernelModel KernelSpec KernelFacts GPModel GPSpec GPFacts MeanSpec MeanFacts Prop_GP Prop_Lik2
  MultiGPModel MultiGPSpec MultiGPFacts Prop_MultiGP.
Import ListNotations.
Open Scope R_scope.

(** * The values of the mean function subtracted from the observations are the current ones *)
Section Settled.
Variables (K : Kern) (M : Mean).
Definition settled (s : msp K M) : Prop := forall b i, (b < length (q_xs K M s))%nat -> (i < oget (q_dout K M s))%nat ->
  y_ (q_off K M s) b i = prior_mean M (q_m K M s) (q_ys K M s) (oget (q_dout K M s)) (nth b (q_xs K M s) []) i.
Definition keeps_mean (o : mop) : Prop := match o with MSetM _ => False | _ => True end.
Definition keeps_data (o : mop) : Prop := match o with MSetM _ | MAdd _ _ _ _ _ => False | _ => True end.

Lemma settled_compute s xs ys b : settled (q_compute K M s xs ys b).
Proof.
  intros a i Ha Hi. cbn [q_compute q_off q_xs q_ys q_m q_dout oget] in *. unfold y_, prior_mean. cbv zeta.
  apply (f_equal (fun w : vec => vget w i)). refine (nth_map_dflt (fun x : vec => m_val M _ x _) xs a [] [] Ha).
Qed.
Lemma dataless_val : dataless M -> forall st x mo mo', m_val M st x mo = m_val M st x mo'.
Proof.
  induction 1 as [|c|M' H IH]; intros st x mo mo'; auto. cbn [FunctionARD m_val]. unfold fard_val. now rewrite (IH _ x mo mo').
Qed.
Lemma settled_step (s : msp K M) o : keeps_mean o -> (dataless M \/ keeps_data o) -> length (q_off K M s) = length (q_xs K M s) ->
  settled s -> settled (q_step K M s o) /\ length (q_off K M (q_step K M s o)) = length (q_xs K M (q_step K M s o)).
Proof.
  intros Hk Hd L Hs. destruct o as [od xs ys b|j1 j2 od x y|i h|h|od a b]; cbn [q_step].
  - split; [apply settled_compute|]. cbn. now rewrite map_length.
  - destruct Hd as [Hd|[]]. destruct (q_ks K M s); cbn [q_off q_xs length].
    + split; auto. intros b i Hb Hi. cbn [q_off q_xs q_ys q_m q_dout oget length] in *. assert (b = O) as -> by lia. unfold y_, prior_mean. reflexivity.
    + rewrite !app_length, L. split; auto. intros b i Hb Hi. cbn [q_off q_xs q_ys q_m q_dout oget] in *. rewrite app_length in Hb. cbn [length] in Hb.
      unfold y_, prior_mean.
      destruct (Nat.lt_ge_cases b (length (q_xs K M s))) as [H|H].
      * rewrite !app_nth1 by lia. etransitivity; [exact (Hs b i H Hi)|]. unfold prior_mean. f_equal. now apply dataless_val.
      * rewrite !app_nth2 by lia. replace (b - length (q_off K M s))%nat with O by lia. replace (b - length (q_xs K M s))%nat with O by lia. cbn [nth].
        f_equal. now apply dataless_val.
  - split; auto.
  - destruct Hk.
  - destruct (q_ks K M s); [auto|]. destruct a; [|auto]. split; [apply settled_compute|]. cbn. now rewrite map_length.
Qed.
Lemma settled_run os : forall s : msp K M, Forall keeps_mean os -> (dataless M \/ Forall keeps_data os) -> length (q_off K M s) = length (q_xs K M s) ->
  settled s -> settled (mmeaning K M s os).
Proof.
  induction os as [|o os IH]; intros s Hk Hd L Hs; cbn [mmeaning fold_left]; auto. inversion Hk as [|? ? Hk1 Hk2]. subst.
  destruct (settled_step s o Hk1) as [A B]; auto.
  { destruct Hd as [Hd|Hd]; auto. inversion Hd. auto. }
  apply IH; auto. destruct Hd as [Hd|Hd]; auto. inversion Hd. auto.
Qed.
(** a mean function that ignores the observations, whose parameters are not modified *)
Theorem settled_dataless g0 s0 os : mfresh K M g0 s0 -> dataless M -> Forall keeps_mean os -> settled (mmeaning K M s0 os).
Proof.
  intros F D Hk. apply settled_run; auto; [destruct F; reflexivity|]. intros b i Hb. destruct F; simpl in Hb; lia.
Qed.
(** any mean function, after compute() or recompute(true, _), until samples are added or parameters of the mean modified *)
Theorem settled_computed s0 os1 o os2 : (match o with MCompute _ _ _ _ => True | MRecompute _ true _ => q_ks K M (mmeaning K M s0 os1) <> [] | _ => False end) ->
  Forall keeps_data os2 -> settled (mmeaning K M s0 (os1 ++ o :: os2)).
Proof.
  intros Ho Hd. unfold mmeaning. rewrite fold_left_app. cbn [fold_left]. fold (mmeaning K M s0 os1). set (s := mmeaning K M s0 os1) in *.
  assert (H : exists xs ys b, q_step K M s o = q_compute K M s xs ys b).
  { destruct o as [od xs ys b| | | |od [|] b]; try contradiction; cbn [q_step]; [eauto|]. destruct (q_ks K M s); [congruence|eauto]. }
  destruct H as (xs & ys & b & ->). apply settled_run; auto; [|cbn; now rewrite map_length|apply settled_compute].
  eapply Forall_impl; [|exact Hd]. intros []; cbn; tauto.
Qed.
End Settled.

(** * C34 for limbo's kernels and means.  Partial: [C34_data_mean_refuted] and [C34_recompute_refuted] below. *)
Section Limbo.
Variables (sf2 l : R) (k : nat) (C : CKern) (noise0 : R) (opt : bool) (M : Mean).
Hypotheses (Hs : 0 < sf2) (Hl : 0 < l) (HC : In C (kernels sf2 l k)) (Hn : 0 <= noise0) (Ho : opt = true -> 0 < noise0) (HM : means M).
Notation K := (BaseKernel C noise0 opt).

(** every valid history succeeds and every output is predicted as by a GP of its own, with the kernel of
    that output, trained on what the mean function left over; for every schedule *)
Theorem C34_independent_outputs g0 s0 os : mfresh K M g0 s0 -> mvalid_all K M s0 os ->
  exists g, mrun K M g0 os = Done g /\
  let s := mmeaning K M s0 os in let p := oget (q_dout K M s) in let n := length (q_xs K M s) in
  (q_xs K M s <> [] -> up_to_date K M s -> forall v, q_din K M s = Some (length v) ->
   (forall i, (i < p)%nat -> exists B, is_inv n (gram K (q_kernel K M s i) (q_xs K M s)) B) /\
   forall B, (forall i, (i < p)%nat -> is_inv n (gram K (q_kernel K M s i) (q_xs K M s)) (B i)) ->
   forall od junk, schedule p od ->
     let m := vec_of p (fun i => out_mean K M s (left_over K M s i) (B i) v i) in
     let va := vec_of p (fun i => clamp (post_var K (q_kernel K M s i) (q_xs K M s) (B i) v) + k_noise K (q_kernel K M s i)) in
     mg_query K M junk od g v = Done (m, va) /\ mg_mu K M (fst junk) od g v = Done m /\ mg_sigma K M (snd junk) od g v = Done va).
Proof.
  intros F V. destruct (kernels_OK _ _ _ _ Hs Hl HC) as [O]. destruct (means_RT M HM) as [T].
  set (KO := base_OK C O noise0 opt Hn Ho). set (MO := RT_OK M T).
  destruct (mrun_progress K M KO MO os g0 s0 (fresh_minv K M KO MO _ _ F) V) as (g & E & I). exists g. split; auto.
  cbv zeta. intros Hx Hu v Hd. split; [intros i Hi; now apply (inverses K M KO MO g)|].
  intros B HB od junk Sc. apply (outputs K M KO MO g); auto. apply (i_pos _ _ _ _ _ _ I).
  intro H. pose proof (i_lx _ _ _ _ _ _ I) as Lx. rewrite H in Lx. destruct (q_xs K M (mmeaning K M s0 os)); [congruence|discriminate].
Qed.

(** when the subtracted values are the current ones, the prediction is the exact posterior of the output *)
Theorem C34_exact_posterior_partial g0 s0 os : mfresh K M g0 s0 -> mvalid_all K M s0 os ->
  settled K M (mmeaning K M s0 os) ->
  exists g, mrun K M g0 os = Done g /\
  let s := mmeaning K M s0 os in let p := oget (q_dout K M s) in let n := length (q_xs K M s) in
  (q_xs K M s <> [] -> up_to_date K M s -> forall v, q_din K M s = Some (length v) ->
   exists B, (forall i, (i < p)%nat -> is_inv n (gram K (q_kernel K M s i) (q_xs K M s)) (B i)) /\
   forall od junk, schedule p od ->
     mg_query K M junk od g v =
       Done (vec_of p (fun i => post_mean K M (q_kernel K M s i) (q_m K M s) (q_xs K M s) (q_ys K M s) p (B i) v i),
             vec_of p (fun i => clamp (post_var K (q_kernel K M s i) (q_xs K M s) (B i) v) + k_noise K (q_kernel K M s i)))).
Proof.
  intros F V St. destruct (C34_independent_outputs g0 s0 os F V) as (g & E & H). exists g. split; auto. cbv zeta in *.
  intros Hx Hu v Hd. destruct (H Hx Hu v Hd) as [HI HQ]. set (s := mmeaning K M s0 os) in *.
  assert (HB : exists B, forall i, (i < oget (q_dout K M s))%nat -> is_inv (length (q_xs K M s)) (gram K (q_kernel K M s i) (q_xs K M s)) (B i)).
  { clear - HI. induction (oget (q_dout K M s)) as [|p IH]; [exists (fun _ _ _ => 0); intros; lia|].
    destruct IH as (B & HB); [intros; apply HI; lia|]. destruct (HI p ltac:(lia)) as (b & Hb).
    exists (fun i => if (i =? p)%nat then b else B i). intros i Hi. destruct (i =? p)%nat eqn:Ei.
    - apply Nat.eqb_eq in Ei. now subst.
    - apply Nat.eqb_neq in Ei. apply HB. lia. }
  destruct HB as (B & HB). exists B. split; auto. intros od junk Sc. destruct (HQ B HB od junk Sc) as [-> _]. f_equal. f_equal.
  apply vec_of_ext. intros i Hi. unfold out_mean, post_mean. cbv zeta. f_equal. apply rsum_ext. intros a Ha. apply rsum_ext. intros b Hb.
  f_equal. unfold left_over, resid, x_. f_equal. now apply St.
Qed.

(** samples added one by one or all at once: same predictions, if the mean function ignores the observations *)
Fixpoint madds (l : list (vec * vec)) (od : list nat) (j1 j2 : nat -> nat -> nat -> R) : list mop :=
  match l with [] => [] | (x, y) :: r => MAdd j1 j2 od x y :: madds r od j1 j2 end.
Theorem C34_incremental_equals_batch_partial g0 s0 data d p od od' od'' j1 j2 : dataless M ->
  mfresh K M g0 s0 -> (s0 = q_default K M \/ s0 = q_new K M d p) -> data <> [] -> (0 < d)%nat -> (0 < p)%nat ->
  List.Forall (fun q => length (fst q) = d /\ length (snd q) = p) data -> schedule p od -> schedule p od' -> schedule p od'' ->
  exists g g', mrun K M g0 (madds data od j1 j2) = Done g /\ mg_compute K M od' g0 (map fst data) (map snd data) true = Done g' /\
    forall v junk, length v = d -> exists r, mg_query K M junk od'' g v = Done r /\ mg_query K M junk od'' g' v = Done r.
Proof.
  intros D F Hs0 Hne D0 P0 Hlen S1 S2 S3.
  set (s := mmeaning K M s0 (madds data od j1 j2)). set (s' := mmeaning K M s0 [MCompute od' (map fst data) (map snd data) true]).
  assert (Hx0 : q_xs K M s0 = [] /\ q_ys K M s0 = []) by (destruct F; auto). destruct Hx0 as [Hx0 Hy0].
  (* the history of additions *)
  assert (A : forall l0 t, List.Forall (fun q => length (fst q) = d /\ length (snd q) = p) l0 ->
    q_din K M t = Some d -> q_dout K M t = Some p -> q_ks K M t = repeat (k_new K d, false) p -> q_m K M t = m_new M p ->
    mvalid_all K M t (madds l0 od j1 j2) /\
    let u := mmeaning K M t (madds l0 od j1 j2) in
    q_din K M u = Some d /\ q_dout K M u = Some p /\ q_ks K M u = repeat (k_new K d, false) p /\ q_m K M u = m_new M p /\
    q_xs K M u = q_xs K M t ++ map fst l0 /\ q_ys K M u = q_ys K M t ++ map snd l0).
  { induction l0 as [|[x y] l0 IH]; intros t Hl0 T1 T2 T3 T4.
    - cbn. rewrite !app_nil_r. auto 10.
    - inversion Hl0 as [|? ? [Ex Ey] Hl0']. subst. cbn [fst snd] in *. cbn [madds mvalid_all mmeaning fold_left].
      assert (Hrep : forall n, map (fun q : kst K * bool => (fst q, false)) (repeat (k_new K (length x), false) n) = repeat (k_new K (length x), false) n)
        by (induction n as [|n IHn]; cbn [repeat map fst]; [reflexivity|f_equal; exact IHn]).
      assert (Hst : let w := q_step K M t (MAdd j1 j2 od x y) in q_din K M w = Some (length x) /\ q_dout K M w = Some (length y) /\
         q_ks K M w = repeat (k_new K (length x), false) (length y) /\ q_m K M w = m_new M (length y) /\ q_xs K M w = q_xs K M t ++ [x] /\ q_ys K M w = q_ys K M t ++ [y]).
      { cbn [q_step]. destruct (q_ks K M t) as [|k0 ks0] eqn:Ek.
        - destruct (length y); [lia|discriminate].
        - cbn [q_din q_dout q_ks q_m q_xs q_ys]. rewrite T3. destruct (q_xs K M t); repeat split; auto. }
      destruct Hst as (W1 & W2 & W3 & W4 & W5 & W6). destruct (IH _ Hl0' W1 W2 W3 W4) as (V & U1 & U2 & U3 & U4 & U5 & U6).
      split; [split; auto|].
      + cbn [mvalid]. repeat split; auto. intros Hxx i Hi. unfold q_stale. rewrite T3 in *. rewrite repeat_length in Hi. now rewrite nth_repeat_lt.
      + unfold mmeaning in U1, U2, U3, U4, U5, U6. repeat split; auto.
        * rewrite U5, W5, <- app_assoc. reflexivity.
        * rewrite U6, W6, <- app_assoc. reflexivity. }
  assert (Hu : mvalid_all K M s0 (madds data od j1 j2) /\
    q_din K M s = Some d /\ q_dout K M s = Some p /\ q_ks K M s = repeat (k_new K d, false) p /\ q_m K M s = m_new M p /\
    q_xs K M s = map fst data /\ q_ys K M s = map snd data).
  { destruct Hs0 as [->| ->].
    - destruct data as [|[x y] l0]; [congruence|]. inversion Hlen as [|? ? [Ex Ey] Hl0']. cbn [fst snd] in *. cbn [madds mvalid_all].
      destruct (A l0 (q_step K M (q_default K M) (MAdd j1 j2 od x y)) Hl0') as (V & U); try (cbn; congruence).
      cbv zeta in U. split; [split; auto|exact U]. cbn [mvalid]. rewrite Ex, Ey. repeat split; auto; cbn in *; congruence.
    - destruct (A data (q_new K M d p) Hlen eq_refl eq_refl eq_refl eq_refl) as (V & U). split; [exact V|]. cbv zeta in U. exact U. }
  destruct Hu as (V & U1 & U2 & U3 & U4 & U5 & U6).
  (* the call to compute *)
  assert (Hhd : length (hd [] (map fst data)) = d /\ length (hd [] (map snd data)) = p)
    by (destruct data as [|[x y] l0]; [congruence|]; inversion Hlen as [|? ? H1 H2]; exact H1).
  destruct Hhd as [Hhx Hhy].
  assert (V' : mvalid_all K M s0 [MCompute od' (map fst data) (map snd data) true]).
  { cbn [mvalid_all mvalid]. unfold rect. rewrite Hhx, Hhy, !map_length. repeat split; auto.
    - destruct data; [congruence|discriminate].
    - apply Forall_map. eapply Forall_impl; [|exact Hlen]. cbn. intros a [? ?]; auto.
    - apply Forall_map. eapply Forall_impl; [|exact Hlen]. cbn. intros a [? ?]; auto. }
  assert (Hw : q_din K M s' = Some d /\ q_dout K M s' = Some p /\ q_ks K M s' = repeat (k_new K d, false) p /\ q_m K M s' = m_new M p /\
    q_xs K M s' = map fst data /\ q_ys K M s' = map snd data).
  { unfold s', mmeaning. cbn [fold_left q_step]. unfold q_compute. cbn [q_din q_dout q_ks q_m q_xs q_ys negb]. rewrite Hhx, Hhy.
    destruct Hs0 as [->| ->]; cbn [q_default q_new q_dout q_din q_ks q_m same]; repeat split; auto; rewrite ?Nat.eqb_refl; auto.
    clear. induction p as [|n IHn]; cbn [repeat map fst]; [reflexivity|f_equal; exact IHn]. }
  destruct Hw as (W1 & W2 & W3 & W4 & W5 & W6).
  assert (Ks : Forall keeps_mean (madds data od j1 j2)) by (clear; induction data as [|[x y] data IH]; constructor; cbn; auto).
  pose proof (settled_dataless K M g0 s0 _ F D Ks) as St. fold s in St.
  pose proof (settled_dataless K M g0 s0 [MCompute od' (map fst data) (map snd data) true] F D ltac:(repeat constructor)) as St'. fold s' in St'.
  destruct (C34_exact_posterior_partial g0 s0 _ F V St) as (g & E & H). destruct (C34_independent_outputs g0 s0 _ F V') as (g' & E' & H').
  exists g, g'. split; auto. split.
  { cbn [mrun mexec bind] in E'. destruct (mg_compute K M od' g0 (map fst data) (map snd data) true); cbn [bind] in E'; congruence. }
  cbv zeta in H, H'. fold s in H. fold s' in H'. intros v junk Hv.
  assert (Hne' : map fst data <> []) by (destruct data; [congruence|discriminate]).
  assert (Up : up_to_date K M s) by (intros i Hi; unfold q_stale; rewrite U3 in *; rewrite repeat_length in Hi; now rewrite nth_repeat_lt).
  assert (Up' : up_to_date K M s') by (intros i Hi; unfold q_stale; rewrite W3 in *; rewrite repeat_length in Hi; now rewrite nth_repeat_lt).
  destruct (H ltac:(rewrite U5; exact Hne') Up v ltac:(rewrite U1, Hv; reflexivity)) as (B & HB & HQ).
  destruct (H' ltac:(rewrite W5; exact Hne') Up' v ltac:(rewrite W1, Hv; reflexivity)) as (_ & HQ').
  assert (Hker : forall i, q_kernel K M s' i = q_kernel K M s i) by (intro i; unfold q_kernel; now rewrite U3, W3).
  rewrite U2 in HQ, HB. rewrite W2 in HQ'. cbn [oget] in *.
  eexists. split; [apply HQ; auto|]. destruct (HQ' B) with (od := od'') (junk := junk) as [-> _]; auto.
  { intros i Hi. rewrite Hker, W5, <- U5. now apply HB. }
  f_equal. f_equal; apply vec_of_ext; intros i Hi.
  - unfold out_mean, post_mean. cbv zeta. rewrite Hker, W2, W4, W5, W6, U4, U5, U6. cbn [oget]. f_equal.
    apply rsum_ext. intros a Ha. apply rsum_ext. intros b Hb. f_equal. unfold left_over, resid, x_.
    rewrite (St' b i); rewrite ?W5, ?W2; auto. now rewrite W4, W6.
  - now rewrite Hker, W5, U5.
Qed.
End Limbo.

(** * Where the claim fails *)
Section Refuted.
Let C := Exp 1 1.
Let K := BaseKernel C 0 false.
Let HC : In C (kernels 1 1 0). Proof. left. reflexivity. Qed.
Let Ho : false = true -> 0 < 0. Proof. discriminate. Qed.
Let k00 x : k_ker K (k_new K 1) [x] [x] = 1. Proof. exact (ker00 x). Qed.
Let sch1 : schedule 1 [0%nat]. Proof. apply Permutation_refl. Qed.
Let e := / 100000000.
Let e_pos : 0 < e. Proof. unfold e. apply Rinv_0_lt_compat. lra. Qed.

Lemma two_equal_points (B : nat -> nat -> R) : is_inv 2 (gram K (k_new K 1) [[0]; [0]]) B -> B 0%nat 0%nat + B 1%nat 0%nat <> 0.
Proof.
  intros [HB _] H. pose proof (HB 0%nat 0%nat ltac:(lia) ltac:(lia)) as H1. pose proof (HB 1%nat 0%nat ltac:(lia) ltac:(lia)) as H2.
  unfold mmul, delta, gram, x_ in H1, H2. cbn [rsum nth Nat.eqb] in H1, H2. rewrite !k00 in H1, H2. change (k_noise K (k_new K 1)) with 0 in H1, H2.
  fold e in H1, H2. assert ((2 + e) * (B 0%nat 0%nat + B 1%nat 0%nat) = 1) by lra. rewrite H in *. lra.
Qed.
Lemma one_point (B : nat -> nat -> R) : is_inv 1 (gram K (k_new K 1) [[0]]) B -> (1 + e) * B 0%nat 0%nat = 1.
Proof.
  intros [HB _]. pose proof (HB 0%nat 0%nat ltac:(lia) ltac:(lia)) as H1.
  unfold mmul, delta, gram, x_ in H1. cbn [rsum nth Nat.eqb] in H1. rewrite !k00 in H1. change (k_noise K (k_new K 1)) with 0 in H1. fold e in H1. lra.
Qed.

(** With mean::Data, add_sample() leaves the earlier observations centred on the average they had then *)
Theorem C34_data_mean_refuted : forall j1 j2, exists g g' a b,
    mrun K Data (mgp_default K Data) [MAdd j1 j2 [0%nat] [0] [0]; MAdd j1 j2 [0%nat] [0] [2]] = Done g /\
    mg_compute K Data [0%nat] (mgp_default K Data) [[0]; [0]] [[0]; [2]] true = Done g' /\
    mg_mu K Data 0 [0%nat] g [0] = Done [a] /\ mg_mu K Data 0 [0%nat] g' [0] = Done [b] /\ a <> b.
Proof.
  intros j1 j2. set (os := [MAdd j1 j2 [0%nat] [0] [0]; MAdd j1 j2 [0%nat] [0] [2]]). set (os' := [MCompute [0%nat] [[0]; [0]] [[0]; [2]] true]).
  assert (F : mfresh K Data (mgp_default K Data) (q_default K Data)) by constructor.
  assert (V : mvalid_all K Data (q_default K Data) os).
  { cbn [os mvalid_all mvalid length]. repeat split; auto; try (cbn; lia); try (cbn; congruence); try (intros ? i Hi; destruct i; [reflexivity|cbn in Hi; lia]). all: exfalso; match goal with H : _ <> _ |- _ => now apply H end. }
  assert (V' : mvalid_all K Data (q_default K Data) os').
  { cbn [os' mvalid_all mvalid length hd]. repeat split; auto; try discriminate; try (cbn; lia); repeat constructor. }
  destruct (C34_independent_outputs 1 1 0 C 0 false Data Rlt_0_1 Rlt_0_1 HC (Rle_refl 0) Ho mn_data _ _ os F V) as (g & E & H).
  destruct (C34_independent_outputs 1 1 0 C 0 false Data Rlt_0_1 Rlt_0_1 HC (Rle_refl 0) Ho mn_data _ _ os' F V') as (g' & E' & H').
  cbv zeta in H, H'. change (BaseKernel C 0 false) with K in H, H', E, E'.
  assert (U : up_to_date K Data (mmeaning K Data (q_default K Data) os)) by (intros i Hi; destruct i; [reflexivity|cbn in Hi; lia]).
  assert (U' : up_to_date K Data (mmeaning K Data (q_default K Data) os')) by (intros i Hi; destruct i; [reflexivity|cbn in Hi; lia]).
  destruct (H ltac:(discriminate) U [0] eq_refl) as (HI & HQ). destruct (H' ltac:(discriminate) U' [0] eq_refl) as (_ & HQ'). clear H H'.
  destruct (HI 0%nat ltac:(cbn; lia)) as (B & HB).
  destruct (HQ (fun _ => B)) with (od := [0%nat]) (junk := (0, 0)) as (_ & Q & _); auto.
  { intros i Hi. destruct i; [exact HB|cbn in Hi; lia]. }
  destruct (HQ' (fun _ => B)) with (od := [0%nat]) (junk := (0, 0)) as (_ & Q' & _); auto.
  { intros i Hi. destruct i; [exact HB|cbn in Hi; lia]. }
  eexists g, g', _, _. split; [exact E|]. split.
  { cbn [os' mrun mexec] in E'. apply bind_done in E'. destruct E' as (g1 & E1 & E2). inversion E2. subst g1. exact E1. }
  split; [exact Q|]. split; [exact Q'|]. pose proof (two_equal_points B HB) as HB2. clear - HB2 k00.
  unfold out_mean. intro H. apply Rplus_eq_reg_l in H. cbv zeta in H. revert H. 
  change (length (q_xs K Data (mmeaning K Data (q_default K Data) os))) with 2%nat.
  change (length (q_xs K Data (mmeaning K Data (q_default K Data) os'))) with 2%nat.
  change (q_kernel K Data (mmeaning K Data (q_default K Data) os) 0) with (k_new K 1).
  change (q_kernel K Data (mmeaning K Data (q_default K Data) os') 0) with (k_new K 1).
  change (q_xs K Data (mmeaning K Data (q_default K Data) os)) with [[0]; [0]].
  change (q_xs K Data (mmeaning K Data (q_default K Data) os')) with [[0]; [0]].
  assert (D1 : vget (data_mean [[0]] 1) 0 = 0) by (unfold data_mean; rewrite vget_vec_of by lia; unfold y_, vget; cbn; field).
  assert (D2 : vget (data_mean [[0]; [2]] 1) 0 = 1) by (unfold data_mean; rewrite vget_vec_of by lia; unfold y_, vget; cbn; field).
  assert (L0 : left_over K Data (mmeaning K Data (q_default K Data) os) 0 0 = 0) by (change (0 - vget (data_mean [[0]] 1) 0 = 0); rewrite D1; lra).
  assert (L1 : left_over K Data (mmeaning K Data (q_default K Data) os) 0 1 = 1) by (change (2 - vget (data_mean [[0]; [2]] 1) 0 = 1); rewrite D2; lra).
  assert (M0 : left_over K Data (mmeaning K Data (q_default K Data) os') 0 0 = -1) by (change (0 - vget (data_mean [[0]; [2]] 1) 0 = -1); rewrite D2; lra).
  assert (M1 : left_over K Data (mmeaning K Data (q_default K Data) os') 0 1 = 1) by (change (2 - vget (data_mean [[0]; [2]] 1) 0 = 1); rewrite D2; lra).
  cbn [rsum]. rewrite L0, L1, M0, M1. unfold cov, x_. cbn [nth]. rewrite !k00. intro H. apply HB2. lra.
Qed.

(** compute(..., false), and therefore MultiGP's recompute(true, false), do not update alpha *)
Lemma compute_without_kernel (a a' : gp K NullFunction) r : g_din K NullFunction a = Some 1%nat -> g_dout K NullFunction a = Some 1%nat ->
  g_samples K NullFunction a = [[0]] ->
  compute K NullFunction a [[0]] [[r]] false = Done a' -> forall v, mu K NullFunction a' v = mu K NullFunction a v.
Proof.
  intros Hd Hp Hx E v. unfold compute in E. apply check_done in E. destruct E as [_ E]. cbv zeta in E.
  apply check_done in E. destruct E as [E0 E]. apply bind_done in E. destruct E as (a1 & E1 & E2). inversion E2. subst a1. clear E2.
  apply obs_mean_spec in E1. destruct E1 as (_ & _ & _ & _ & Hc & mv & ->).
  destruct a. cbn in *. subst. reflexivity.
Qed.
(** After the mean function was modified, recompute(true, false) gives the exact posterior for a GP (C24) but not for a
    MultiGP: its second argument only says whether the kernel changed, yet the prediction is off the posterior *)
Theorem C34_recompute_refuted :
  let M := Constant 0 in let os := [MCompute [0%nat] [[0]] [[1]] true; MSetM [5]; MRecompute [0%nat] true false] in
  exists g a, mvalid_all K M (q_default K M) os /\ mrun K M (mgp_default K M) os = Done g /\
    mg_mu K M 0 [0%nat] g [0] = Done [a] /\
    let s := mmeaning K M (q_default K M) os in
    settled K M s /\ q_xs K M s = [[0]] /\ q_ys K M s = [[1]] /\ m_hparams M (q_m K M s) = [5] /\
    forall B, is_inv 1 (gram K (q_kernel K M s 0) (q_xs K M s)) B ->
      a <> post_mean K M (q_kernel K M s 0) (q_m K M s) (q_xs K M s) (q_ys K M s) 1 B [0] 0.
Proof.
  intros M os. set (os1 := [MCompute [0%nat] [[0]] [[1]] true; MSetM [5]]).
  assert (F : mfresh K M (mgp_default K M) (q_default K M)) by constructor.
  assert (V1 : mvalid_all K M (q_default K M) os1).
  { cbn [os1 mvalid_all mvalid length hd]. repeat split; auto; try discriminate; try (cbn; lia); repeat constructor. }
  assert (V : mvalid_all K M (q_default K M) os).
  { cbn [os1 os mvalid_all] in *. repeat split; try apply V1; auto; discriminate. }
  set (KO := base_OK C (exp_OK 1 1 Rlt_0_1 Rlt_0_1) 0 false (Rle_refl 0) Ho : KernOK K). set (MO := RT_OK M (constant_RT 0)).
  destruct (mrun_progress K M KO MO os1 _ _ (fresh_minv K M KO MO _ _ F) V1) as (g1 & E1 & I1).
  set (s1 := mmeaning K M (q_default K M) os1) in *.
  destruct (compute_progress K M KO MO [0%nat] g1 s1 [[0]] [[1]] false I1) as (g & E).
  { cbn [mvalid length hd]. repeat split; auto; try discriminate; try (cbn; lia); repeat constructor. }
  pose proof (i_inner _ _ _ _ _ _ I1 0%nat ltac:(cbn; lia)) as J1.
  pose proof (i_gps _ _ _ _ _ _ I1) as L1. change (length (q_ks K M s1)) with 1%nat in L1.
  destruct (mg_gps K M g1) as [|a0 [|]] eqn:Eg; try discriminate. cbn [nth] in J1.
  assert (Er : mrun K M (mgp_default K M) os = Done g).
  { change os with (os1 ++ [MRecompute [0%nat] true false]).
    assert (Happ : forall l l' x, mrun K M x (l ++ l') = bind (mrun K M x l) (fun y => mrun K M y l')).
    { induction l as [|o l IH]; intros l' x; cbn [app mrun bind]; auto. destruct (mexec K M x o); cbn [bind]; auto. }
    rewrite Happ, E1. cbn [bind mrun mexec]. unfold mg_recompute, mg_recompute_by. fold (mg_compute K M). rewrite Eg.
    rewrite (v_samples _ _ _ _ _ _ J1), (i_obs _ _ _ _ _ _ I1). cbn [sub s_xs]. change (q_xs K M s1) with [[0]]. change (q_ys K M s1) with [[1]].
    rewrite E. reflexivity. }
  (* before recompute(true, false) *)
  destruct (inverses K M KO MO g1 s1 I1 ltac:(discriminate) 0%nat ltac:(cbn; lia)) as (B0 & HB0).
  destruct (outputs K M KO MO g1 s1 [0] I1 ltac:(discriminate)) with (B := fun _ : nat => B0) (od := [0%nat]) (junk := (0, 0)) as (_ & Q & _); auto.
  { intros i Hi. destruct i; [reflexivity|cbn in Hi; lia]. }
  { intros i Hi. destruct i; [exact HB0|cbn in Hi; lia]. }
  (* the prediction is not modified *)
  assert (Em : mg_mu K M 0 [0%nat] g [0] = mg_mu K M 0 [0%nat] g1 [0]).
  { unfold mg_compute, mg_compute_by in E. apply check_done in E. destruct E as [_ E]. cbv zeta in E.
    rewrite (i_dout _ _ _ _ _ _ I1) in E. change (q_dout K M s1) with (Some 1%nat) in E. cbn [length onat_eqb Nat.eqb] in E. rewrite Eg in E. cbn [length Nat.eqb] in E.
    apply check_done in E. destruct E as [_ E]. apply check_done in E. destruct E as [_ E]. apply bind_done in E. destruct E as (gs & E2 & E3).
    inversion E3. clear E3. cbn [par_each nth_error] in E2. apply bind_done in E2. destruct E2 as (a' & E4 & E5).
    cbn [lput firstn skipn app par_each] in E5. apply (f_equal (fun o => match o with Done x => x | _ => [] end)) in E5. cbv beta iota in E5. subst gs.
    unfold mg_mu. cbn [mg_dout mg_gps]. rewrite (i_dout _ _ _ _ _ _ I1). change (q_dout K M s1) with (Some 1%nat).
    cbn [par_each repeat nth_error]. rewrite Eg. cbn [nth_error].
    pose proof (v_din _ _ _ _ _ _ J1) as D1. pose proof (v_dout _ _ _ _ _ _ J1) as D2. pose proof (v_samples _ _ _ _ _ _ J1) as D3.
    rewrite (compute_without_kernel a0 a' _ D1 D2 D3 E4). 
    unfold mg_mean_at, mg_dout_pos. cbn [mg_dout mg_m Constant m_val]. rewrite (i_dout _ _ _ _ _ _ I1). reflexivity. }
  cbn [fst] in Q. rewrite Q in Em. eexists g, _. split; [exact V|]. split; [exact Er|]. split; [exact Em|].
  cbv zeta. split; [apply (settled_computed K M (q_default K M) os1 (MRecompute [0%nat] true false) []); [discriminate|constructor]|].
  repeat (split; [reflexivity|]). intros B HB.
  change (q_kernel K M (mmeaning K M (q_default K M) os) 0) with (k_new K 1) in *. change (q_kernel K M s1 0) with (k_new K 1) in HB0.
  apply one_point in HB. apply one_point in HB0.
  assert (EB : B 0%nat 0%nat = B0 0%nat 0%nat) by (apply Rmult_eq_reg_l with (1 + e); lra).
  unfold out_mean, post_mean. cbv zeta. change (q_kernel K M s1 0) with (k_new K 1). change (q_xs K M s1) with [[0]].
  change (q_xs K M (mmeaning K M (q_default K M) os)) with [[0]].
  change (q_ys K M (mmeaning K M (q_default K M) os)) with [[1]]. change (q_ys K M s1) with [[1]].
  change (q_m K M (mmeaning K M (q_default K M) os)) with (1%nat, 5) in *. change (q_m K M s1) with (1%nat, 5).
  assert (L0 : left_over K M s1 0 0 = 1) by (change (1 - 0 = 1); lra).
  assert (Pm : forall ys p v, prior_mean M (1%nat, 5) ys p v 0 = 5) by reflexivity.
  cbn [rsum length]. unfold resid. rewrite L0, !Pm, EB. unfold cov, x_, y_, vget. cbn [nth]. rewrite !k00. intro H.
  assert (Hb0 : B0 0%nat 0%nat = 0) by lra. rewrite Hb0 in HB0. lra.
Qed.
End Refuted.

(** the hypotheses of the theorems are met by a history with two outputs, different kernels and additions *)
Example C34_hypotheses :
  let K := BaseKernel (SquaredExpARD 1 1) (1 / 100) true in let M := FunctionARD (Constant 3) in
  let os := [MCompute [1; 0]%nat [[0; 0]; [1; 2]] [[1; 2]; [5; 6]] true; MSetK 1 (k_hparams K (k_new K 2)); MRecompute [0; 1]%nat false true;
             MAdd (fun _ _ _ => 7) (fun _ _ _ => 8) [1; 0]%nat [3; 4] [0; 1]] in
  dataless M /\ mfresh K M (mgp_default K M) (q_default K M) /\ mvalid_all K M (q_default K M) os /\ Forall keeps_mean os /\
  let s := mmeaning K M (q_default K M) os in
  q_xs K M s = [[0; 0]; [1; 2]; [3; 4]] /\ up_to_date K M s /\ q_din K M s = Some 2%nat /\ q_dout K M s = Some 2%nat.
Proof.
  cbv zeta. split; [repeat constructor|]. split; [constructor|].
  assert (Sw : schedule 2 [1; 0]%nat) by (apply perm_swap).
  split; [|split; [repeat constructor|]].
  - cbn [mvalid_all mvalid length hd]. repeat split; auto; try discriminate; try (cbn; lia); repeat constructor.
    intros _ i Hi. destruct i as [|[|i]]; try reflexivity. cbn in Hi. lia.
  - repeat split. intros i Hi. destruct i as [|[|i]]; try reflexivity. cbn in Hi. lia.
Qed.
