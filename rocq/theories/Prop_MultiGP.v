(** C34: multi-output Gaussian processes. *)
From Coq Require Import Reals List Bool ZArith Lia Lra Permutation.
From Verif Require Import LinAlgModel LinAlg KernelModel KernelSpec KernelFacts GPModel GPSpec GPFacts MeanSpec MeanFacts Prop_GP
  MultiGPModel MultiGPSpec MultiGPFacts.
Import ListNotations.
Open Scope R_scope.

(** ** The schedule of the loop over the outputs is irrelevant: same states, same results *)
Section Schedules.
Variables (K : Kern) (M : Mean).
Theorem C34_compute_schedules od od' g xs ys b g' :
  schedule (length (hd [] ys)) od -> schedule (length (hd [] ys)) od' ->
  mg_compute K M od g xs ys b = Done g' -> mg_compute K M od' g xs ys b = Done g'.
Proof.
  intros S S' E. unfold mg_compute, mg_compute_by in *. destruct xs as [|x0 xs]; [discriminate|]. destruct ys as [|y0 ys]; [discriminate|].
  cbn [hd] in S, S'. apply check_done in E. destruct E as [E1 E]. rewrite E1. cbv zeta in *. cbn [check].
  destruct (if onat_eqb (mg_dout K M g) (length y0) then (mg_dout K M g, mg_m K M g) else (Some (length y0), m_new M (length y0))) as [dout m].
  apply check_done in E. destruct E as [E2 E]. rewrite E2. cbn [check].
  apply check_done in E. destruct E as [E3 E]. rewrite E3. cbn [check].
  apply bind_done in E. destruct E as (l & E4 & E5). rewrite (par_each_schedules _ (length y0) od od' _ l S S'); auto.
  destruct (length (mg_gps K M g) =? length y0)%nat eqn:El; [now apply Nat.eqb_eq|apply repeat_length].
Qed.
Theorem C34_add_schedules j1 j2 od od' g x y g' :
  mg_gps K M g = [] \/ length (mg_gps K M g) = oget (mg_dout K M g) ->
  schedule (length y) od -> schedule (length y) od' ->
  mg_add_sample K M j1 j2 od g x y = Done g' -> mg_add_sample K M j1 j2 od' g x y = Done g'.
Proof.
  intros Hg S S' E. unfold mg_add_sample, mg_add_sample_by in *. cbv zeta in *.
  match type of E with check (_ && _ && forallb _ (mg_obs _ _ ?t ++ _)) _ = _ => set (g1 := t) in * end.
  apply check_done in E. destruct E as [E1 E]. rewrite E1. cbn [check].
  apply check_done in E. destruct E as [E2 E]. rewrite E2. cbn [check].
  apply bind_done in E. destruct E as (l & E4 & E5). rewrite (par_each_schedules _ (length y) od od' _ l S S'); auto.
  cbn [mg_gps]. apply andb_prop in E1. destruct E1 as [E1 _]. apply andb_prop in E1. destruct E1 as [_ E1]. apply onat_eqb_spec in E1.
  apply andb_prop in E2. destruct E2 as [E2 _]. apply Nat.ltb_lt in E2. cbn [mg_dout] in E2. rewrite E1 in E2. cbn [oget] in E2.
  unfold g1 in *. destruct (mg_gps K M g) as [|a gs] eqn:Eg.
  - destruct (onat_eqb (mg_dout K M g) (length y)) eqn:Eo; cbn [mg_gps mg_dout] in *; [|apply repeat_length].
    exfalso. apply (f_equal (@length _)) in Eg. cbn in E4.
    destruct (schedule_facts _ _ S) as (_ & I & _). destruct od as [|i od]; [|simpl in E4; destruct i; discriminate].
    apply (I O). exact E2.
  - destruct Hg as [Hg|Hg]; [discriminate|]. rewrite Eg. rewrite E1 in Hg. exact Hg.
Qed.
Theorem C34_recompute_schedules od od' g a b g' :
  length (mg_gps K M g) = oget (mg_dout K M g) -> Forall (fun y => length y = oget (mg_dout K M g)) (mg_obs K M g) ->
  schedule (oget (mg_dout K M g)) od -> schedule (oget (mg_dout K M g)) od' ->
  mg_recompute K M od g a b = Done g' -> mg_recompute K M od' g a b = Done g'.
Proof.
  intros Hg Hr S S' E. unfold mg_recompute, mg_recompute_by in *. destruct (mg_gps K M g) as [|a0 gs] eqn:Eg; auto. destruct a.
  - destruct (mg_obs K M g) as [|y0 ys] eqn:Ey; [unfold mg_compute, mg_compute_by in E; destruct (g_samples K NullFunction a0); discriminate|].
    inversion Hr as [|? ? H1 H2]. apply (C34_compute_schedules od od'); auto; cbn [hd]; now rewrite H1.
  - apply bind_done in E. destruct E as (l & E4 & E5). rewrite (par_each_schedules _ _ od od' _ l S S'); auto.
Qed.
Theorem C34_query_schedules junk junk' od od' g v r :
  schedule (oget (mg_dout K M g)) od -> schedule (oget (mg_dout K M g)) od' ->
  mg_query K M junk od g v = Done r -> mg_query K M junk' od' g v = Done r.
Proof.
  intros S S' E. unfold mg_query in *. destruct (mg_dout K M g) as [p|]; [|discriminate]. cbn [oget] in *.
  apply check_done in E. destruct E as [E1 E]. rewrite E1. cbn [check]. apply bind_done in E. destruct E as (l & E4 & E5).
  destruct (par_each_spec _ junk p od _ l S (repeat_length _ _) E4) as (L & H).
  match goal with |- bind (par_each od' ?f _) _ = _ => destruct (par_each_progress f junk p od' (repeat junk' p) S' (repeat_length _ _)) as (l' & E') end.
  { intros i Hi. exists (nth i l junk). exact (H i Hi). }
  rewrite E'. cbn [bind]. destruct (par_each_spec _ junk p od' _ l' S' (repeat_length _ _) E') as (L' & H').
  assert (l' = l) as ->; [|exact E5]. apply nth_ext with junk junk; [congruence|]. intros i Hi.
  specialize (H i ltac:(lia)). specialize (H' i ltac:(lia)). cbv beta in H, H'. congruence.
Qed.
End Schedules.

(** ** Predictions *)
Section Predictions.
Variables (K : Kern) (M : Mean).
Variable KO : KernOK K.
Variable MO : MeanOK M.
Notation minv := (minv K M KO MO).

(** the residual of sample [b] for output [i], according to the mean values that were subtracted *)
Definition left_over (s : msp K M) (i b : nat) : R := y_ (q_ys K M s) b i - y_ (q_off K M s) b i.
Definition out_var (s : msp K M) (B : nat -> nat -> R) (v : vec) (i : nat) : R :=
  clamp (post_var K (q_kernel K M s i) (q_xs K M s) B v) + k_noise K (q_kernel K M s i).

Lemma null_post k xs ys B v : Forall (fun y => length y = 1%nat) ys ->
  post_mean K NullFunction k (m_new NullFunction 1) xs ys 1 B v 0 =
  rsum (length xs) (fun a => rsum (length xs) (fun b => cov K k xs v a * B a b * y_ ys b 0)).
Proof.
  intros _. unfold post_mean, resid, prior_mean. cbn [NullFunction m_val m_new repeat]. unfold vget. cbn [nth].
  rewrite Rplus_0_l. apply rsum_ext. intros a Ha. apply rsum_ext. intros b Hb. now rewrite Rminus_0_r.
Qed.
Lemma y_sub ys off i b : length off = length ys -> (b < length ys)%nat -> y_ (sub_ys ys off i) b 0 = y_ ys b i - y_ off b i.
Proof.
  intros L H. unfold y_, sub_ys.
  assert (E : nth b (map (fun yo : vec * vec => [vget (fst yo) i - vget (snd yo) i]) (combine ys off)) [] =
    [vget (fst (nth b (combine ys off) ([], []))) i - vget (snd (nth b (combine ys off) ([], []))) i])
    by (apply (nth_map_dflt (fun yo : vec * vec => [vget (fst yo) i - vget (snd yo) i])); rewrite combine_length; lia).
  apply (f_equal (fun w => vget w 0)) in E. etransitivity; [exact E|]. rewrite combine_nth by auto. reflexivity.
Qed.
Lemma outputs g s v : minv g s -> q_xs K M s <> [] -> up_to_date K M s -> q_din K M s = Some (length v) ->
  (0 < oget (q_dout K M s))%nat ->
  forall B, (forall i, (i < oget (q_dout K M s))%nat -> is_inv (length (q_xs K M s)) (gram K (q_kernel K M s i) (q_xs K M s)) (B i)) ->
  forall od junk, schedule (oget (q_dout K M s)) od ->
  let m := vec_of (oget (q_dout K M s)) (fun i => out_mean K M s (left_over s i) (B i) v i) in
  let va := vec_of (oget (q_dout K M s)) (fun i => out_var s (B i) v i) in
  mg_query K M junk od g v = Done (m, va) /\ mg_mu K M (fst junk) od g v = Done m /\ mg_sigma K M (snd junk) od g v = Done va.
Proof.
  intros I Hx Hu Hd P0 B HB od junk Sc m va. pose proof (mean_at_len K M KO MO g s v I P0) as Hl.
  assert (Hin : forall i, (i < oget (q_dout K M s))%nat -> exists a, nth_error (mg_gps K M g) i = Some a /\
     mu K NullFunction a v = Done [rsum (length (q_xs K M s)) (fun x => rsum (length (q_xs K M s)) (fun b =>
        cov K (q_kernel K M s i) (q_xs K M s) v x * B i x b * left_over s i b))] /\
     sigma K NullFunction a v = Done (out_var s (B i) v i) /\
     query K NullFunction a v = Done ([rsum (length (q_xs K M s)) (fun x => rsum (length (q_xs K M s)) (fun b =>
        cov K (q_kernel K M s i) (q_xs K M s) v x * B i x b * left_over s i b))], out_var s (B i) v i)).
  { intros i Hi. assert (Hk : (i < length (q_ks K M s))%nat) by now rewrite (i_p _ _ _ _ _ _ I).
    exists (nth i (mg_gps K M g) (gdef K)). split; [apply nth_error_nth'; now rewrite (i_gps _ _ _ _ _ _ I)|].
    pose proof (i_inner _ _ _ _ _ _ I i Hk) as Ii.
    destruct (predict K NullFunction KO NO _ (sub K M s i) v (inv_linv _ _ _ _ _ _ Ii) (inv_alpha _ _ _ _ _ _ Ii) Hx (Hu i Hk) eq_refl Hd) as (_ & H).
    specialize (H (B i) (HB i Hi)).
    assert (E1 : predicts_mean K NullFunction (sub K M s i) (B i) v = [rsum (length (q_xs K M s)) (fun x => rsum (length (q_xs K M s)) (fun b =>
        cov K (q_kernel K M s i) (q_xs K M s) v x * B i x b * left_over s i b))]).
    { unfold predicts_mean. cbn [sub s_dout oget s_k s_m s_xs s_ys]. unfold vec_of. cbn [seq map]. f_equal.
      rewrite null_post.
      - apply rsum_ext. intros a Ha. apply rsum_ext. intros b Hb. f_equal. unfold left_over. apply y_sub; [apply I|]. rewrite <- (i_lx _ _ _ _ _ _ I). exact Hb.
      - apply Forall_forall. intros w Hw. unfold sub_ys in Hw. apply in_map_iff in Hw. destruct Hw as (? & <- & _). reflexivity. }
    rewrite E1 in H. exact H. }
  assert (Hy : q_ys K M s <> []) by (intro H; pose proof (i_lx _ _ _ _ _ _ I) as L; rewrite H in L; destruct (q_xs K M s); [congruence|discriminate]).
  assert (Hat : forall i, vget (mg_mean_at K M g v) i = prior_mean M (q_m K M s) (q_ys K M s) (oget (q_dout K M s)) v i).
  { intro i. unfold mg_mean_at, prior_mean, mg_mean_observation. rewrite (i_m _ _ _ _ _ _ I), (i_obs _ _ _ _ _ _ I).
    destruct (q_ys K M s) as [|y0 ys0] eqn:E; [congruence|]. rewrite <- E in *. now rewrite (i_mean _ _ _ _ _ _ I) by congruence. }
  destruct (q_dout K M s) as [p|] eqn:Ep; [|simpl in P0; lia]. cbn [oget] in *.
  assert (Hdp : mg_dout_pos K M g = true) by (unfold mg_dout_pos; rewrite (i_dout _ _ _ _ _ _ I), Ep; now apply Nat.ltb_lt).
  assert (Hl' : (length (mg_mean_at K M g v) =? p)%nat = true) by now apply Nat.eqb_eq.
  split; [|split].
  - unfold mg_query. rewrite (i_dout _ _ _ _ _ _ I), Ep, Hdp, Hl'. cbn [andb check].
    match goal with |- bind (par_each od ?f _) _ = _ => destruct (par_each_progress f junk p od (repeat junk p) Sc (repeat_length _ _)) as (l & E) end.
    { intros i Hi. destruct (Hin i Hi) as (a & -> & _ & _ & ->). cbn. eexists. reflexivity. }
    rewrite E. cbn [bind]. destruct (par_each_spec _ junk p od _ l Sc (repeat_length _ _) E) as (L & H).
    assert (Hnth : forall i, (i < p)%nat -> nth i l junk = (out_mean K M s (left_over s i) (B i) v i, out_var s (B i) v i)).
    { intros i Hi. specialize (H i Hi). cbv beta in H. destruct (Hin i Hi) as (a & Ea & _ & _ & Eq). rewrite Ea, Eq in H.
      cbn [bind fst snd length Nat.ltb Nat.leb check] in H. apply (f_equal (fun o => match o with Done x => x | _ => junk end)) in H. cbv beta iota in H.
      rewrite <- H. f_equal. unfold out_mean. rewrite Ep. cbn [oget]. rewrite Hat. unfold vget at 1. cbn [nth]. apply Rplus_comm. }
    f_equal. f_equal; apply nth_ext with 0 0; rewrite ?map_length; unfold m, va; rewrite ?vec_of_length; auto; intros i Hi; rewrite L in Hi;
      rewrite (nth_map_dflt _ _ _ junk) by lia; rewrite Hnth by auto; cbn [fst snd]; symmetry;
      first [exact (vget_vec_of p (fun i => out_mean K M s (left_over s i) (B i) v i) i Hi)|exact (vget_vec_of p (fun i => out_var s (B i) v i) i Hi)].
  - unfold mg_mu. rewrite (i_dout _ _ _ _ _ _ I), Ep, Hdp, Hl'. cbn [andb check].
    match goal with |- par_each od ?f _ = _ => destruct (par_each_progress f 0 p od (repeat (fst junk) p) Sc (repeat_length _ _)) as (l & E) end.
    { intros i Hi. destruct (Hin i Hi) as (a & -> & -> & _ & _). cbn. eexists. reflexivity. }
    rewrite E. destruct (par_each_spec _ 0 p od _ l Sc (repeat_length _ _) E) as (L & H). f_equal.
    apply nth_ext with 0 0; unfold m; rewrite ?vec_of_length; auto. intros i Hi. rewrite L in Hi. fold (vget (vec_of p (fun i => out_mean K M s (left_over s i) (B i) v i)) i).
    rewrite vget_vec_of by auto. specialize (H i Hi). cbv beta in H. destruct (Hin i Hi) as (a & Ea & Em & _ & _). rewrite Ea, Em in H.
    cbn [bind fst snd length Nat.ltb Nat.leb check] in H. apply (f_equal (fun o => match o with Done x => x | _ => 0 end)) in H. cbv beta iota in H.
    rewrite <- H. unfold out_mean. rewrite Ep. cbn [oget]. rewrite Hat. unfold vget at 1. cbn [nth]. apply Rplus_comm.
  - unfold mg_sigma. rewrite (i_dout _ _ _ _ _ _ I), Ep.
    match goal with |- par_each od ?f _ = _ => destruct (par_each_progress f 0 p od (repeat (snd junk) p) Sc (repeat_length _ _)) as (l & E) end.
    { intros i Hi. destruct (Hin i Hi) as (a & -> & _ & -> & _). eexists. reflexivity. }
    rewrite E. destruct (par_each_spec _ 0 p od _ l Sc (repeat_length _ _) E) as (L & H). f_equal.
    apply nth_ext with 0 0; unfold va; rewrite ?vec_of_length; auto. intros i Hi. rewrite L in Hi. fold (vget (vec_of p (fun i => out_var s (B i) v i)) i).
    rewrite vget_vec_of by auto. specialize (H i Hi). cbv beta in H. destruct (Hin i Hi) as (a & Ea & _ & Es & _). rewrite Ea, Es in H.
    apply (f_equal (fun o => match o with Done x => x | _ => 0 end)) in H. cbv beta iota in H. auto.
Qed.
Lemma inverses g s : minv g s -> q_xs K M s <> [] -> forall i, (i < oget (q_dout K M s))%nat ->
  exists B, is_inv (length (q_xs K M s)) (gram K (q_kernel K M s i) (q_xs K M s)) B.
Proof.
  intros I Hx i Hi. assert (Hk : (i < length (q_ks K M s))%nat) by now rewrite (i_p _ _ _ _ _ _ I).
  pose proof (i_inner _ _ _ _ _ _ I i Hk) as Ii. destruct (v_nonempty _ _ _ _ _ _ Ii Hx) as ((d & Ed & D0 & Fd) & _).
  cbn [sub s_xs s_din] in Ed, Fd. pose proof (v_kok _ _ _ _ _ _ Ii d Ed) as Hok. cbn [sub s_k] in Hok.
  pose proof (gram_symm K KO d _ _ Hok Fd) as Hs. pose proof (gram_pd K KO d _ _ Hok Fd) as Hp.
  destruct (chol_succeeds _ _ Hs Hp) as (L & HL). exists (inv_of (length (q_xs K M s)) L). apply inv_of_is_inv. now apply chol_is_chol.
Qed.
End Predictions.
