(** Invariant of the MultiGP: every inner GP is in the state its own history leads to. *)
From Coq Require Import Reals List Bool ZArith Lia Lra Permutation.
From Verif Require Import LinAlgModel LinAlg KernelModel GPModel GPSpec GPFacts MeanSpec MeanFacts MultiGPModel MultiGPSpec.
Import ListNotations.
Open Scope R_scope.

(** ** The parallel loop *)
Lemma lput_length {A} i (a : A) l : (i < length l)%nat -> length (lput i a l) = length l.
Proof. intro H. unfold lput. rewrite app_length, firstn_length. cbn [length]. rewrite skipn_length. lia. Qed.
Lemma lput_same {A} i (a d : A) l : (i < length l)%nat -> nth i (lput i a l) d = a.
Proof. intro H. unfold lput. rewrite app_nth2; rewrite firstn_length_le by lia; [|lia]. now rewrite Nat.sub_diag. Qed.
Lemma lput_other {A} i j (a d : A) l : (i < length l)%nat -> j <> i -> nth j (lput i a l) d = nth j l d.
Proof.
  intros H Hj. unfold lput. destruct (Nat.lt_ge_cases j i) as [L|L].
  - rewrite app_nth1 by (rewrite firstn_length_le; lia). revert i H Hj L. revert j.
    induction l as [|b l IH]; intros j i H Hj L; [simpl in H; lia|]. destruct i; [lia|]. destruct j; simpl; auto.
    apply IH; simpl in H; lia.
  - rewrite app_nth2 by (rewrite firstn_length_le; lia). rewrite firstn_length_le by lia.
    destruct (j - i)%nat as [|q] eqn:E; [lia|]. cbn [nth]. rewrite <- (firstn_skipn (S i) l) at 2.
    rewrite app_nth2 by (rewrite firstn_length_le; lia). rewrite firstn_length_le by lia. f_equal. lia.
Qed.
Lemma par_each_fwd {A} (f : nat -> A -> outcome A) (d : A) od : forall l l', NoDup od -> Forall (fun i => (i < length l)%nat) od ->
  par_each od f l = Done l' ->
  length l' = length l /\ (forall i, In i od -> f i (nth i l d) = Done (nth i l' d)) /\ (forall i, ~ In i od -> nth i l' d = nth i l d).
Proof.
  induction od as [|i od IH]; intros l l' N Hl E.
  - inversion E. subst. repeat split; auto. intros ? [].
  - inversion N as [|? ? Hi N']. inversion Hl as [|? ? Hil Hl']. subst. simpl in E.
    rewrite (nth_error_nth' l d Hil) in E. apply bind_done in E. destruct E as (a' & E1 & E2).
    assert (Hlen : length (lput i a' l) = length l) by now apply lput_length.
    destruct (IH (lput i a' l) l' N') as (I1 & I2 & I3); auto.
    { eapply Forall_impl; [|exact Hl']. simpl. intros. rewrite Hlen. assumption. }
    repeat split.
    + congruence.
    + intros j [->|Hj].
      * rewrite I3 by auto. now rewrite lput_same.
      * assert (j <> i) by congruence. rewrite <- (I2 j Hj). now rewrite lput_other.
    + intros j Hj. rewrite I3 by (intro; apply Hj; now right). apply lput_other; auto. intro; apply Hj; now left.
Qed.
Lemma par_each_bwd {A} (f : nat -> A -> outcome A) (d : A) od : forall l, NoDup od -> Forall (fun i => (i < length l)%nat) od ->
  (forall i, In i od -> exists b, f i (nth i l d) = Done b) -> exists l', par_each od f l = Done l'.
Proof.
  induction od as [|i od IH]; intros l N Hl H; [exists l; reflexivity|].
  inversion N as [|? ? Hi N']. inversion Hl as [|? ? Hil Hl']. subst.
  destruct (H i (or_introl eq_refl)) as (a' & E). simpl. rewrite (nth_error_nth' l d Hil), E. simpl.
  assert (Hlen : length (lput i a' l) = length l) by now apply lput_length.
  apply IH; auto.
  - eapply Forall_impl; [|exact Hl']. simpl. intros. rewrite Hlen. assumption.
  - intros j Hj. assert (j <> i) by congruence. rewrite lput_other by auto. apply H. now right.
Qed.
Lemma schedule_facts n od : schedule n od -> NoDup od /\ (forall i, In i od <-> (i < n)%nat) /\ Forall (fun i => (i < n)%nat) od.
Proof.
  intro H. assert (A : forall i, In i od <-> (i < n)%nat).
  { intro i. split; intro Hi.
    - apply Permutation_sym in H. apply (Permutation_in _ H) in Hi. apply in_seq in Hi. lia.
    - apply (Permutation_in _ H). apply in_seq. lia. }
  repeat split; try apply A; auto.
  - eapply Permutation_NoDup; [exact H|apply seq_NoDup].
  - apply Forall_forall. intros i Hi. now apply A.
Qed.
Lemma par_each_spec {A} (f : nat -> A -> outcome A) (d : A) n od l l' : schedule n od -> length l = n ->
  par_each od f l = Done l' -> length l' = n /\ forall i, (i < n)%nat -> f i (nth i l d) = Done (nth i l' d).
Proof.
  intros S L E. destruct (schedule_facts n od S) as (N & I & Fo). subst n.
  destruct (par_each_fwd f d od l l' N Fo E) as (A1 & A2 & _). split; auto. intros i Hi. apply A2, I, Hi.
Qed.
Lemma par_each_progress {A} (f : nat -> A -> outcome A) (d : A) n od l : schedule n od -> length l = n ->
  (forall i, (i < n)%nat -> exists b, f i (nth i l d) = Done b) -> exists l', par_each od f l = Done l'.
Proof.
  intros S L H. destruct (schedule_facts n od S) as (N & I & Fo). subst n. apply (par_each_bwd f d); auto.
  intros i Hi. apply H, I, Hi.
Qed.
(** the result does not depend on the schedule *)
Lemma par_each_schedules {A} (f : nat -> A -> outcome A) n od od' l l' : schedule n od -> schedule n od' -> length l = n ->
  par_each od f l = Done l' -> par_each od' f l = Done l'.
Proof.
  intros S S' L E. destruct l as [|d0 l0].
  - simpl in L. subst n. unfold schedule in *. simpl in *. apply Permutation_nil in S. apply Permutation_nil in S'. subst. exact E.
  - set (l := d0 :: l0) in *. destruct (par_each_spec f d0 n od l l' S L E) as (L1 & H1).
    destruct (par_each_progress f d0 n od' l S' L) as (l2 & E2).
    { intros i Hi. exists (nth i l' d0). apply H1, Hi. }
    rewrite E2. f_equal. destruct (par_each_spec f d0 n od' l l2 S' L E2) as (L2 & H2).
    apply nth_ext with d0 d0; [congruence|]. intros i Hi. specialize (H1 i ltac:(lia)). specialize (H2 i ltac:(lia)). congruence.
Qed.

(** ** The average of the observations *)
Lemma vget_repeat i n : vget (repeat 0 n) i = 0.
Proof. unfold vget. revert i. induction n; destruct i; simpl; auto. Qed.
Lemma average_is_data_mean ys p : average p ys = data_mean ys p.
Proof.
  unfold average, data_mean. cbv zeta. apply vec_of_ext. intros i Hi. f_equal.
  assert (G : forall l acc f, (vget acc i = f) ->
    vget (fold_left (fun acc o => vec_of p (fun i => vget acc i + vget o i)) l acc) i = f + rsum (length l) (fun q => y_ l q i)).
  { induction l as [|y l IH]; intros acc f Hf; cbn [fold_left length].
    - simpl. lra.
    - rewrite (IH _ (f + vget y i)); [|rewrite vget_vec_of by auto; now rewrite Hf].
      assert (E : forall m h, rsum (S m) h = h O + rsum m (fun q => h (S q))).
      { induction m; intro h; [simpl; lra|]. cbn [rsum] in *. rewrite IHm. lra. }
      rewrite E. unfold y_ at 2. simpl (nth 0 _ _). rewrite Rplus_assoc. f_equal. }
  rewrite (G ys (repeat 0 p) 0); [lra|]. apply vget_repeat.
Qed.

Section Facts.
Variables (K : Kern) (M : Mean).
Variable KO : KernOK K.
Variable MO : MeanOK M.
Notation Nu := NullFunction.
Definition NO : MeanOK Nu := RT_OK _ null_RT.
Notation mgp := (mgp K M). Notation msp := (msp K M). Notation gp1 := (gp1 K).
Definition gdef : gp1 := gp_default K Nu.

(** the history of the inner GP of output [i]: its data are the residuals *)
Definition sub_ys (ys off : list vec) (i : nat) : list vec := map (fun yo => [vget (fst yo) i - vget (snd yo) i]) (combine ys off).
Definition sub (s : msp) (i : nat) : sp K Nu := {|
  s_din := q_din K M s; s_dout := Some 1%nat; s_k := q_kernel K M s i; s_m := m_new Nu 1;
  s_xs := q_xs K M s; s_ys := sub_ys (q_ys K M s) (q_off K M s) i; s_dk := q_stale K M s i; s_dm := false |}.

Record minv (g : mgp) (s : msp) : Prop := {
  i_din : mg_din K M g = q_din K M s;
  i_dout : mg_dout K M g = q_dout K M s;
  i_m : mg_m K M g = q_m K M s;
  i_obs : mg_obs K M g = q_ys K M s;
  i_gps : length (mg_gps K M g) = length (q_ks K M s);
  i_p : length (q_ks K M s) = oget (q_dout K M s);
  i_inner : forall i, (i < length (q_ks K M s))%nat -> inv K Nu KO NO (nth i (mg_gps K M g) gdef) (sub s i);
  i_mok : forall p, q_dout K M s = Some p -> mok MO p (q_m K M s);
  i_lx : length (q_xs K M s) = length (q_ys K M s);
  i_lo : length (q_off K M s) = length (q_ys K M s);
  i_rect : Forall (fun y => length y = oget (q_dout K M s)) (q_ys K M s);
  i_pos : q_ys K M s <> [] -> (0 < oget (q_dout K M s))%nat;
  i_mean : q_ys K M s <> [] -> mg_mean_obs K M g = data_mean (q_ys K M s) (oget (q_dout K M s))
}.

(** the same for a MultiGP just loaded: the inner GPs satisfy [linv] only *)
Record mlinv (g : mgp) (s : msp) : Prop := {
  l_din : mg_din K M g = q_din K M s;
  l_dout : mg_dout K M g = q_dout K M s;
  l_m : mg_m K M g = q_m K M s;
  l_obs : mg_obs K M g = q_ys K M s;
  l_gps : length (mg_gps K M g) = length (q_ks K M s);
  l_p : length (q_ks K M s) = oget (q_dout K M s);
  l_inner : forall i, (i < length (q_ks K M s))%nat -> linv K Nu KO NO (nth i (mg_gps K M g) gdef) (sub s i);
  l_mok : forall p, q_dout K M s = Some p -> mok MO p (q_m K M s)
}.
Lemma minv_mlinv g s : minv g s -> mlinv g s.
Proof. destruct 1. constructor; auto. intros. apply inv_linv. auto. Qed.

Lemma sub_ys_length ys off i : length off = length ys -> length (sub_ys ys off i) = length ys.
Proof. intro H. unfold sub_ys. rewrite map_length, combine_length. lia. Qed.

Lemma fresh_minv g s : mfresh K M g s -> minv g s.
Proof.
  destruct 1 as [|d p]; constructor; cbn; auto; try congruence; try (intros; lia).
  - unfold new_gps. now rewrite !repeat_length.
  - now rewrite repeat_length.
  - intros i Hi. rewrite repeat_length in Hi.
    assert (E1 : nth i (new_gps K d p) gdef = gp_new K Nu d 1).
    { unfold new_gps. apply (repeat_spec p). apply nth_In. now rewrite repeat_length. }
    rewrite E1. assert (E2 : sub (q_new K M d p) i = s_new K Nu d 1).
    { unfold sub, s_new, q_kernel, q_stale. cbn.
      assert (E3 : nth i (repeat (k_new K d, false) p) (k_new K 1, false) = (k_new K d, false))
        by (apply (repeat_spec p); apply nth_In; now rewrite repeat_length).
      now rewrite E3. }
    rewrite E2. apply fresh_inv. constructor.
  - intros q Hq. inversion Hq. apply mok_new.
Qed.

Lemma mean_at_len g s v : minv g s -> (0 < oget (q_dout K M s))%nat -> length (mg_mean_at K M g v) = oget (q_dout K M s).
Proof.
  intros I P0. unfold mg_mean_at. destruct (q_dout K M s) as [p|] eqn:Ep; [|simpl in P0; lia]. cbn [oget].
  apply (mok_len MO p).
  - rewrite (i_m _ _ I). now apply (i_mok _ _ I).
  - unfold mg_mean_observation. rewrite (i_obs _ _ I), (i_dout _ _ I), Ep. cbn [oget].
    destruct (q_ys K M s) eqn:Ey; [apply repeat_length|]. rewrite (i_mean _ _ I) by congruence. rewrite Ep.
    apply data_mean_length.
Qed.

(** ** compute *)
Lemma nth_map_dflt {A B} (f : A -> B) l i (d : A) (d' : B) : (i < length l)%nat -> nth i (map f l) d' = f (nth i l d).
Proof. intro H. rewrite (nth_indep _ d' (f d)) by now rewrite map_length. apply map_nth. Qed.
Lemma nth_repeat_lt {A} (a d : A) n i : (i < n)%nat -> nth i (repeat a n) d = a.
Proof. intro H. apply (repeat_spec n). apply nth_In. now rewrite repeat_length. Qed.
Lemma forallb_len p l : forallb (fun o : vec => (length o =? p)%nat) l = true <-> Forall (fun o => length o = p) l.
Proof.
  rewrite forallb_forall, Forall_forall. split; intros H x Hx; [apply Nat.eqb_eq|apply Nat.eqb_eq]; auto.
Qed.
Lemma combine_map_r {A B C} (f : A -> B) (h : C * B -> vec) xs (ys : list C) :
  map (fun so => h (snd so, f (fst so))) (combine xs ys) = map h (combine ys (map f xs)).
Proof. revert ys. induction xs as [|x xs IH]; intros [|y ys]; simpl; auto. now rewrite IH. Qed.

(** what [mg_compute] does to the arguments: used for compute and recompute *)
Lemma compute_mlinv od g s xs ys b g' : mlinv g s -> schedule (length (hd [] ys)) od ->
  mg_compute K M od g xs ys b = Done g' -> minv g' (q_compute K M s xs ys b).
Proof.
  intros I Sc E. unfold mg_compute, mg_compute_by in E. destruct xs as [|s0 xs']; [discriminate|]. destruct ys as [|o0 ys']; [discriminate|].
  set (xs := s0 :: xs') in *. set (ys := o0 :: ys') in *. 
  assert (Hys : ys <> []) by discriminate. assert (Hxs : xs <> []) by discriminate.
  assert (Hhx : hd [] xs = s0) by reflexivity. assert (Hhy : hd [] ys = o0) by reflexivity. clearbody xs ys.
  apply check_done in E. destruct E as [Hlen E]. apply Nat.eqb_eq in Hlen. cbv zeta in E.
  rewrite Hhy in Sc. set (p := length o0) in *. rewrite (l_dout _ _ I) in E.
  set (m := if same (q_dout K M s) p then q_m K M s else m_new M p).
  assert (Hm : (if onat_eqb (q_dout K M s) p then (q_dout K M s, mg_m K M g) else (Some p, m_new M p)) = (Some p, m)).
  { unfold m. change (same (q_dout K M s) p) with (onat_eqb (q_dout K M s) p). destruct (onat_eqb (q_dout K M s) p) eqn:Eo; auto.
    apply onat_eqb_spec in Eo. rewrite Eo, (l_m _ _ I). reflexivity. }
  rewrite Hm in E. cbv beta iota in E. apply check_done in E. destruct E as [Hrect E]. apply forallb_len in Hrect.
  apply check_done in E. destruct E as [Hpos E]. apply andb_prop in Hpos. destruct Hpos as [Hpos Hml].
  cbn [mg_dout_pos mg_dout oget] in Hpos. apply Nat.ltb_lt in Hpos. cbn [oget mg_dout] in Hpos.
  apply bind_done in E. destruct E as (gps' & E1 & E2). inversion E2. clear E2. subst g'.
  set (gps := if (length (mg_gps K M g) =? p)%nat then mg_gps K M g else new_gps K (length s0) p) in *.
  assert (Lg : length gps = p).
  { unfold gps. destruct (length (mg_gps K M g) =? p)%nat eqn:El; [now apply Nat.eqb_eq|]. apply repeat_length. }
  cbn [mg_din mg_dout mg_m mg_obs mg_mean_obs] in *.
  destruct (par_each_spec _ gdef p od gps gps' Sc Lg E1) as (L' & H'). clear E1.
  assert (Es' : q_compute K M s xs ys b = {| q_din := Some (length s0); q_dout := Some p;
     q_ks := if same (q_dout K M s) p then map (fun k => (if same (q_din K M s) (length s0) then fst k else k_new K (length s0), negb b)) (q_ks K M s)
             else repeat (k_new K (length s0), negb b) p;
     q_m := m; q_xs := xs; q_ys := ys; q_off := map (fun x => m_val M m x (data_mean ys p)) xs |})
    by (unfold q_compute; rewrite Hhx, Hhy; reflexivity).
  rewrite Es'. match goal with |- minv _ ?t => set (s' := t) end.
  assert (Ep : (length (mg_gps K M g) =? p)%nat = same (q_dout K M s) p).
  { rewrite (l_gps _ _ I), (l_p _ _ I). destruct (q_dout K M s) as [q|]; cbn [oget same]; auto. apply Nat.eqb_neq. lia. }
  assert (Lk : length (q_ks K M s') = p).
  { unfold s'. cbn [q_ks]. rewrite <- Ep. destruct (length (mg_gps K M g) =? p)%nat eqn:El.
    - rewrite map_length, <- (l_gps _ _ I). now apply Nat.eqb_eq.
    - apply repeat_length. }
  assert (Hmo : mok MO p m).
  { unfold m. destruct (same (q_dout K M s) p) eqn:Es; [|apply mok_new]. change (onat_eqb (q_dout K M s) p = true) in Es.
    apply onat_eqb_spec in Es. now apply (l_mok _ _ I). }
  constructor; try exact Lk; try (rewrite Lk); unfold s'; cbn [mg_din mg_dout mg_m mg_obs mg_gps mg_mean_obs q_din q_dout q_m q_ys q_xs q_off]; auto.
  - intros i Hi.
    specialize (H' i Hi). cbv beta in H'.
    match type of H' with compute _ _ _ _ ?o _ = _ => assert (Eo : o = sub_ys ys (map (fun x => m_val M m x (data_mean ys p)) xs) i) end.
    { unfold sub_ys. rewrite <- (combine_map_r (fun x => m_val M m x (data_mean ys p)) (fun yo => [vget (fst yo) i - vget (snd yo) i])).
      cbn [fst snd]. apply map_ext. intros [x y]. cbn [fst snd]. unfold mg_mean_at. cbn [mg_m].
      unfold mg_mean_observation. cbn [mg_obs mg_mean_obs]. destruct ys; [congruence|]. now rewrite average_is_data_mean. }
    rewrite Eo in H'. clear Eo.
    set (si := if (length (mg_gps K M g) =? p)%nat then sub s i else s_new K Nu (length s0) 1).
    assert (Ii : linv K Nu KO NO (nth i gps gdef) si).
    { unfold gps, si. destruct (length (mg_gps K M g) =? p)%nat eqn:El.
      - apply (l_inner _ _ I). apply Nat.eqb_eq in El. rewrite <- (l_gps _ _ I). lia.
      - unfold new_gps. rewrite nth_repeat_lt by auto. apply inv_linv, fresh_inv. constructor. }
    pose proof (comp_inv K Nu KO NO _ si xs (sub_ys ys (map (fun x => m_val M m x (data_mean ys p)) xs) i) b _ Ii H') as J.
    match goal with |- inv _ _ _ _ _ ?t => replace t with (s_step K Nu si (Compute xs (sub_ys ys (map (fun x => m_val M m x (data_mean ys p)) xs) i) b)) end; [exact J|].
    assert (L1 : length (hd [] (sub_ys ys (map (fun x => m_val M m x (data_mean ys p)) xs) i)) = 1%nat).
    { destruct ys; [congruence|]. destruct xs; [congruence|]. reflexivity. }
    unfold s_step. cbv zeta. rewrite L1, Hhx. unfold sub, q_kernel, q_stale. cbn [q_din q_dout q_ks q_m q_xs q_ys q_off].
    unfold si. rewrite Ep. destruct (same (q_dout K M s) p) eqn:Es.
    + assert (Hi' : (i < length (q_ks K M s))%nat) by (rewrite <- (l_gps _ _ I); apply Nat.eqb_eq in Ep; lia).
      rewrite (nth_map_dflt _ _ _ (k_new K 1, false)) by auto. cbn [fst snd sub s_din s_k s_dout s_m same Nat.eqb]. reflexivity.
    + rewrite nth_repeat_lt by auto. cbn [s_new s_din s_k s_dout s_m same Nat.eqb fst snd]. rewrite Nat.eqb_refl. reflexivity.
  - intros q Hq. inversion Hq. now subst.
  - rewrite map_length. congruence.
  - intros _. cbn [oget]. apply average_is_data_mean.
Qed.

Lemma compute_minv od g s xs ys b g' : minv g s -> schedule (length (hd [] ys)) od ->
  mg_compute K M od g xs ys b = Done g' -> minv g' (q_compute K M s xs ys b).
Proof. intro I. apply compute_mlinv. now apply minv_mlinv. Qed.

(** ** add_sample *)
Lemma combine_snoc {A B} (l : list A) (l' : list B) a b : length l = length l' -> combine (l ++ [a]) (l' ++ [b]) = combine l l' ++ [(a, b)].
Proof. revert l'. induction l as [|x l IH]; intros [|y l'] H; simpl in *; auto; try discriminate. f_equal. apply IH. lia. Qed.
Lemma sub_ys_snoc ys off y o i : length off = length ys -> sub_ys (ys ++ [y]) (off ++ [o]) i = sub_ys ys off i ++ [[vget y i - vget o i]].
Proof. intro H. unfold sub_ys. rewrite combine_snoc by auto. now rewrite map_app. Qed.

Lemma add_minv j1 j2 od g s x y g' : minv g s -> schedule (length y) od ->
  mg_add_sample K M j1 j2 od g x y = Done g' -> minv g' (q_step K M s (MAdd j1 j2 od x y)).
Proof.
  intros I Sc E. unfold mg_add_sample, mg_add_sample_by in E. cbv zeta in E. set (p := length y) in *.
  destruct (mg_gps K M g) as [|a0 gs0] eqn:Eg.
  - (* no inner GP yet *)
    assert (Ek : q_ks K M s = []). { apply length_zero_iff_nil. rewrite <- (i_gps _ _ I), Eg. reflexivity. }
    assert (Hp0 : oget (q_dout K M s) = O) by (rewrite <- (i_p _ _ I), Ek; reflexivity).
    destruct (onat_eqb (mg_dout K M g) p) eqn:Eo.
    { cbn [mg_gps mg_din mg_dout mg_m mg_obs mg_mean_obs] in E. apply check_done in E. destruct E as [_ E].
      apply check_done in E. destruct E as [E _]. apply andb_prop in E. destruct E as [E _]. unfold mg_dout_pos in E. cbn [mg_dout] in E.
      apply Nat.ltb_lt in E. rewrite (i_dout _ _ I), Hp0 in E. lia. }
    cbn [mg_gps mg_din mg_dout mg_m mg_obs mg_mean_obs] in E.
    apply check_done in E. destruct E as [Hc E]. apply andb_prop in Hc. destruct Hc as [_ Hr].
    apply check_done in E. destruct E as [Hpos E]. apply andb_prop in Hpos. destruct Hpos as [Hpos _].
    unfold mg_dout_pos in Hpos. cbn [mg_dout oget] in Hpos. apply Nat.ltb_lt in Hpos.
    assert (Ey : q_ys K M s = []).
    { pose proof (i_rect _ _ I) as R0. rewrite Hp0 in R0. apply forallb_len in Hr. apply Forall_app in Hr. destruct Hr as [Hr _].
      rewrite (i_obs _ _ I) in Hr. destruct (q_ys K M s) as [|w ?]; auto. inversion R0. inversion Hr. subst. lia. }
    rewrite (i_obs _ _ I), Ey in E. cbn [app] in E.
    apply bind_done in E. destruct E as (gps' & E1 & E2). inversion E2. clear E2. subst g'.
    destruct (par_each_spec _ gdef p od _ gps' Sc (repeat_length _ _) E1) as (L' & H').
    unfold q_step. rewrite Ek. fold p.
    constructor; cbn [mg_din mg_dout mg_m mg_obs mg_gps mg_mean_obs q_din q_dout q_m q_ys q_xs q_off q_ks oget]; auto.
    + now rewrite repeat_length.
    + apply repeat_length.
    + intros i Hi. rewrite repeat_length in Hi. specialize (H' i Hi). cbv beta in H'.
      unfold new_gps in H'. rewrite nth_repeat_lt in H' by auto.
      pose proof (step_inv K Nu KO NO _ (s_new K Nu (length x) 1) (Add (j1 i) (j2 i) x
         [vget y i - vget (m_val M (m_new M p) x (data_mean [y] p)) i]) (nth i gps' gdef)
         (fresh_inv _ _ _ _ _ _ (fresh_new _ _ _ _))) as J.
      unfold mg_mean_at, mg_mean_observation in H'. cbn [mg_m mg_obs mg_mean_obs] in H'. rewrite average_is_data_mean in H'.
      specialize (J H'). cbn [s_step s_new s_xs s_ys s_din s_dout s_k s_m same app length] in J. rewrite Nat.eqb_refl in J. cbn [Nat.eqb] in J.
      unfold sub, q_kernel, q_stale. cbn [q_din q_dout q_ks q_m q_xs q_ys q_off]. rewrite nth_repeat_lt by auto. exact J.
    + intros q Hq. inversion Hq. apply mok_new.
    + intros _. apply average_is_data_mean.
  - (* the inner GPs exist *)
    assert (Ek : q_ks K M s <> []). { intro H. pose proof (i_gps _ _ I) as G0. rewrite Eg, H in G0. discriminate. }
    apply check_done in E. destruct E as [Hc E]. apply andb_prop in Hc. destruct Hc as [Hd Hr]. apply andb_prop in Hd. destruct Hd as [Hd Ho].
    apply onat_eqb_spec in Hd. apply onat_eqb_spec in Ho. apply forallb_len in Hr.
    apply check_done in E. destruct E as [Hpos E]. apply andb_prop in Hpos. destruct Hpos as [Hpos _].
    rewrite (i_din _ _ I) in Hd. rewrite (i_dout _ _ I) in Ho. cbn [mg_gps] in E.
    assert (Lg : length (mg_gps K M g) = p) by (rewrite (i_gps _ _ I), (i_p _ _ I), Ho; reflexivity).
    apply bind_done in E. destruct E as (gps' & E1 & E2). inversion E2. clear E2. subst g'.
    cbn [mg_din mg_dout mg_m mg_obs mg_mean_obs] in *.
    destruct (par_each_spec _ gdef p od _ gps' Sc Lg E1) as (L' & H'). clear E1.
    set (s' := q_step K M s (MAdd j1 j2 od x y)). unfold q_step in s'. fold p in s'.
    assert (Es' : s' = {| q_din := q_din K M s; q_dout := q_dout K M s;
                q_ks := match q_xs K M s with [] => map (fun k => (fst k, false)) (q_ks K M s) | _ => q_ks K M s end; q_m := q_m K M s;
                q_xs := q_xs K M s ++ [x]; q_ys := q_ys K M s ++ [y];
                q_off := q_off K M s ++ [m_val M (q_m K M s) x (data_mean (q_ys K M s ++ [y]) p)] |}).
    { unfold s'. destruct (q_ks K M s); [congruence|reflexivity]. }
    clearbody s'. subst s'.
    assert (Lk : length (match q_xs K M s with [] => map (fun k => (fst k, false)) (q_ks K M s) | _ => q_ks K M s end) = length (q_ks K M s))
      by (destruct (q_xs K M s); [apply map_length|reflexivity]).
    assert (Hav : average p (mg_obs K M g ++ [y]) = data_mean (q_ys K M s ++ [y]) p) by (rewrite average_is_data_mean, (i_obs _ _ I); reflexivity).
    constructor; cbn [mg_din mg_dout mg_m mg_obs mg_gps mg_mean_obs q_din q_dout q_m q_ys q_xs q_off q_ks oget].
    + apply (i_din _ _ I).
    + apply (i_dout _ _ I).
    + apply (i_m _ _ I).
    + now rewrite (i_obs _ _ I).
    + rewrite Lk, L'. rewrite <- Lg. apply (i_gps _ _ I).
    + rewrite Lk. apply (i_p _ _ I).
    + intros i Hi. rewrite Lk in Hi. assert (Hip : (i < p)%nat) by (rewrite <- Lg, (i_gps _ _ I); auto).
      specialize (H' i Hip). cbv beta in H'. unfold mg_mean_at, mg_mean_observation in H'. cbn [mg_m mg_obs mg_mean_obs] in H'.
      assert (Hap : forall (A : Type) (u w : A), match mg_obs K M g ++ [y] with [] => u | _ => w end = w) by (intros; destruct (mg_obs K M g); reflexivity).
      rewrite Hap, (i_m _ _ I) in H'.
      match type of H' with context [average p ?l] => rewrite (Hav : average p l = _) in H' end.
      pose proof (step_inv K Nu KO NO _ (sub s i) (Add (j1 i) (j2 i) x _) _ (i_inner _ _ I i Hi) H') as J.
      cbn [s_step] in J. unfold sub at 1 in J. cbn [s_xs] in J.
      unfold sub, q_kernel, q_stale. cbn [q_din q_dout q_ks q_m q_xs q_ys q_off]. rewrite sub_ys_snoc by apply (i_lo _ _ I).
      pose proof (i_lx _ _ I) as Lx. pose proof (i_lo _ _ I) as Lo.
      destruct (q_xs K M s) as [|x0 xs0] eqn:Ex.
      * cbn [sub s_din s_dout s_k s_m same length] in J. rewrite Hd in J. cbn [same] in J. rewrite Nat.eqb_refl in J. cbn [Nat.eqb] in J.
        rewrite (nth_map_dflt _ _ _ (k_new K 1, false)) by auto. cbn [fst snd app].
        destruct (q_ys K M s); [|discriminate]. destruct (q_off K M s); [|discriminate]. rewrite Hd. exact J.
      * cbn [sub s_din s_dout s_k s_m s_dk s_xs s_ys] in J. rewrite Ex in J. exact J.
    + intros q Hq. now apply (i_mok _ _ I).
    + rewrite !app_length, (i_lx _ _ I). reflexivity.
    + rewrite !app_length, (i_lo _ _ I). reflexivity.
    + apply Forall_app. split; [apply (i_rect _ _ I)|]. constructor; auto. now rewrite Ho.
    + intros _. apply Nat.ltb_lt in Hpos. cbn [mg_dout] in Hpos. rewrite (i_dout _ _ I) in Hpos. exact Hpos.
    + intros _. rewrite Ho. exact Hav.
Qed.

(** ** all operations *)
Lemma mstep_inv g s o g' : minv g s -> scheduled K M s o -> mexec K M g o = Done g' -> minv g' (q_step K M s o).
Proof.
  intros I V E. destruct o as [od xs ys b|j1 j2 od x y|i h|h|od a b]; cbn [mexec scheduled] in *.
  - now apply (compute_minv od g).
  - now apply (add_minv j1 j2 od g).
  - unfold mg_set_kernel_params in E. destruct (nth_error (mg_gps K M g) i) as [a|] eqn:En; [|discriminate].
    assert (Hi : (i < length (mg_gps K M g))%nat) by (apply nth_error_Some; congruence).
    apply bind_done in E. destruct E as (a' & E1 & E2). inversion E2. clear E2. subst g'. pose proof (i_gps _ _ I) as Lg.
    cbn [q_step]. constructor; cbn [mg_din mg_dout mg_m mg_obs mg_gps mg_mean_obs q_din q_dout q_m q_ys q_xs q_off q_ks oget]; try apply I.
    + rewrite !lput_length by lia. auto.
    + rewrite lput_length by lia. apply I.
    + intros j Hj. rewrite lput_length in Hj by lia. unfold sub, q_kernel, q_stale. cbn [q_din q_dout q_ks q_m q_xs q_ys q_off].
      destruct (Nat.eq_dec j i) as [->|Hne].
      * rewrite !lput_same by lia. cbn [fst snd].
        assert (Ea : nth i (mg_gps K M g) gdef = a) by now apply nth_error_nth.
        pose proof (step_inv K Nu KO NO a (sub s i) (SetK h) a') as J. rewrite <- Ea in J at 1.
        exact (J (i_inner _ _ I i ltac:(lia)) E1).
      * rewrite !lput_other by lia. exact (i_inner _ _ I j ltac:(lia)).
  - unfold mg_set_mean_params in E. apply check_done in E. destruct E as [Hh E]. apply Nat.eqb_eq in Hh. inversion E. clear E. subst g'.
    cbn [q_step]. constructor; cbn [mg_din mg_dout mg_m mg_obs mg_gps mg_mean_obs q_din q_dout q_m q_ys q_xs q_off q_ks oget]; try apply I.
    + now rewrite (i_m _ _ I).
    + intros p Hp. rewrite (i_m _ _ I) in Hh. apply mok_set; auto. now apply (i_mok _ _ I).
  - unfold mg_recompute, mg_recompute_by in E. pose proof (i_gps _ _ I) as Lg. pose proof (i_p _ _ I) as Lp. cbn [q_step].
    destruct (mg_gps K M g) as [|a0 gs0] eqn:Eg.
    { inversion E. subst g'. destruct (q_ks K M s); [auto|discriminate]. }
    destruct (q_ks K M s) as [|k0 ks0] eqn:Ek; [discriminate|]. destruct a.
    + assert (I0 : inv K Nu KO NO (nth 0 (mg_gps K M g) gdef) (sub s 0)) by (apply (i_inner _ _ I); rewrite Ek; simpl; lia).
      rewrite Eg in I0. cbn [nth] in I0. rewrite (v_samples _ _ _ _ _ _ I0) in E. cbn [sub s_xs] in E. rewrite (i_obs _ _ I) in E.
      assert (Hy : q_ys K M s <> []) by (intro H; rewrite H in E; unfold mg_compute, mg_compute_by in E; destruct (q_xs K M s); discriminate).
      apply (compute_minv od g); auto. specialize (V ltac:(discriminate)). rewrite Lp in V.
      pose proof (i_rect _ _ I) as R0. destruct (q_ys K M s); [congruence|]. inversion R0. cbn [hd]. congruence.
    + specialize (V ltac:(discriminate)). rewrite <- Ek in V. rewrite <- Eg in E.
      apply bind_done in E. destruct E as (gps' & E1 & E2). inversion E2. clear E2. subst g'.
      assert (Lg' : length (mg_gps K M g) = length (q_ks K M s)) by apply I.
      destruct (par_each_spec _ gdef _ od _ gps' V Lg' E1) as (L' & H'). rewrite <- Ek.
      constructor; cbn [mg_din mg_dout mg_m mg_obs mg_gps mg_mean_obs q_din q_dout q_m q_ys q_xs q_off q_ks oget]; try apply I.
      * now rewrite map_length.
      * rewrite map_length. apply I.
      * intros i Hi. rewrite map_length in Hi. specialize (H' i Hi). cbv beta in H'.
        pose proof (step_inv K Nu KO NO _ (sub s i) (Recompute false b) _ (i_inner _ _ I i Hi) H') as J.
        unfold sub, q_kernel, q_stale. cbn [q_din q_dout q_ks q_m q_xs q_ys q_off].
        rewrite (nth_map_dflt _ _ _ (k_new K 1, false)) by auto. exact J.
Qed.

(** ** valid calls succeed *)
Lemma valid_scheduled s o : mvalid K M s o -> scheduled K M s o.
Proof. destruct o; cbn; try tauto. Qed.
Lemma sub_rect ys off i : (0 < length ys)%nat -> length off = length ys ->
  rect (length (hd [] (sub_ys ys off i))) (sub_ys ys off i) /\ length (hd [] (sub_ys ys off i)) = 1%nat.
Proof.
  intros H L. destruct ys as [|y ys]; [simpl in H; lia|]. destruct off as [|o off]; [discriminate|].
  cbn [sub_ys combine map hd length]. split; auto. split; auto. unfold sub_ys. simpl. constructor; auto.
  apply Forall_forall. intros v Hv. apply in_map_iff in Hv. destruct Hv as (w & <- & _). reflexivity.
Qed.
Lemma compute_lprogress od g s xs ys b : mlinv g s -> mvalid K M s (MCompute od xs ys b) ->
  exists g', mg_compute K M od g xs ys b = Done g'.
Proof.
  intros I (Hx & Hlen & Rx & Ry & Sc). unfold mg_compute, mg_compute_by.
  destruct xs as [|s0 xs']; [congruence|]. destruct ys as [|o0 ys']; [discriminate|].
  cbn [hd] in *. set (xs := s0 :: xs') in *. set (ys := o0 :: ys') in *.
  assert (Hys : ys <> []) by discriminate. assert (Hhx : hd [] xs = s0) by reflexivity. clearbody xs ys.
  rewrite Hlen, Nat.eqb_refl. cbn [check]. set (p := length o0) in *. rewrite (l_dout _ _ I).
  set (m := if same (q_dout K M s) p then q_m K M s else m_new M p).
  assert (Hm : (if onat_eqb (q_dout K M s) p then (q_dout K M s, mg_m K M g) else (Some p, m_new M p)) = (Some p, m)).
  { unfold m. change (same (q_dout K M s) p) with (onat_eqb (q_dout K M s) p). destruct (onat_eqb (q_dout K M s) p) eqn:Eo; auto.
    apply onat_eqb_spec in Eo. rewrite Eo, (l_m _ _ I). reflexivity. }
  rewrite Hm. cbv beta iota zeta. clear Hm.
  assert (Hmo : mok MO p m).
  { unfold m. destruct (same (q_dout K M s) p) eqn:Es; [|apply mok_new]. change (onat_eqb (q_dout K M s) p = true) in Es.
    apply onat_eqb_spec in Es. now apply (l_mok _ _ I). }
  destruct Ry as [P0 Ry].
  match goal with |- context [check (forallb ?f ?l)] => assert (Hf : forallb f l = true) by (apply forallb_len; exact Ry); rewrite Hf end. cbn [check].
  match goal with |- context [mg_dout_pos _ _ ?t] => set (g1 := t) end.
  assert (Hpos : mg_dout_pos K M g1 = true) by (apply Nat.ltb_lt; exact P0). rewrite Hpos. cbn [andb].
  assert (Hat : forall v, length (mg_mean_at K M g1 v) = p).
  { intro v. unfold mg_mean_at. apply (mok_len MO p); auto. unfold mg_mean_observation. cbn [g1 mg_obs mg_mean_obs].
    destruct ys; [congruence|]. rewrite average_is_data_mean. apply data_mean_length. }
  assert (Hat' : forallb (fun s1 => (length (mg_mean_at K M g1 s1) =? p)%nat) xs = true)
    by (apply forallb_forall; intros; apply Nat.eqb_eq, Hat).
  rewrite Hat'. cbn [check].
  set (gps := if (length (mg_gps K M g) =? p)%nat then mg_gps K M g else new_gps K (length s0) p).
  assert (Lg : length gps = p).
  { unfold gps. destruct (length (mg_gps K M g) =? p)%nat eqn:El; [now apply Nat.eqb_eq|]. apply repeat_length. }
  match goal with |- exists g', bind (par_each od ?f gps) _ = _ => destruct (par_each_progress f gdef p od gps Sc Lg) as (l' & El) end.
  - intros i Hi. set (si := if (length (mg_gps K M g) =? p)%nat then sub s i else s_new K Nu (length s0) 1).
    assert (Ii : linv K Nu KO NO (nth i gps gdef) si).
    { unfold gps, si. destruct (length (mg_gps K M g) =? p)%nat eqn:Eg.
      - apply (l_inner _ _ I). apply Nat.eqb_eq in Eg. rewrite <- (l_gps _ _ I). lia.
      - unfold new_gps. rewrite nth_repeat_lt by auto. apply inv_linv, fresh_inv. constructor. }
    apply (comp_progress K Nu KO NO xs _ b _ si Ii). cbn [valid].
    match goal with |- context [map ?f (combine xs ys)] => set (h := f) end.
    assert (Lc : length (map h (combine xs ys)) = length xs) by (rewrite map_length, combine_length; lia).
    rewrite Hhx. repeat split; auto; try apply Rx.
    + destruct ys; [congruence|]. destruct xs; [congruence|]. simpl. lia.
    + apply Forall_forall. intros v Hv. apply in_map_iff in Hv. destruct Hv as (w & <- & _).
      destruct ys; [congruence|]. destruct xs; [congruence|]. reflexivity.
  - rewrite El. eexists. reflexivity.
Qed.
Lemma compute_progress od g s xs ys b : minv g s -> mvalid K M s (MCompute od xs ys b) ->
  exists g', mg_compute K M od g xs ys b = Done g'.
Proof. intro I. apply compute_lprogress. now apply minv_mlinv. Qed.
Lemma mprogress g s o : minv g s -> mvalid K M s o -> exists g', mexec K M g o = Done g'.
Proof.
  intros I V. destruct o as [od xs ys b|j1 j2 od x y|i h|h|od a b]; cbn [mexec].
  - now apply (compute_progress od g s).
  - destruct V as (X0 & Y0 & Sc & V). unfold mg_add_sample, mg_add_sample_by. cbv zeta. set (p := length y) in *.
    match goal with |- context [check (_ && _ && forallb _ (mg_obs _ _ ?t ++ _))] => set (g1 := t) end.
    assert (H1 : mg_din K M g1 = Some (length x) /\ mg_dout K M g1 = Some p /\ mok MO p (mg_m K M g1) /\
      Forall (fun o => length o = p) (mg_obs K M g1 ++ [y]) /\ length (mg_gps K M g1) = p /\
      forall i, (i < p)%nat -> exists si, inv K Nu KO NO (nth i (mg_gps K M g1) gdef) si /\
        s_din K Nu si = Some (length x) /\ s_dout K Nu si = Some 1%nat /\ (s_xs K Nu si <> [] -> s_dk K Nu si = false)).
    { unfold g1. destruct (mg_gps K M g) as [|a0 gs0] eqn:Eg.
      - assert (Ek : q_ks K M s = []) by (apply length_zero_iff_nil; rewrite <- (i_gps _ _ I), Eg; reflexivity).
        assert (Hp0 : oget (q_dout K M s) = O) by (rewrite <- (i_p _ _ I), Ek; reflexivity).
        assert (Eo : onat_eqb (mg_dout K M g) p = false).
        { rewrite (i_dout _ _ I). destruct (q_dout K M s); cbn [onat_eqb oget] in *; auto. apply Nat.eqb_neq. lia. }
        assert (Ey : q_ys K M s = []) by (destruct (q_ys K M s) eqn:E; auto; pose proof (i_pos _ _ I ltac:(congruence)); lia).
        rewrite Eo. cbn [mg_gps mg_din mg_dout mg_m mg_obs mg_mean_obs]. rewrite (i_obs _ _ I), Ey. cbn [app].
        repeat split; auto; try apply mok_new; try apply repeat_length.
        intros i Hi. exists (s_new K Nu (length x) 1). unfold new_gps. rewrite nth_repeat_lt by auto.
        split; [apply fresh_inv; constructor|]. auto.
      - assert (Ek : q_ks K M s <> []) by (intro H; pose proof (i_gps _ _ I) as G0; rewrite Eg, H in G0; discriminate).
        destruct (V Ek) as (Vd & Vo & Vs). rewrite (i_din _ _ I), (i_dout _ _ I), (i_m _ _ I), (i_obs _ _ I).
        repeat split; auto.
        + now apply (i_mok _ _ I).
        + apply Forall_app. split; [|constructor; auto]. pose proof (i_rect _ _ I) as R0. rewrite Vo in R0. exact R0.
        + rewrite (i_gps _ _ I), (i_p _ _ I), Vo. reflexivity.
        + intros i Hi. assert (Hi' : (i < length (q_ks K M s))%nat) by (rewrite (i_p _ _ I), Vo; exact Hi).
          exists (sub s i). split; [now apply (i_inner _ _ I)|]. repeat split; auto. intro Hx. exact (Vs Hx i Hi'). }
    destruct H1 as (Hd & Ho & Hm & Hr & Lg & Hsi). clearbody g1. rewrite Hd, Ho. cbn [onat_eqb]. rewrite !Nat.eqb_refl. cbn [andb].
    match goal with |- context [check (forallb ?f ?l)] => assert (Hf : forallb f l = true) by (apply forallb_len; exact Hr); rewrite Hf end. cbn [check].
    match goal with |- context [mg_dout_pos _ _ ?g1] => set (g2 := g1) end.
    assert (Hpos : mg_dout_pos K M g2 = true) by (apply Nat.ltb_lt; exact Y0). rewrite Hpos. cbn [andb].
    assert (Hat : (length (mg_mean_at K M g2 x) =? p)%nat = true).
    { apply Nat.eqb_eq. unfold mg_mean_at. apply (mok_len MO p); auto. unfold mg_mean_observation. cbn [g2 mg_obs mg_mean_obs].
      destruct (mg_obs K M g1 ++ [y]) eqn:Eap; [destruct (mg_obs K M g1); discriminate|]. rewrite average_is_data_mean. apply data_mean_length. }
    rewrite Hat. cbn [check mg_gps g2].
    match goal with |- exists g', bind (par_each od ?f _) _ = _ => destruct (par_each_progress f gdef p od _ Sc Lg) as (l' & El) end.
    + intros i Hi. destruct (Hsi i Hi) as (si & Ii & S1 & S2 & S3).
      apply (progress K Nu KO NO _ si (Add (j1 i) (j2 i) x _) Ii). cbn [valid length]. repeat split; auto; lia.
    + cbn [mg_gps]. rewrite El. eexists. reflexivity.
  - destruct V as [Hi V]. unfold mg_set_kernel_params. pose proof (i_gps _ _ I) as Lg.
    rewrite (nth_error_nth' _ gdef) by lia.
    destruct (progress K Nu KO NO _ (sub s i) (SetK h) (i_inner _ _ I i Hi) V) as (a' & E). cbn [exec] in E. rewrite E. eexists. reflexivity.
  - unfold mg_set_mean_params. rewrite (i_m _ _ I). cbn in V. rewrite V, Nat.eqb_refl. eexists. reflexivity.
  - unfold mg_recompute, mg_recompute_by. pose proof (i_gps _ _ I) as Lg. destruct (mg_gps K M g) as [|a0 gs0] eqn:Eg; [eexists; reflexivity|].
    cbn [mvalid] in V. assert (Ek : q_ks K M s <> []) by (intro H; rewrite H in Lg; discriminate). destruct (V Ek) as (Hx & Sc & Hs).
    assert (K0 : (0 < length (q_ks K M s))%nat) by (destruct (q_ks K M s); [congruence|simpl; lia]).
    pose proof (i_inner _ _ I 0%nat K0) as I0. rewrite Eg in I0. cbn [nth] in I0. destruct a.
    + rewrite (v_samples _ _ _ _ _ _ I0), (i_obs _ _ I). cbn [sub s_xs].
      assert (Hy : q_ys K M s <> []) by (intro H; pose proof (i_lx _ _ I) as Lx; rewrite H in Lx; destruct (q_xs K M s); [congruence|discriminate]).
      destruct (v_nonempty _ _ _ _ _ _ I0 Hx) as ((d & Ed & D0 & Fd) & _). cbn [sub s_xs s_din] in Ed, Fd.
      assert (Hh : length (hd [] (q_ys K M s)) = oget (q_dout K M s)) by (pose proof (i_rect _ _ I) as R0; destruct (q_ys K M s); [congruence|]; inversion R0; auto).
      assert (Hh' : length (hd [] (q_xs K M s)) = d) by (destruct (q_xs K M s); [congruence|]; inversion Fd; auto).
      apply (compute_progress od g s); auto. cbn [mvalid]. rewrite Hh, Hh'. repeat split; auto.
      * symmetry. apply I.
      * now apply (i_pos _ _ I).
      * apply I.
      * rewrite <- (i_p _ _ I). exact Sc.
    + rewrite <- Eg. assert (Lg' : length (mg_gps K M g) = length (q_ks K M s)) by apply I.
      match goal with |- exists g', bind (par_each od ?f _) _ = _ => destruct (par_each_progress f gdef _ od _ Sc Lg') as (l' & El) end.
      * intros i Hi. apply (progress K Nu KO NO _ (sub s i) (Recompute false b) (i_inner _ _ I i Hi)). cbn [valid]. split; auto.
        intro Hb. exact (Hs eq_refl Hb i Hi).
      * rewrite El. eexists. reflexivity.
Qed.
Lemma mrun_inv os : forall g s g', minv g s -> mrun K M g os = Done g' ->
  (forall os1 o os2, os = os1 ++ o :: os2 -> scheduled K M (mmeaning K M s os1) o) -> minv g' (mmeaning K M s os).
Proof.
  induction os as [|o os IH]; intros g s g' I E Sc; simpl in E.
  - inversion E. now subst.
  - apply bind_done in E. destruct E as (g1 & E1 & E2). cbn [mmeaning fold_left]. apply IH with g1; auto.
    + apply mstep_inv with g; auto. exact (Sc [] o os eq_refl).
    + intros os1 o' os2 ->. exact (Sc (o :: os1) o' os2 eq_refl).
Qed.
Lemma mrun_progress os : forall g s, minv g s -> mvalid_all K M s os -> exists g', mrun K M g os = Done g' /\ minv g' (mmeaning K M s os).
Proof.
  induction os as [|o os IH]; intros g s I V; cbn [mrun mmeaning fold_left].
  - eauto.
  - destruct V as [V1 V2]. destruct (mprogress g s o I V1) as (g1 & E1). rewrite E1. cbn [bind]. apply IH; auto.
    apply mstep_inv with g; auto. now apply valid_scheduled.
Qed.
End Facts.
