(** Gaussian process predictions: C24, C25, C26, C27, C28. *)
From Coq Require Import Reals List Bool ZArith Lia Lra Permutation.
From Verif Require Import LinAlgModel LinAlg KernelModel GPModel GPSpec GPFacts.
Import ListNotations.
Open Scope R_scope.

Section Predictions.
Variables (K : Kern) (M : Mean).
Variable KO : KernOK K.
Variable MO : MeanOK M.
Notation gp := (gp K M). Notation sp := (sp K M).
Notation linv := (linv K M KO MO). Notation inv := (inv K M KO MO). Notation alpha_ok := (alpha_ok K M).

Definition predicts_mean (s : sp) (B : nat -> nat -> R) (v : vec) : vec :=
  vec_of (oget (s_dout K M s)) (post_mean K M (s_k K M s) (s_m K M s) (s_xs K M s) (s_ys K M s) (oget (s_dout K M s)) B v).
Definition predicts_var (s : sp) (B : nat -> nat -> R) (v : vec) : R :=
  clamp (post_var K (s_k K M s) (s_xs K M s) B v) + k_noise K (s_k K M s).

Lemma kop0_ker st x y : kop0 K st x y = k_ker K st x y.
Proof. unfold kop0, kop. simpl. lra. Qed.

Lemma predict g s v : linv g s -> alpha_ok g s -> s_xs K M s <> [] -> s_dk K M s = false -> s_dm K M s = false ->
  s_din K M s = Some (length v) ->
  (exists B, is_inv (length (s_xs K M s)) (gram K (s_k K M s) (s_xs K M s)) B) /\
  forall B, is_inv (length (s_xs K M s)) (gram K (s_k K M s) (s_xs K M s)) B ->
    mu K M g v = Done (predicts_mean s B v) /\ sigma K M g v = Done (predicts_var s B v) /\
    query K M g v = Done (predicts_mean s B v, predicts_var s B v).
Proof.
  intros I HA Hx Hdk Hdm Hv. destruct (HA Hdk Hdm Hx) as (A1 & A2 & A3).
  destruct (w_nonempty _ _ _ _ _ _ I Hx) as ((d & D1 & D2 & D3) & (p & P1 & P2) & H3 & H4 & H5 & H6 & H7).
  destruct (H7 Hdk) as (L1 & L2 & L3). clear H7.
  split; [exists (inv_of (N K M s) (at_ (g_L K M g))); apply inv_of_is_inv; exact L3|].
  intros B HB.
  assert (HN : nb_samples K M g = N K M s) by (unfold nb_samples; now rewrite (w_samples _ _ _ _ _ _ I)).
  assert (Hne : g_samples K M g <> []) by now rewrite (w_samples _ _ _ _ _ _ I).
  assert (Emo : mean_observation K M g = data_mean (s_ys K M s) (P K M s)).
  { unfold mean_observation. destruct (g_samples K M g); [congruence|auto]. }
  assert (Hp : oget (s_dout K M s) = p) by now rewrite P1.
  assert (Hdp : dout_pos K M g = true).
  { unfold dout_pos. rewrite (w_dout _ _ _ _ _ _ I), Hp. now apply Nat.ltb_lt. }
  assert (Hdl : onat_eqb (g_din K M g) (length v) = true) by (apply onat_eqb_spec; now rewrite (w_din _ _ _ _ _ _ I)).
  assert (Hml : length (mean_at K M g v) = p).
  { unfold mean_at. rewrite Emo, (w_m _ _ _ _ _ _ I). apply (mok_len MO).
    - now apply (w_mok _ _ _ _ _ _ I).
    - unfold P. rewrite Hp. apply data_mean_length. }
  assert (Hmu : mu_ok K M g v = true).
  { unfold mu_ok. rewrite Hdp, Hdl, Hml, HN, (w_dout _ _ _ _ _ _ I), Hp, A1, A2. unfold P. rewrite Hp, !Nat.eqb_refl. reflexivity. }
  assert (Hsg : sigma_ok K M g v = true).
  { unfold sigma_ok. now rewrite Hdl, HN, L1, L2, !Nat.eqb_refl. }
  assert (Hdg : diag_ok (nb_samples K M g) (at_ (g_L K M g)) = true) by (rewrite HN; apply lower_diag_ok, L3).
  assert (Ek : veq (N K M s) (compute_k K M g v) (cov K (s_k K M s) (s_xs K M s) v)).
  { intros i Hi. unfold compute_k, cov, sample, x_. rewrite kop0_ker, (w_k _ _ _ _ _ _ I), (w_samples _ _ _ _ _ _ I). reflexivity. }
  assert (E1 : mu_ K M g v (compute_k K M g v) = predicts_mean s B v).
  { unfold mu_, predicts_mean. rewrite (w_dout _ _ _ _ _ _ I), HN. apply vec_of_ext. intros j Hj.
    unfold post_mean. cbn zeta. rewrite Rplus_comm. f_equal.
    - unfold prior_mean, mean_at. rewrite Emo, (w_m _ _ _ _ _ _ I). reflexivity.
    - apply rsum_ext. intros a Ha. rewrite Ek by auto.
      pose proof (inv_solves _ _ _ _ _ HB (A3 j Hj) a Ha) as Ea. unfold col in Ea. rewrite Ea. unfold mvec.
      rewrite <- rsum_scal_l. apply rsum_ext. intros b Hb. unfold Rs. lra. }
  assert (E2 : sigma_ K M g v (compute_k K M g v) = clamp (post_var K (s_k K M s) (s_xs K M s) B v)).
  { unfold sigma_, clamp, eps. rewrite HN.
    replace (kop0 K (g_k K M g) v v - _) with (post_var K (s_k K M s) (s_xs K M s) B v); [reflexivity|].
    unfold post_var. cbn zeta. rewrite kop0_ker, (w_k _ _ _ _ _ _ I). f_equal.
    rewrite (quad_chol _ _ _ _ _ L3 HB). apply rsum_ext. intros i Hi.
    rewrite (fwd_ext _ (at_ (g_L K M g)) (at_ (g_L K M g)) _ _ (fun _ _ _ _ => eq_refl) Ek i Hi). reflexivity. }
  assert (En : k_noise K (g_k K M g) = k_noise K (s_k K M s)) by now rewrite (w_k _ _ _ _ _ _ I).
  unfold mu, sigma, query. destruct (g_samples K M g); [congruence|].
  rewrite Hmu, Hsg, Hdg. cbn [andb check]. rewrite E1, E2, En. auto.
Qed.

(** ** C24 *)
(** Histories of calls that respect their preconditions run without undefined behaviour and without
    failing factorisations. *)
Theorem C24_valid_histories_succeed g0 s0 os : fresh K M g0 s0 -> valid_all K M s0 os ->
  exists g, run K M g0 os = Done g.
Proof.
  intros F V. destruct (run_progress K M KO MO os g0 s0) as (g & E & _); eauto. now apply fresh_inv.
Qed.

Theorem C24_exact_posterior g0 s0 os g :
  fresh K M g0 s0 -> run K M g0 os = Done g ->
  let s := meaning K M s0 os in
  let n := length (s_xs K M s) in
  s_xs K M s <> [] -> s_dk K M s = false -> s_dm K M s = false ->
  forall v, s_din K M s = Some (length v) ->
  (exists B, is_inv n (gram K (s_k K M s) (s_xs K M s)) B) /\
  forall B, is_inv n (gram K (s_k K M s) (s_xs K M s)) B ->
    let p := oget (s_dout K M s) in
    let m := vec_of p (post_mean K M (s_k K M s) (s_m K M s) (s_xs K M s) (s_ys K M s) p B v) in
    let va := clamp (post_var K (s_k K M s) (s_xs K M s) B v) + k_noise K (s_k K M s) in
    mu K M g v = Done m /\ sigma K M g v = Done va /\ query K M g v = Done (m, va).
Proof.
  intros F E s n Hx Hk Hm v Hv. assert (I : inv g s) by (eapply run_inv; eauto; now apply fresh_inv).
  apply (predict g s v); auto; [now apply inv_linv|now apply (inv_alpha _ _ _ _ _ _ I)].
Qed.

(** before any data: the prior *)
Theorem C24_prior_without_data g0 s0 : fresh K M g0 s0 ->
  forall d p v, s_din K M s0 = Some d -> s_dout K M s0 = Some p -> (0 < p)%nat -> length v = d ->
  let m := m_val M (m_new M p) v (repeat 0 p) in
  let va := k_ker K (k_new K d) v v + k_noise K (k_new K d) in
  mu K M g0 v = Done m /\ sigma K M g0 v = Done va /\ query K M g0 v = Done (m, va).
Proof.
  intros F d p v Hd Hp P0 Hv. destruct F as [|din dout]; [discriminate|]. inversion Hd. inversion Hp. subst.
  unfold mu, sigma, query, dout_pos. cbn [gp_new g_samples g_dout g_din oget onat_eqb g_k].
  rewrite (proj2 (Nat.ltb_lt 0 p) P0), Nat.eqb_refl. cbn [andb check]. rewrite kop0_ker. auto.
Qed.

(** ** C25: the state that matters depends on the final data and parameters only *)
Definition same_meaning (s t : sp) : Prop :=
  s_din K M s = s_din K M t /\ s_dout K M s = s_dout K M t /\ s_k K M s = s_k K M t /\ s_m K M s = s_m K M t /\
  s_xs K M s = s_xs K M t /\ s_ys K M s = s_ys K M t.

Lemma same_state g g' s s' : inv g s -> inv g' s' -> same_meaning s s' ->
  s_xs K M s <> [] -> s_dk K M s = false -> s_dm K M s = false -> s_dk K M s' = false -> s_dm K M s' = false ->
  let n := length (s_xs K M s) in
  rows (g_L K M g) = n /\ cols (g_L K M g) = n /\ rows (g_L K M g') = n /\ cols (g_L K M g') = n /\
  meq n n (at_ (g_L K M g)) (at_ (g_L K M g')) /\
  rows (g_alpha K M g) = n /\ rows (g_alpha K M g') = n /\
  cols (g_alpha K M g) = oget (s_dout K M s) /\ cols (g_alpha K M g') = oget (s_dout K M s) /\
  meq n (oget (s_dout K M s)) (at_ (g_alpha K M g)) (at_ (g_alpha K M g')) /\
  forall v, s_din K M s = Some (length v) ->
    mu K M g v = mu K M g' v /\ sigma K M g v = sigma K M g' v /\ query K M g v = query K M g' v.
Proof.
  intros I I' (E1 & E2 & E3 & E4 & E5 & E6) Hx Hk Hm Hk' Hm' n.
  assert (Hx' : s_xs K M s' <> []) by now rewrite <- E5.
  pose proof (inv_linv _ _ _ _ _ _ I) as J. pose proof (inv_linv _ _ _ _ _ _ I') as J'.
  destruct (w_nonempty _ _ _ _ _ _ J Hx) as ((d & D1 & D2 & D3) & _ & _ & _ & _ & _ & HL).
  destruct (w_nonempty _ _ _ _ _ _ J' Hx') as (_ & _ & _ & _ & _ & _ & HL').
  destruct (HL Hk) as (L1 & L2 & L3). destruct (HL' Hk') as (L1' & L2' & L3').
  destruct (inv_alpha _ _ _ _ _ _ I Hk Hm Hx) as (A1 & A2 & A3). destruct (inv_alpha _ _ _ _ _ _ I' Hk' Hm' Hx') as (A1' & A2' & A3').
  unfold N, P, G, Rs in *. rewrite <- ?E1, <- ?E2, <- ?E3, <- ?E4, <- ?E5, <- ?E6 in *.
  repeat (split; [assumption|]).
  split; [eapply chol_unique; eauto|]. repeat (split; [assumption|]).
  split.
  { intros i j Hi Hj. apply (pd_unique n (gram K (s_k K M s) (s_xs K M s)) (col (g_alpha K M g) j) (col (g_alpha K M g') j)); auto.
    - eapply gram_pd; eauto. apply (w_kok _ _ _ _ _ _ J); eauto.
    - intros a Ha. etransitivity; [exact (A3 j Hj a Ha)|]. symmetry. exact (A3' j Hj a Ha). }
  intros v Hv. destruct (predict g s v) as [(B & HB) Hp]; auto. { eapply inv_alpha; eauto. }
  destruct (predict g' s' v) as [_ Hp']; auto. { eapply inv_alpha; eauto. } { now rewrite <- E5. } { now rewrite <- E1. }
  destruct (Hp B HB) as (F1 & F2 & F3). destruct (Hp' B) as (F1' & F2' & F3'). { now rewrite <- E3, <- E5. }
  rewrite F1, F1', F2, F2', F3, F3'. unfold predicts_mean, predicts_var. rewrite <- E2, <- E3, <- E4, <- E5, <- E6. auto.
Qed.

Theorem C25_final_data_only g0 s0 os g g0' s0' os' g' :
  fresh K M g0 s0 -> run K M g0 os = Done g -> fresh K M g0' s0' -> run K M g0' os' = Done g' ->
  let s := meaning K M s0 os in let s' := meaning K M s0' os' in
  same_meaning s s' -> s_xs K M s <> [] ->
  s_dk K M s = false -> s_dm K M s = false -> s_dk K M s' = false -> s_dm K M s' = false ->
  let n := length (s_xs K M s) in
  rows (g_L K M g) = n /\ cols (g_L K M g) = n /\ rows (g_L K M g') = n /\ cols (g_L K M g') = n /\
  meq n n (at_ (g_L K M g)) (at_ (g_L K M g')) /\
  rows (g_alpha K M g) = n /\ rows (g_alpha K M g') = n /\
  cols (g_alpha K M g) = oget (s_dout K M s) /\ cols (g_alpha K M g') = oget (s_dout K M s) /\
  meq n (oget (s_dout K M s)) (at_ (g_alpha K M g)) (at_ (g_alpha K M g')) /\
  forall v, s_din K M s = Some (length v) ->
    mu K M g v = mu K M g' v /\ sigma K M g v = sigma K M g' v /\ query K M g v = query K M g' v.
Proof.
  intros F E F' E' s s' Hs Hx H1 H2 H3 H4. apply same_state with s'; auto; eapply run_inv; eauto; now apply fresh_inv.
Qed.

(** adding the samples one by one against [compute] on all of them *)
Definition adds (l : list (vec * vec)) (j1 j2 : nat -> nat -> nat -> R) : list (op K M) :=
  map (fun '(i, (x, y)) => Add (j1 i) (j2 i) x y) (combine (seq 0 (length l)) l).

Lemma adds_meaning l : forall k j1 j2 s, s_xs K M s <> [] -> s_dm K M s = false ->
  let t := meaning K M s (map (fun '(i, (x, y)) => Add (j1 i) (j2 i) x y) (combine (seq k (length l)) l)) in
  s_din K M t = s_din K M s /\ s_dout K M t = s_dout K M s /\ s_k K M t = s_k K M s /\ s_m K M t = s_m K M s /\
  s_xs K M t = s_xs K M s ++ map fst l /\ s_ys K M t = s_ys K M s ++ map snd l /\ s_dk K M t = s_dk K M s /\ s_dm K M t = false.
Proof.
  induction l as [|[x y] l IH]; intros k j1 j2 s Hx Hm; cbn [length seq combine map meaning fold_left].
  - rewrite !app_nil_r. repeat split; auto.
  - assert (Es : s_step K M s (Add (j1 k) (j2 k) x y) =
      {| s_din := s_din K M s; s_dout := s_dout K M s; s_k := s_k K M s; s_m := s_m K M s; s_xs := s_xs K M s ++ [x]; s_ys := s_ys K M s ++ [y];
         s_dk := s_dk K M s; s_dm := false |}) by (unfold s_step; destruct (s_xs K M s); [congruence|reflexivity]).
    rewrite Es. set (s1 := Build_sp _ _ _ _ _ _ _ _ _ _).
    destruct (IH (S k) j1 j2 s1) as (H1 & H2 & H3 & H4 & H5 & H6 & H7 & H8); auto.
    { unfold s1. simpl. destruct (s_xs K M s); discriminate. }
    cbn zeta in *. unfold meaning in *. rewrite H1, H2, H3, H4, H5, H6, H7, H8. unfold s1. simpl. rewrite <- !app_assoc. repeat split; auto.
Qed.
Lemma adds_valid l : forall k j1 j2 s d p, s_xs K M s <> [] -> s_din K M s = Some d -> s_dout K M s = Some p -> s_dk K M s = false ->
  Forall (fun q => length (fst q) = d /\ length (snd q) = p) l -> (0 < d)%nat -> (0 < p)%nat ->
  valid_all K M s (map (fun '(i, (x, y)) => Add (j1 i) (j2 i) x y) (combine (seq k (length l)) l)).
Proof.
  induction l as [|[x y] l IH]; intros k j1 j2 s d p Hx Hd Hp Hk Hl D0 P0; cbn [length seq combine map valid_all]; [auto|].
  inversion Hl as [|? ? [Ex Ey] Hl']. simpl in Ex, Ey. split.
  - cbn [valid]. rewrite Ex, Ey. auto.
  - apply (IH (S k) j1 j2 _ d p); auto; unfold s_step; destruct (s_xs K M s); try congruence; simpl; auto; discriminate.
Qed.

Theorem C25_incremental_equals_batch g0 s0 l d p j1 j2 :
  fresh K M g0 s0 -> l <> [] -> (0 < d)%nat -> (0 < p)%nat ->
  Forall (fun q => length (fst q) = d /\ length (snd q) = p) l ->
  exists g g', run K M g0 (adds l j1 j2) = Done g /\ compute K M g0 (map fst l) (map snd l) true = Done g' /\
    let n := length l in
    rows (g_L K M g) = n /\ cols (g_L K M g) = n /\ rows (g_L K M g') = n /\ cols (g_L K M g') = n /\
    meq n n (at_ (g_L K M g)) (at_ (g_L K M g')) /\
    rows (g_alpha K M g) = n /\ rows (g_alpha K M g') = n /\ cols (g_alpha K M g) = p /\ cols (g_alpha K M g') = p /\
    meq n p (at_ (g_alpha K M g)) (at_ (g_alpha K M g')) /\
    forall v, length v = d ->
      mu K M g v = mu K M g' v /\ sigma K M g v = sigma K M g' v /\ query K M g v = query K M g' v.
Proof.
  intros F Hne D0 P0 Hl. destruct l as [|[x y] l]; [congruence|]. inversion Hl as [|? ? [Ex Ey] Hl']. simpl in Ex, Ey.
  assert (E00 : s_xs K M s0 = [] /\ s_ys K M s0 = []) by (destruct F; auto). destruct E00 as [E0 E0y].
  set (os := adds ((x, y) :: l) j1 j2).
  set (s1 := s_step K M s0 (Add (j1 0%nat) (j2 0%nat) x y)).
  set (s2 := s_step K M s0 (Compute (x :: map fst l) (y :: map snd l) true)).
  assert (Es1 : s_din K M s1 = Some d /\ s_dout K M s1 = Some p /\ s_xs K M s1 = [x] /\ s_ys K M s1 = [y] /\ s_dk K M s1 = false /\ s_dm K M s1 = false /\
                s_k K M s1 = s_k K M s2 /\ s_m K M s1 = s_m K M s2).
  { unfold s1, s2, s_step. rewrite E0. cbn [hd s_din s_dout s_k s_m s_xs s_ys s_dk s_dm]. rewrite Ex, Ey. repeat split; auto. }
  destruct Es1 as (M1 & M2 & M3 & M4 & M5 & M6 & M7 & M8).
  assert (Hx1 : s_xs K M s1 <> []) by (rewrite M3; discriminate).
  assert (V : valid_all K M s0 os).
  { unfold os, adds. cbn [length seq combine map valid_all]. split.
    - cbn [valid]. rewrite Ex, Ey, E0. repeat split; auto; congruence.
    - apply (adds_valid l 1 j1 j2 _ d p); auto. }
  destruct (run_progress K M KO MO os g0 s0) as (g & Eg & Ig); auto using fresh_inv.
  assert (V2 : valid_all K M s0 [Compute (x :: map fst l) (y :: map snd l) true]).
  { cbn [valid_all valid hd]. rewrite Ex, Ey. split; [|auto]. split; [discriminate|].
    split; [simpl; now rewrite !map_length|]. rewrite Forall_forall in Hl'.
    split; (split; [assumption|constructor; [assumption|]]); apply Forall_forall; intros v Hv; apply in_map_iff in Hv;
      destruct Hv as (q & <- & Hq); now apply Hl'. }
  destruct (run_progress K M KO MO _ g0 s0 (fresh_inv _ _ _ _ _ _ F) V2) as (g' & Eg' & Ig').
  cbn [meaning fold_left] in Ig'. fold s2 in Ig'.
  exists g, g'. split; [exact Eg|]. split.
  { simpl map. cbn [run exec] in Eg'. destruct (compute K M g0 _ _ true); simpl in Eg'; [exact Eg'|discriminate|discriminate]. }
  destruct (adds_meaning l 1 j1 j2 s1 Hx1 M6) as (T1 & T2 & T3 & T4 & T5 & T6 & T7 & T8). cbn zeta in *.
  set (t := meaning K M s0 os) in *.
  change (meaning K M s1 _) with t in T1, T2, T3, T4, T5, T6, T7, T8.
  assert (Q : same_meaning t s2).
  { unfold same_meaning. rewrite T1, T2, T3, T4, T5, T6, M1, M2, M3, M4, M7, M8.
    unfold s2. cbn [s_step s_din s_dout s_k s_m s_xs s_ys hd]. rewrite Ex, Ey. simpl. repeat split; auto. }
  assert (Hxt : s_xs K M t <> []) by (rewrite T5, M3; discriminate).
  destruct (same_state g g' t s2 Ig Ig' Q Hxt) as (R1 & R2 & R3 & R4 & R5 & R6 & R7 & R8 & R9 & R10 & R11); auto; try congruence.
  rewrite T5, M3 in R1, R2, R3, R4, R5, R6, R7, R10. rewrite T2, M2 in R8, R9, R10. rewrite T1, M1 in R11.
  cbn [app length oget] in *. rewrite map_length in *. repeat (split; [assumption|]).
  intros v Hv. apply R11. now rewrite Hv.
Qed.
End Predictions.
