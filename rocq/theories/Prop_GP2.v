(** Gaussian process predictions: C26, C27, C28, C29, C39. *)
From Coq Require Import Reals List Bool ZArith Lia Lra Permutation FinFun.
From Verif Require Import LinAlgModel LinAlg KernelModel GPModel GPSpec GPFacts Prop_GP.
Import ListNotations.
Open Scope R_scope.

Section Predictions.
Variables (K : Kern) (M : Mean).
Variable KO : KernOK K.
Variable MO : MeanOK M.
Notation gp := (gp K M). Notation sp := (sp K M).
Notation linv := (linv K M KO MO). Notation inv := (inv K M KO MO). Notation alpha_ok := (alpha_ok K M).

(** ** C26: the order of the samples does not matter *)
Section Perm.
Variables (l l' : list (vec * vec)) (f : nat -> nat).
Let n := length l.
Hypothesis Hlen : length l' = n.
Hypothesis Hf : forall i, (i < n)%nat -> (f i < n)%nat.
Hypothesis Hinj : forall i j, (i < n)%nat -> (j < n)%nat -> f i = f j -> i = j.
Hypothesis Hnth : forall i, (i < n)%nat -> nth i l' ([], []) = nth (f i) l ([], []).
Variables (k : kst K) (m : mst M) (p : nat).
Let xs := map fst l. Let ys := map snd l. Let xs' := map fst l'. Let ys' := map snd l'.

Lemma perm_x i : (i < n)%nat -> x_ xs' i = x_ xs (f i).
Proof.
  intro Hi. unfold x_, xs, xs'. change (@nil R) with (fst (@nil R, @nil R)). rewrite !map_nth. now rewrite Hnth.
Qed.
Lemma perm_y i j : (i < n)%nat -> y_ ys' i j = y_ ys (f i) j.
Proof.
  intro Hi. unfold y_, ys, ys'. change (@nil R) with (snd (@nil R, @nil R)). rewrite !map_nth. now rewrite Hnth.
Qed.
Lemma len_xs : length xs = n. Proof. apply map_length. Qed.
Lemma len_ys : length ys = n. Proof. apply map_length. Qed.
Lemma len_xs' : length xs' = n. Proof. unfold xs'. now rewrite map_length. Qed.
Lemma len_ys' : length ys' = n. Proof. unfold ys'. now rewrite map_length. Qed.
Lemma perm_data_mean : data_mean ys' p = data_mean ys p.
Proof.
  unfold data_mean. rewrite len_ys, len_ys'. apply vec_of_ext. intros j _. f_equal.
  rewrite <- (rsum_reindex n f (fun i => y_ ys i j)) by auto. apply rsum_ext. intros i Hi. now apply perm_y.
Qed.
Lemma perm_prior v j : prior_mean M m ys' p v j = prior_mean M m ys p v j.
Proof. unfold prior_mean. now rewrite perm_data_mean. Qed.
Lemma perm_resid i j : (i < n)%nat -> resid M m xs' ys' p i j = resid M m xs ys p (f i) j.
Proof. intro Hi. unfold resid. rewrite perm_prior, perm_y, perm_x by auto. reflexivity. Qed.
Lemma perm_eqb i j : (i < n)%nat -> (j < n)%nat -> (f i =? f j)%nat = (i =? j)%nat.
Proof.
  intros Hi Hj. destruct (Nat.eqb_spec i j) as [->|Hne]; [apply Nat.eqb_refl|].
  apply Nat.eqb_neq. intro E. apply Hne. auto.
Qed.
Lemma perm_gram i j : (i < n)%nat -> (j < n)%nat -> gram K k xs' i j = gram K k xs (f i) (f j).
Proof. intros Hi Hj. unfold gram. rewrite !perm_x, perm_eqb by auto. reflexivity. Qed.
Lemma perm_inv B : is_inv n (gram K k xs) B -> is_inv n (gram K k xs') (fun i j => B (f i) (f j)).
Proof.
  intros [H1 H2]. split; intros i j Hi Hj; unfold mmul.
  - rewrite (rsum_ext n _ (fun c => gram K k xs (f i) (f c) * B (f c) (f j))) by (intros c Hc; now rewrite perm_gram).
    rewrite (rsum_reindex n f (fun c => gram K k xs (f i) c * B c (f j))) by auto.
    etransitivity; [exact (H1 (f i) (f j) (Hf i Hi) (Hf j Hj))|]. unfold delta. now rewrite perm_eqb.
  - rewrite (rsum_ext n _ (fun c => B (f i) (f c) * gram K k xs (f c) (f j))) by (intros c Hc; now rewrite perm_gram).
    rewrite (rsum_reindex n f (fun c => B (f i) c * gram K k xs c (f j))) by auto.
    etransitivity; [exact (H2 (f i) (f j) (Hf i Hi) (Hf j Hj))|]. unfold delta. now rewrite perm_eqb.
Qed.
Lemma perm_quad B (u w : nat -> R) (u' w' : nat -> R) :
  (forall i, (i < n)%nat -> u' i = u (f i)) -> (forall i, (i < n)%nat -> w' i = w (f i)) ->
  rsum n (fun a => rsum n (fun b => u' a * B (f a) (f b) * w' b)) = rsum n (fun a => rsum n (fun b => u a * B a b * w b)).
Proof.
  intros Hu Hw. rewrite <- (rsum_reindex n f (fun a => rsum n (fun b => u a * B a b * w b))) by auto.
  apply rsum_ext. intros a Ha.
  rewrite <- (rsum_reindex n f (fun b => u (f a) * B (f a) b * w b)) by auto.
  apply rsum_ext. intros b Hb. now rewrite Hu, Hw.
Qed.
Lemma perm_post_mean B v j : post_mean K M k m xs' ys' p (fun a b => B (f a) (f b)) v j = post_mean K M k m xs ys p B v j.
Proof.
  unfold post_mean. cbn zeta. rewrite len_xs, len_xs'. rewrite perm_prior. f_equal.
  apply perm_quad.
  - intros i Hi. unfold cov. now rewrite perm_x.
  - intros i Hi. now apply perm_resid.
Qed.
Lemma perm_post_var B v : post_var K k xs' (fun a b => B (f a) (f b)) v = post_var K k xs B v.
Proof.
  unfold post_var. cbn zeta. rewrite len_xs, len_xs'. f_equal.
  apply perm_quad; intros i Hi; unfold cov; now rewrite perm_x.
Qed.
End Perm.

Theorem C26_order_irrelevant g0 s0 l l' d p :
  fresh K M g0 s0 -> l <> [] -> (0 < d)%nat -> (0 < p)%nat ->
  Forall (fun q => length (fst q) = d /\ length (snd q) = p) l -> Permutation l l' ->
  exists g g', compute K M g0 (map fst l) (map snd l) true = Done g /\
    compute K M g0 (map fst l') (map snd l') true = Done g' /\
    forall v, length v = d ->
      mu K M g v = mu K M g' v /\ sigma K M g v = sigma K M g' v /\ query K M g v = query K M g' v.
Proof.
  intros F Hne D0 P0 Hl HP.
  assert (Hl' : Forall (fun q => length (fst q) = d /\ length (snd q) = p) l').
  { rewrite Forall_forall in *. intros q Hq. apply Hl. apply (Permutation_in q (Permutation_sym HP) Hq). }
  assert (Hne' : l' <> []) by (intro E; subst; apply Permutation_sym, Permutation_nil in HP; auto).
  assert (V : forall ll, ll <> [] -> Forall (fun q => length (fst q) = d /\ length (snd q) = p) ll ->
    valid_all K M s0 [Compute (map fst ll) (map snd ll) true] /\ length (hd [] (map fst ll)) = d /\ length (hd [] (map snd ll)) = p).
  { intros ll Hn HF. destruct ll as [|[x y] ll]; [congruence|]. inversion HF as [|? ? [Ex Ey] HF']. simpl in Ex, Ey.
    cbn [valid_all valid map hd fst snd]. rewrite Ex, Ey. split; [|auto]. split; [|auto]. split; [discriminate|].
    split; [simpl; now rewrite !map_length|]. rewrite Forall_forall in HF'.
    split; (split; [assumption|constructor; [assumption|]]); apply Forall_forall; intros v Hv; apply in_map_iff in Hv;
      destruct Hv as (q & <- & Hq); now apply HF'. }
  destruct (V l Hne Hl) as (V1 & W1 & W2). destruct (V l' Hne' Hl') as (V1' & W1' & W2').
  destruct (run_progress K M KO MO _ g0 s0 (fresh_inv _ _ _ _ _ _ F) V1) as (g & Eg & Ig).
  destruct (run_progress K M KO MO _ g0 s0 (fresh_inv _ _ _ _ _ _ F) V1') as (g' & Eg' & Ig').
  exists g, g'. cbn [run exec] in Eg, Eg'.
  assert (T : forall o gg, bind o (fun g => Done g) = Done gg -> o = @Done gp gg) by (intros [] gg H; simpl in H; congruence).
  split; [now apply T|]. split; [now apply T|].
  intros v Hv. cbn [meaning fold_left s_step] in Ig, Ig'. rewrite W1, W2 in Ig. rewrite W1', W2' in Ig'.
  set (k := if same (s_din K M s0) d then s_k K M s0 else k_new K d) in *.
  set (m := if same (s_dout K M s0) p then s_m K M s0 else m_new M p) in *.
  match type of Ig with GPFacts.inv _ _ _ _ _ ?x => set (s := x) in * end.
  match type of Ig' with GPFacts.inv _ _ _ _ _ ?x => set (s' := x) in * end.
  apply (Permutation_nth l l' ([], [])) in HP. cbn zeta in HP. destruct HP as (Hlen & f & Hf & Hinj & Hnth).
  destruct (predict K M KO MO g s v) as [(B & HB) Hp]; auto.
  { now apply inv_linv. } { eapply inv_alpha; eauto. } { unfold s. simpl. destruct l; [congruence|discriminate]. }
  { simpl. now rewrite Hv. }
  destruct (Hp B HB) as (F1 & F2 & F3).
  destruct (predict K M KO MO g' s' v) as [_ Hp']; auto.
  { now apply inv_linv. } { eapply inv_alpha; eauto. } { unfold s'. simpl. destruct l'; [congruence|discriminate]. }
  { simpl. now rewrite Hv. }
  unfold s in HB. cbn [s_xs s_k] in HB. rewrite map_length in HB.
  destruct (Hp' (fun i j => B (f i) (f j))) as (F1' & F2' & F3').
  { unfold s'. cbn [s_xs s_k]. rewrite map_length, Hlen. apply (perm_inv l l' f); auto. }
  rewrite F1, F2, F3, F1', F2', F3'. unfold predicts_mean, predicts_var, s, s'. cbn [s_xs s_ys s_k s_m s_dout oget].
  rewrite (perm_post_var l l' f) by auto.
  assert (Em : vec_of p (post_mean K M k m (map fst l') (map snd l') p (fun i j => B (f i) (f j)) v)
             = vec_of p (post_mean K M k m (map fst l) (map snd l) p B v)).
  { apply vec_of_ext. intros j _. apply (perm_post_mean l l' f); auto. }
  rewrite Em. auto.
Qed.

(** ** C27: bounds and monotonicity of the predicted variance *)
Lemma clamp_nonneg r : 0 <= clamp r.
Proof. unfold clamp. assert (0 < / 2 ^ 52) by (apply Rinv_0_lt_compat, pow_lt; lra). destruct (Rle_dec r (/ 2 ^ 52)); lra. Qed.
Lemma clamp_mono r t : r <= t -> clamp r <= clamp t.
Proof.
  intro H. pose proof (clamp_nonneg t). unfold clamp in *. destruct (Rle_dec r (/ 2 ^ 52)); auto.
  destruct (Rle_dec t (/ 2 ^ 52)); lra.
Qed.
Lemma clamp_le r t : r <= t -> 0 <= t -> clamp r <= t.
Proof. intros H H0. unfold clamp. destruct (Rle_dec r (/ 2 ^ 52)); lra. Qed.

Lemma ker_diag_nonneg d st v : kok KO d st -> length v = d -> 0 <= k_ker K st v v.
Proof.
  intros Hk Hv. pose proof (kok_psd KO d st 1 (fun _ => v) Hk (fun _ _ => Hv) (fun _ => 1)) as H.
  unfold quad in H. simpl in H. lra.
Qed.

Theorem C27_variance_bounds g0 s0 os g :
  fresh K M g0 s0 -> run K M g0 os = Done g ->
  let s := meaning K M s0 os in
  s_dk K M s = false -> s_dm K M s = false ->
  forall v, s_din K M s = Some (length v) ->
  exists va, sigma K M g v = Done va /\
    k_noise K (s_k K M s) <= va <= k_ker K (s_k K M s) v v + k_noise K (s_k K M s) /\ 0 <= va /\
    (s_xs K M s = [] -> va = k_ker K (s_k K M s) v v + k_noise K (s_k K M s)).
Proof.
  intros F E s Hk Hm v Hv. assert (I : inv g s) by (eapply run_inv; eauto; now apply fresh_inv).
  pose proof (v_kok _ _ _ _ _ _ I _ Hv) as Hok.
  pose proof (kok_noise KO _ _ Hok) as Hn. pose proof (ker_diag_nonneg _ _ v Hok eq_refl) as Hd.
  destruct (s_xs K M s) eqn:Ex.
  - unfold sigma. rewrite (v_samples _ _ _ _ _ _ I), Ex, (v_din _ _ _ _ _ _ I), Hv, (v_k _ _ _ _ _ _ I). simpl onat_eqb.
    rewrite Nat.eqb_refl. cbn [check]. rewrite kop0_ker. eexists. split; [reflexivity|]. split; [split; lra|]. split; [lra|auto].
  - rewrite <- Ex in *. assert (Hx : s_xs K M s <> []) by (rewrite Ex; discriminate).
    pose proof (inv_linv _ _ _ _ _ _ I) as J.
    destruct (predict K M KO MO g s v J (inv_alpha _ _ _ _ _ _ I) Hx Hk Hm Hv) as [(B & HB) Hp].
    destruct (Hp B HB) as (_ & E2 & _). exists (predicts_var K M s B v). split; [exact E2|].
    destruct (w_nonempty _ _ _ _ _ _ J Hx) as (_ & _ & _ & _ & _ & _ & HL). destruct (HL Hk) as (_ & _ & L3).
    unfold predicts_var. set (q := post_var K (s_k K M s) (s_xs K M s) B v).
    assert (Hq : q <= k_ker K (s_k K M s) v v).
    { unfold q, post_var. cbn zeta. rewrite (quad_chol _ _ _ _ _ L3 HB).
      assert (0 <= rsum (length (s_xs K M s)) (fun i => fwd (length (s_xs K M s)) (at_ (g_L K M g)) (cov K (s_k K M s) (s_xs K M s) v) i *
        fwd (length (s_xs K M s)) (at_ (g_L K M g)) (cov K (s_k K M s) (s_xs K M s) v) i)) by (apply rsum_nonneg; intros; nra). unfold N. lra. }
    pose proof (clamp_nonneg q). pose proof (clamp_le q _ Hq Hd).
    split; [lra|]. split; [lra|]. intro E0. congruence.
Qed.

(** more data never increases the variance *)
Theorem C27_more_data_less_variance g0 s0 os g j1 j2 x y g' :
  fresh K M g0 s0 -> run K M g0 os = Done g ->
  let s := meaning K M s0 os in
  s_dk K M s = false -> s_dm K M s = false ->
  s_din K M s = Some (length x) -> add_sample K M j1 j2 g x y = Done g' ->
  forall v, length v = length x ->
  exists va va', sigma K M g v = Done va /\ sigma K M g' v = Done va' /\ va' <= va.
Proof.
  intros F E s Hk Hm Hd E' v Hv.
  assert (I : inv g s) by (eapply run_inv; eauto; now apply fresh_inv).
  assert (I' : inv g' (s_step K M s (Add j1 j2 x y))) by (eapply add_inv; eauto; now apply inv_linv).
  assert (Er : run K M g0 (os ++ [Add j1 j2 x y]) = Done g').
  { clear -E E'. revert g0 E. induction os as [|o os IH]; intros g0 E; cbn [run app] in *.
    - inversion E. cbn [exec]. rewrite E'. reflexivity.
    - destruct (exec K M g0 o); simpl in *; try discriminate. auto. }
  assert (Em : meaning K M s0 (os ++ [Add j1 j2 x y]) = s_step K M s (Add j1 j2 x y)) by (unfold meaning; rewrite fold_left_app; reflexivity).
  destruct (C27_variance_bounds g0 s0 os g F E Hk Hm v) as (va & S1 & B1 & _ & Z1). { fold s. now rewrite Hv. }
  pose proof (C27_variance_bounds g0 s0 _ g' F Er) as T. cbn zeta in T. rewrite Em in T.
  destruct (s_xs K M s) as [|x1 xr] eqn:Ex.
  - assert (Ek : s_k K M (s_step K M s (Add j1 j2 x y)) = s_k K M s /\ s_dk K M (s_step K M s (Add j1 j2 x y)) = false /\
                 s_dm K M (s_step K M s (Add j1 j2 x y)) = false /\ s_din K M (s_step K M s (Add j1 j2 x y)) = Some (length x)).
    { unfold s_step. rewrite Ex. cbn [s_k s_dk s_dm s_din]. rewrite Hd. simpl. rewrite Nat.eqb_refl. auto. }
    destruct Ek as (Ek & Ek2 & Ek3 & Ek4). rewrite Ek in T.
    destruct (T Ek2 Ek3 v) as (va' & S2 & B2 & _). { now rewrite Ek4, Hv. }
    exists va, va'. split; auto. split; auto. fold s in Z1. rewrite (Z1 Ex). lra.
  - assert (Hx : s_xs K M s <> []) by (rewrite Ex; discriminate).
    assert (Es : s_step K M s (Add j1 j2 x y) =
      {| s_din := s_din K M s; s_dout := s_dout K M s; s_k := s_k K M s; s_m := s_m K M s; s_xs := s_xs K M s ++ [x]; s_ys := s_ys K M s ++ [y];
         s_dk := s_dk K M s; s_dm := false |}) by (unfold s_step; rewrite Ex; reflexivity).
    rewrite Es in *. set (s' := Build_sp _ _ _ _ _ _ _ _ _ _) in *.
    pose proof (inv_linv _ _ _ _ _ _ I) as J. pose proof (inv_linv _ _ _ _ _ _ I') as J'.
    assert (Hx' : s_xs K M s' <> []) by (unfold s'; simpl; destruct (s_xs K M s); discriminate).
    destruct (predict K M KO MO g s v J (inv_alpha _ _ _ _ _ _ I) Hx Hk Hm) as [(B & HB) Hp]. { now rewrite Hv. }
    destruct (predict K M KO MO g' s' v J' (inv_alpha _ _ _ _ _ _ I') Hx' Hk eq_refl) as [(B' & HB') Hp']. { simpl. now rewrite Hv. }
    destruct (Hp B HB) as (_ & E2 & _). destruct (Hp' B' HB') as (_ & E2' & _).
    exists (predicts_var K M s B v), (predicts_var K M s' B' v). split; auto. split; auto.
    destruct (w_nonempty _ _ _ _ _ _ J Hx) as (_ & _ & _ & _ & _ & _ & HL). destruct (HL Hk) as (_ & _ & L3).
    destruct (w_nonempty _ _ _ _ _ _ J' Hx') as (_ & _ & _ & _ & _ & _ & HL'). destruct (HL' Hk) as (_ & _ & L3').
    unfold predicts_var. change (s_k K M s') with (s_k K M s). apply Rplus_le_compat_r, clamp_mono.
    unfold post_var. cbn zeta. rewrite (quad_chol _ _ _ _ _ L3 HB), (quad_chol _ _ _ _ _ L3' HB').
    unfold Rminus. apply Rplus_le_compat_l, Ropp_le_contravar.
    unfold N in *. change (s_xs K M s') with (s_xs K M s ++ [x]). change (s_xs K M s') with (s_xs K M s ++ [x]) in L3'.
    assert (Hn1 : length (s_xs K M s ++ [x]) = S (length (s_xs K M s))) by (rewrite app_length; simpl; lia).
    rewrite Hn1 in *. set (n := length (s_xs K M s)) in *. cbn [rsum].
    set (z' := fwd (S n) (at_ (g_L K M g')) (cov K (s_k K M s) (s_xs K M s ++ [x]) v)).
    rewrite (rsum_ext n _ (fun i => z' i * z' i)); [nra|].
    intros i Hi. assert (Ez : z' i = fwd n (at_ (g_L K M g)) (cov K (s_k K M s) (s_xs K M s) v) i); [|now rewrite Ez].
    unfold z'. rewrite (fwd_stable n (S n)) by lia. apply fwd_ext; auto.
    + apply is_chol_minor in L3'. intros a b Ha Hb.
      apply (chol_unique n _ _ (G K M s)); try lia; auto.
      eapply is_chol_ext; [|exact L3']. intros a' b' Ha' Hb'. unfold G, gram, x_, s'. cbn [s_k s_xs]. rewrite !app_nth1 by lia. reflexivity.
    + intros a Ha. unfold cov, x_. rewrite app_nth1 by lia. reflexivity.
Qed.

(** ** C28: interpolation up to noise *)
Theorem C28_interpolation g0 s0 os g :
  fresh K M g0 s0 -> run K M g0 os = Done g ->
  let s := meaning K M s0 os in
  let n := length (s_xs K M s) in let p := oget (s_dout K M s) in
  s_xs K M s <> [] -> s_dk K M s = false -> s_dm K M s = false ->
  (* the dual coefficients held by the GP solve the kernel system *)
  (forall r j, (r < n)%nat -> (j < p)%nat ->
     rsum n (fun c => gram K (s_k K M s) (s_xs K M s) r c * at_ (g_alpha K M g) c j)
     = resid M (s_m K M s) (s_xs K M s) (s_ys K M s) p r j) /\
  (* and measure the residual at the samples *)
  (forall i, (i < n)%nat -> exists m, mu K M g (x_ (s_xs K M s) i) = Done m /\ length m = p /\
     forall j, (j < p)%nat ->
       vget m j = y_ (s_ys K M s) i j - (k_noise K (s_k K M s) + / 100000000) * at_ (g_alpha K M g) i j).
Proof.
  intros F E s n p Hx Hk Hm. assert (I : inv g s) by (eapply run_inv; eauto; now apply fresh_inv).
  pose proof (inv_linv _ _ _ _ _ _ I) as J. destruct (inv_alpha _ _ _ _ _ _ I Hk Hm Hx) as (A1 & A2 & A3).
  split; [intros r j Hr Hj; exact (A3 j Hj r Hr)|].
  intros i Hi.
  destruct (w_nonempty _ _ _ _ _ _ J Hx) as ((d & D1 & D2 & D3) & _).
  assert (Hlx : forall c, (c < n)%nat -> length (x_ (s_xs K M s) c) = d).
  { intros c Hc. rewrite Forall_forall in D3. apply D3, nth_In, Hc. }
  destruct (predict K M KO MO g s (x_ (s_xs K M s) i) J (inv_alpha _ _ _ _ _ _ I) Hx Hk Hm) as [(B & HB) Hp].
  { rewrite Hlx; auto. }
  destruct (Hp B HB) as (E1 & _ & _). eexists. split; [exact E1|]. split; [apply vec_of_length|].
  intros j Hj. unfold predicts_mean. rewrite vget_vec_of by auto. unfold post_mean. cbn zeta.
  set (k := s_k K M s) in *. set (xs := s_xs K M s) in *. set (al := fun c => at_ (g_alpha K M g) c j).
  assert (Eal : forall c, (c < n)%nat -> rsum n (fun b => B c b * resid M (s_m K M s) xs (s_ys K M s) p b j) = al c).
  { intros c Hc. symmetry. exact (inv_solves _ _ _ _ _ HB (A3 j Hj) c Hc). }
  rewrite (rsum_ext _ _ (fun a => cov K k xs (x_ xs i) a * al a)).
  2:{ intros a Ha. rewrite <- Eal by auto. rewrite <- rsum_scal_l. apply rsum_ext. intros b _. unfold p. lra. }
  pose proof (A3 j Hj i Hi) as Ei. unfold mvec, col, G, Rs, N in Ei. fold k xs p n in Ei. unfold resid in Ei.
  fold n. change (oget (s_dout K M s)) with p.
  assert (Sum : rsum n (fun a => gram K k xs i a * at_ (g_alpha K M g) a j)
              = rsum n (fun a => cov K k xs (x_ xs i) a * al a) + (k_noise K k + / 100000000) * al i).
  { rewrite <- (rsum_delta' n i (fun a => (k_noise K k + / 100000000) * al a)) by auto. rewrite <- rsum_plus.
    apply rsum_ext. intros a Ha. unfold gram, cov, al.
    rewrite (kok_sym KO d k (x_ xs i) (x_ xs a)); auto. 2:{ now apply (w_kok _ _ _ _ _ _ J). }
    destruct (i =? a)%nat; lra. }
  rewrite Sum in Ei. change (at_ (g_alpha K M g) i j) with (al i). lra.
Qed.

(** ** C29: the cached inverse.
    Full property: for all histories, including [load].  It fails after [load(archive, false)]
    (see [C29_stale_inverse_after_load_refuted]) and is proved for histories without [load]. *)
Theorem C29_cached_inverse_partial g0 s0 os g :
  fresh K M g0 s0 -> run K M g0 os = Done g ->
  let s := meaning K M s0 os in
  let n := length (s_xs K M s) in
  s_xs K M s <> [] -> s_dk K M s = false ->
  exists g', need_inv K M g = Done g' /\ rows (g_inv K M g') = n /\ cols (g_inv K M g') = n /\
    is_inv n (gram K (s_k K M s) (s_xs K M s)) (at_ (g_inv K M g')) /\
    (* the routines that use the inverse use that one *)
    (forall gg r, compute_kernel_grad_log_lik K M g = Done (gg, r) -> gg = g') /\
    (forall gg r, compute_mean_grad_log_lik K M g = Done (gg, r) -> gg = g') /\
    (forall gg r, compute_log_loo_cv K M g = Done (gg, r) -> gg = g') /\
    (forall gg r, compute_kernel_grad_log_loo_cv K M g = Done (gg, r) -> gg = g').
Proof.
  intros F E s n Hx Hk. assert (I : inv g s) by (eapply run_inv; eauto; now apply fresh_inv).
  assert (X : exists g', need_inv K M g = Done g' /\ rows (g_inv K M g') = n /\ cols (g_inv K M g') = n /\
    is_inv n (gram K (s_k K M s) (s_xs K M s)) (at_ (g_inv K M g'))).
  { unfold need_inv. destruct (v_nonempty _ _ _ _ _ _ I Hx) as (_ & _ & _ & _ & _ & _ & A7 & _ & _ & A10).
    destruct (A10 Hk) as (L1 & L2 & L3 & L4 & _).
    destruct (g_inv_updated K M g) eqn:Eu; [exists g; split; auto|].
    unfold compute_inv_kernel. rewrite A7, L1, L2, Nat.eqb_refl. cbn [andb check]. rewrite lower_diag_ok by apply L3.
    eexists. split; [reflexivity|]. cbn [g_inv rows cols at_]. split; [reflexivity|]. split; [reflexivity|].
    apply (inv_of_is_inv _ _ _ L3). }
  destruct X as (g' & X1 & X2 & X3 & X4). exists g'. repeat (split; [assumption|]).
  unfold compute_kernel_grad_log_lik, compute_mean_grad_log_lik, compute_log_loo_cv, compute_kernel_grad_log_loo_cv.
  rewrite X1. cbn [bind].
  repeat split; intros gg r H; apply check_done in H; destruct H as [_ H]; try (now inversion H);
    destruct (all_pos _ _) in H; now inversion H.
Qed.
End Predictions.
