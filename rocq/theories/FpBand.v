(** Facts for C78: functions in the reproducing kernel Hilbert space of the kernel stay inside the confidence
    band of the posterior, and the posterior variance at a point that was sampled [k] times is at most
    [noise / k]. *)
From Coq Require Import ZArith List Bool Lia Reals Lra.
From Flocq Require Import Core.
From Verif Require Import LinAlgModel LinAlg FpAlg FpChol FpSolve FpGp Prop_Fp.
Import ListNotations.
Open Scope R_scope.

(** sums over lists *)
Fixpoint lsum {A} (f : A -> R) (l : list A) : R := match l with [] => 0 | e :: r => f e + lsum f r end.
Lemma lsum_app {A} (f : A -> R) l r : lsum f (l ++ r) = lsum f l + lsum f r.
Proof. induction l; simpl; [lra|]. rewrite IHl. lra. Qed.
Lemma lsum_ext {A} (f g : A -> R) l : (forall e, In e l -> f e = g e) -> lsum f l = lsum g l.
Proof. induction l; intros H; simpl; auto. rewrite IHl, H; auto; [now left|]. intros e He. apply H. now right. Qed.
Lemma lsum_plus {A} (f g : A -> R) l : lsum (fun e => f e + g e) l = lsum f l + lsum g l.
Proof. induction l; simpl; [lra|]. rewrite IHl. lra. Qed.
Lemma lsum_scal {A} (f : A -> R) c l : lsum (fun e => c * f e) l = c * lsum f l.
Proof. induction l; simpl; [lra|]. rewrite IHl. lra. Qed.
Lemma lsum_0 {A} (l : list A) : lsum (fun _ => 0) l = 0.
Proof. induction l; simpl; lra. Qed.
Lemma lsum_swap {A B} (f : A -> B -> R) l r : lsum (fun a => lsum (f a) r) l = lsum (fun b => lsum (fun a => f a b) l) r.
Proof. induction l; simpl; [now rewrite lsum_0|]. rewrite IHl, <- lsum_plus. reflexivity. Qed.
Lemma lsum_map {A B} (f : B -> R) (g : A -> B) l : lsum f (map g l) = lsum (fun a => f (g a)) l.
Proof. induction l; simpl; auto. now rewrite IHl. Qed.
Lemma lsum_rsum n f : lsum f (seq 0 n) = rsum n f.
Proof. induction n; auto. rewrite seq_S, lsum_app, IHn. simpl. lra. Qed.
Lemma lsum_nth {A} (f : A -> R) l d : lsum f l = rsum (length l) (fun i => f (nth i l d)).
Proof. induction l; auto. cbn [length]. rewrite rsum_S_first. simpl. now rewrite IHl. Qed.

Section Space.
  Context {T : Type}.
  Variable k : T -> T -> R.
  Variable G : T -> Prop.
  Hypothesis ksym : forall x y, G x -> G y -> k x y = k y x.
  Hypothesis kpsd : forall n pts, (forall i, (i < n)%nat -> G (pts i)) -> psd n (fun i j => k (pts i) (pts j)).

  (** the finite combinations of kernel functions [c_1 k(z_1, .) + ... + c_l k(z_l, .)] *)
  Definition comb := list (R * T).
  Definition ap (h : comb) (v : T) : R := lsum (fun e => fst e * k (snd e) v) h.
  Definition ip (h h' : comb) : R := lsum (fun e => fst e * ap h (snd e)) h'.
  Definition inG (h : comb) : Prop := forall e, In e h -> G (snd e).
  Definition scale (t : R) (h : comb) : comb := map (fun e => (t * fst e, snd e)) h.

  Lemma ap_app h h' v : ap (h ++ h') v = ap h v + ap h' v.
  Proof. apply lsum_app. Qed.
  Lemma ap_scale t h v : ap (scale t h) v = t * ap h v.
  Proof. unfold ap, scale. rewrite lsum_map, <- lsum_scal. apply lsum_ext. intros e _. cbn. ring. Qed.
  Lemma ip_app_r h a b : ip h (a ++ b) = ip h a + ip h b.
  Proof. apply lsum_app. Qed.
  Lemma ip_app_l a b h : ip (a ++ b) h = ip a h + ip b h.
  Proof. unfold ip. rewrite <- lsum_plus. apply lsum_ext. intros e _. rewrite ap_app. ring. Qed.
  Lemma ip_scale_l t a h : ip (scale t a) h = t * ip a h.
  Proof. unfold ip. rewrite <- lsum_scal. apply lsum_ext. intros e _. rewrite ap_scale. ring. Qed.
  Lemma ip_scale_r t a h : ip h (scale t a) = t * ip h a.
  Proof. unfold ip, scale. rewrite lsum_map, <- lsum_scal. apply lsum_ext. intros e _. cbn. ring. Qed.
  Lemma ip_sym a b : inG a -> inG b -> ip a b = ip b a.
  Proof.
    intros Ga Gb. unfold ip, ap. transitivity (lsum (fun e => lsum (fun e' => fst e * (fst e' * k (snd e') (snd e))) a) b).
    - apply lsum_ext. intros e _. now rewrite <- lsum_scal.
    - rewrite lsum_swap. apply lsum_ext. intros e He. rewrite <- lsum_scal. apply lsum_ext. intros e' He'. rewrite (ksym (snd e) (snd e')) by auto. ring.
  Qed.
  Lemma inG_app a b : inG a -> inG b -> inG (a ++ b).
  Proof. intros Ga Gb e He. apply in_app_or in He. destruct He; auto. Qed.
  Lemma inG_scale t a : inG a -> inG (scale t a).
  Proof. intros Ga e He. apply in_map_iff in He. destruct He as (e' & <- & He). cbn. auto. Qed.
  Lemma ip_nonneg a : inG a -> 0 <= ip a a.
  Proof.
    intros Ga. destruct a as [|e0 a]; [cbn; lra|]. set (l := e0 :: a) in *.
    pose proof (kpsd (length l) (fun i => snd (nth i l e0)) (fun i Hi => Ga _ (nth_In l e0 Hi)) (fun i => fst (nth i l e0))) as H.
    replace (ip l l) with (quad (length l) (fun i j => k (snd (nth i l e0)) (snd (nth j l e0))) (fun i => fst (nth i l e0))); auto.
    unfold quad, ip. rewrite rsum_swap, (lsum_nth _ l e0). apply rsum_ext. intros i Hi. unfold ap. rewrite (lsum_nth _ l e0), <- rsum_scal_l. apply rsum_ext. intros j Hj. ring.
  Qed.
  Lemma ip_cs a b : inG a -> inG b -> ip a b * ip a b <= ip a a * ip b b.
  Proof.
    intros Ga Gb. pose proof (ip_nonneg a Ga) as Pa. pose proof (ip_nonneg b Gb) as Pb.
    assert (H : forall s t, 0 <= s * s * ip a a + 2 * (s * t) * ip a b + t * t * ip b b).
    { intros s t. pose proof (ip_nonneg (scale s a ++ scale t b) (inG_app _ _ (inG_scale s a Ga) (inG_scale t b Gb))) as H.
      rewrite ip_app_l, !ip_app_r, !ip_scale_l, !ip_scale_r, (ip_sym b a Gb Ga) in H. lra. }
    destruct (Req_dec (ip b b) 0) as [Z|Z].
    - rewrite Z, Rmult_0_r. destruct (Req_dec (ip a b) 0) as [->|N]; [lra|]. exfalso. specialize (H 1 (- (ip a a + 1) / (2 * ip a b))). rewrite Z in H.
      replace (1 * 1 * ip a a + 2 * (1 * (- (ip a a + 1) / (2 * ip a b))) * ip a b + - (ip a a + 1) / (2 * ip a b) * (- (ip a a + 1) / (2 * ip a b)) * 0) with (-1) in H by (field; auto). lra.
    - specialize (H (ip b b) (- ip a b)). apply Rmult_le_reg_l with (ip b b); [lra|]. lra.
  Qed.
  (** a function of norm at most [Lam] *)
  Lemma ap_bound h c Lam : inG h -> inG c -> 0 <= Lam -> ip h h <= Lam * Lam -> Rabs (ip h c) <= Lam * sqrt (ip c c).
  Proof.
    intros Gh Gc L0 HL. pose proof (ip_cs h c Gh Gc) as CS. pose proof (ip_nonneg c Gc) as Pc.
    rewrite <- (sqrt_Rsqr_abs (ip h c)). rewrite <- (sqrt_square Lam) at 1 by auto. rewrite <- sqrt_mult_alt by now apply Rmult_le_pos.
    apply sqrt_le_1_alt. unfold Rsqr. apply Rle_trans with (1 := CS). now apply Rmult_le_compat_r.
  Qed.

  (** ** The posterior *)
  Variables (n : nat) (pts : nat -> T) (B : nat -> nat -> R) (eta : R).
  Hypothesis Gp : forall i, (i < n)%nat -> G (pts i).
  Hypothesis He : 0 < eta.
  Let K i j := k (pts i) (pts j).
  Hypothesis HB : is_inv n (noisy K eta) B.
  Definition pvar (v : T) : R := k v v - rsum n (fun i => k (pts i) v * rsum n (fun j => B i j * k (pts j) v)).
  Definition sam (w : nat -> R) : comb := map (fun i => (w i, pts i)) (seq 0 n).

  Lemma ap_sam w v : ap (sam w) v = rsum n (fun i => w i * k (pts i) v).
  Proof. unfold ap, sam. now rewrite lsum_map, lsum_rsum. Qed.
  Lemma ip_sam h w : ip h (sam w) = rsum n (fun i => w i * ap h (pts i)).
  Proof. unfold ip, sam. now rewrite lsum_map, lsum_rsum. Qed.
  Lemma inG_sam w : inG (sam w).
  Proof. intros e H. apply in_map_iff in H. destruct H as (i & <- & Hi). apply in_seq in Hi. apply Gp. lia. Qed.
  Lemma sam_quad w : ip (sam w) (sam w) = quad n K w.
  Proof.
    rewrite ip_sam. unfold quad. rewrite rsum_swap. apply rsum_ext. intros i Hi. rewrite ap_sam, <- rsum_scal_l. apply rsum_ext. intros j Hj. unfold K. ring.
  Qed.
  Lemma quad_noise w : quad n (noisy K eta) w = quad n K w + eta * ssq n w.
  Proof.
    unfold quad, noisy, ssq. rewrite <- rsum_scal_l, <- rsum_plus. apply rsum_ext. intros i Hi.
    rewrite (rsum_ext n (fun j => w i * w j * (K i j + (if (i =? j)%nat then eta else 0))) (fun j => w i * w j * K i j + (if (i =? j)%nat then w i * w j * eta else 0))).
    - rewrite rsum_plus, rsum_delta' by auto. ring.
    - intros j _. destruct (i =? j)%nat; lra.
  Qed.
  Lemma K_symm : symm n K.
  Proof. intros i j Hi Hj. apply ksym; auto. Qed.
  Lemma B_sym : symm n B.
  Proof. apply (right_inv_symm n (noisy K eta) B (noisy_symm _ _ _ K_symm)). apply HB. Qed.
  (** [k_v' B r = (B k_v)' r] *)
  Lemma dual r u : rsum n (fun i => r i * rsum n (fun j => B i j * u j)) = rsum n (fun i => mvec n B r i * u i).
  Proof.
    transitivity (rsum n (fun i => rsum n (fun j => r i * (B i j * u j)))); [apply rsum_ext; intros; now rewrite rsum_scal_l|].
    rewrite rsum_swap. apply rsum_ext. intros i Hi. unfold mvec. rewrite <- rsum_scal_r. apply rsum_ext. intros j Hj. rewrite (B_sym j i Hj Hi). ring.
  Qed.
  Lemma energy r : quad n K (mvec n B r) + eta * ssq n (mvec n B r) = rsum n (fun i => mvec n B r i * r i).
  Proof. rewrite <- quad_noise, quad_mvec. apply rsum_ext. intros i Hi. now rewrite (inv_mvec n _ B r HB i Hi). Qed.
  Lemma ssq_pos w : 0 <= eta * ssq n w.
  Proof. apply Rmult_le_pos; [lra|apply ssq_nonneg]. Qed.

  (** the confidence band: the posterior mean of exact values of [h] *)
  Lemma band h v Lam : inG h -> G v -> 0 <= Lam -> ip h h <= Lam * Lam ->
    Rabs (ap h v - rsum n (fun i => k (pts i) v * rsum n (fun j => B i j * ap h (pts j)))) <= Lam * sqrt (pvar v).
  Proof.
    intros Gh Gv L0 HL. rewrite dual. set (kv := fun i => k (pts i) v). set (b := mvec n B kv).
    set (c := (1, v) :: sam (fun i => - b i)).
    assert (Gc : inG c). { intros e [<-|H]; [exact Gv|]. now apply inG_sam in H. }
    assert (E1 : ip h c = ap h v - rsum n (fun i => b i * ap h (pts i))).
    { change (ip h c) with (1 * ap h v + ip h (sam (fun i => - b i))). rewrite ip_sam.
      rewrite (rsum_ext n (fun i => - b i * ap h (pts i)) (fun i => - (b i * ap h (pts i)))) by (intros; ring). rewrite rsum_opp. ring. }
    assert (E2 : ip c c = k v v - 2 * rsum n (fun i => b i * kv i) + quad n K b).
    { change c with ([(1, v)] ++ sam (fun i => - b i)). rewrite ip_app_l, !ip_app_r, sam_quad, ip_sam.
      rewrite (ip_sym (sam _) [(1, v)]); [|apply inG_sam|intros e [<-|[]]; exact Gv]. rewrite ip_sam. unfold ip, ap. cbn [lsum fst snd].
      rewrite (rsum_ext n (fun i => - b i * (1 * k v (pts i) + 0)) (fun i => - (b i * kv i))) by (intros i Hi; unfold kv; rewrite (ksym v (pts i)) by auto; ring). rewrite rsum_opp.
      replace (quad n K (fun i => - b i)) with (quad n K b) by (unfold quad; apply rsum_ext; intros; apply rsum_ext; intros; ring). ring. }
    pose proof (energy kv) as En. fold b in En. pose proof (ssq_pos b) as Sp.
    assert (PV : pvar v = k v v - rsum n (fun i => b i * kv i)) by (unfold pvar; rewrite (dual (fun i => k (pts i) v) (fun j => k (pts j) v)); reflexivity).
    rewrite <- E1. apply Rle_trans with (1 := ap_bound h c Lam Gh Gc L0 HL). apply Rmult_le_compat_l; auto. apply sqrt_le_1_alt. rewrite E2, PV. lra.
  Qed.
  (** the posterior variance bounds the weights of the observations in the posterior mean *)
  Lemma gain v : G v -> eta * ssq n (mvec n B (fun i => k (pts i) v)) <= pvar v.
  Proof.
    intros Gv. set (kv := fun i => k (pts i) v). set (b := mvec n B kv). set (c := (1, v) :: sam (fun i => - b i)).
    assert (Gc : inG c). { intros e [<-|H]; [exact Gv|]. now apply inG_sam in H. }
    assert (E2 : ip c c = k v v - 2 * rsum n (fun i => b i * kv i) + quad n K b).
    { change c with ([(1, v)] ++ sam (fun i => - b i)). rewrite ip_app_l, !ip_app_r, sam_quad, ip_sam.
      rewrite (ip_sym (sam _) [(1, v)]); [|apply inG_sam|intros e [<-|[]]; exact Gv]. rewrite ip_sam. unfold ip, ap. cbn [lsum fst snd].
      rewrite (rsum_ext n (fun i => - b i * (1 * k v (pts i) + 0)) (fun i => - (b i * kv i))) by (intros i Hi; unfold kv; rewrite (ksym v (pts i)) by auto; ring). rewrite rsum_opp.
      replace (quad n K (fun i => - b i)) with (quad n K b) by (unfold quad; apply rsum_ext; intros; apply rsum_ext; intros; ring). ring. }
    pose proof (energy kv) as En. fold b in En. pose proof (ip_nonneg c Gc) as P. rewrite E2 in P.
    assert (PV : pvar v = k v v - rsum n (fun i => b i * kv i)) by (unfold pvar; rewrite (dual (fun i => k (pts i) v) (fun j => k (pts j) v)); reflexivity).
    rewrite PV. lra.
  Qed.
  Lemma l1_l2 w c : 0 <= c -> eta * ssq n w <= c -> rsum n (fun i => Rabs (w i)) <= sqrt (INR n / eta) * sqrt c.
  Proof.
    intros Hc H. assert (N0 : 0 <= INR n / eta) by (apply Rmult_le_pos; [apply pos_INR|left; now apply Rinv_0_lt_compat]). rewrite <- sqrt_mult_alt by auto.
    assert (A0 : 0 <= rsum n (fun i => Rabs (w i))) by (apply rsum_nonneg; intros; apply Rabs_pos). rewrite <- (sqrt_square (rsum n _)) by auto. apply sqrt_le_1_alt.
    rewrite rsum_mul. apply Rle_trans with (1 := abs_sum_sq n w). replace (INR n / eta * c) with (INR n * (c / eta)) by (field; lra). apply Rmult_le_compat_l; [apply pos_INR|].
    apply Rmult_le_reg_l with eta; auto. replace (eta * (c / eta)) with c by (field; lra). exact H.
  Qed.
  (** the same for observations of [h] with errors *)
  Lemma band_noisy h v Lam r eps : inG h -> G v -> 0 <= Lam -> ip h h <= Lam * Lam -> 0 <= eps -> (forall i, (i < n)%nat -> Rabs (r i - ap h (pts i)) <= eps) ->
    Rabs (ap h v - rsum n (fun i => k (pts i) v * rsum n (fun j => B i j * r j))) <= (Lam + sqrt (INR n / eta) * eps) * sqrt (pvar v).
  Proof.
    intros Gh Gv L0 HL E0 Hr. pose proof (band h v Lam Gh Gv L0 HL) as Hb. rewrite dual in Hb |- *. set (b := mvec n B (fun i => k (pts i) v)) in *.
    assert (Sb : rsum n (fun i => Rabs (b i)) <= sqrt (INR n / eta) * sqrt (pvar v)).
    { apply l1_l2; [|now apply gain]. apply Rle_trans with (2 := gain v Gv). apply ssq_pos. }
    assert (D : Rabs (rsum n (fun i => b i * r i) - rsum n (fun i => b i * ap h (pts i))) <= eps * (sqrt (INR n / eta) * sqrt (pvar v))).
    { rewrite <- rsum_minus. apply Rle_trans with (1 := rsum_abs _ _). apply Rle_trans with (eps * rsum n (fun i => Rabs (b i))); [|now apply Rmult_le_compat_l].
      rewrite <- rsum_scal_l. apply rsum_le. intros i Hi. replace (b i * r i - b i * ap h (pts i)) with (b i * (r i - ap h (pts i))) by ring. rewrite Rabs_mult, Rmult_comm.
      apply Rmult_le_compat_r; [apply Rabs_pos|now apply Hr]. }
    apply Rabs_le_inv in D, Hb. apply Rabs_le. lra.
  Qed.
  (** the weights of the posterior mean of [h] *)
  Lemma weights_rkhs h Lam : inG h -> 0 <= Lam -> ip h h <= Lam * Lam ->
    eta * ssq n (mvec n B (fun j => ap h (pts j))) <= Lam * Lam.
  Proof.
    intros Gh L0 HL. set (r := fun j => ap h (pts j)). set (w := mvec n B r). pose proof (energy r) as En. fold w in En. pose proof (ssq_pos w) as Sp.
    assert (E : ip h (sam w) = rsum n (fun i => w i * r i)) by apply ip_sam.
    pose proof (ip_cs h (sam w) Gh (inG_sam w)) as CS. rewrite sam_quad, E, <- En in CS. pose proof (ip_nonneg (sam w) (inG_sam w)) as Q0. rewrite sam_quad in Q0.
    set (Q := quad n K w) in *. set (S := eta * ssq n w) in *. pose proof (ip_nonneg h Gh) as H0.
    assert (X : (Q + S) * (Q + S) <= Lam * Lam * Q) by (apply Rle_trans with (1 := CS); apply Rmult_le_compat_r; lra).
    apply Rnot_lt_le. intros C. assert (Y : Lam * Lam * Q <= S * Q) by (apply Rmult_le_compat_r; lra). assert (0 <= Lam * Lam) by (now apply Rmult_le_pos). assert (0 < S) by lra.
    assert (0 < S * S) by now apply Rmult_lt_0_compat. assert (0 <= Q * Q) by now apply Rmult_le_pos. assert (0 <= Q * S) by (apply Rmult_le_pos; lra). lra.
  Qed.
  Lemma weights_noisy h Lam r eps : inG h -> 0 <= Lam -> ip h h <= Lam * Lam -> 0 <= eps -> (forall i, (i < n)%nat -> Rabs (r i - ap h (pts i)) <= eps) ->
    rsum n (fun i => Rabs (mvec n B r i)) <= sqrt (INR n / eta) * (Lam + sqrt (INR n / eta) * eps).
  Proof.
    intros Gh L0 HL E0 Hr. pose proof (weights_rkhs h Lam Gh L0 HL) as Hw. set (r0 := fun j => ap h (pts j)) in *.
    assert (N0 : 0 <= INR n / eta) by (apply Rmult_le_pos; [apply pos_INR|left; now apply Rinv_0_lt_compat]).
    pose proof (l1_l2 (mvec n B r0) (Lam * Lam) ltac:(now apply Rmult_le_pos) Hw) as S0. rewrite (sqrt_square Lam) in S0 by auto.
    assert (S1 : rsum n (fun i => Rabs (mvec n B r i - mvec n B r0 i)) <= INR n * eps / eta).
    { apply (forward n (noisy K eta) eta (mvec n B r) (mvec n B r0) eps He (noisy_eig n K eta (kpsd n pts Gp)) E0).
      intros i Hi. rewrite !(inv_mvec n _ B _ HB i Hi). rewrite Rabs_minus_sym. now apply Hr. }
    apply Rle_trans with (rsum n (fun i => Rabs (mvec n B r i - mvec n B r0 i)) + rsum n (fun i => Rabs (mvec n B r0 i))).
    - rewrite <- rsum_plus. apply rsum_le. intros i Hi. replace (mvec n B r i) with ((mvec n B r i - mvec n B r0 i) + mvec n B r0 i) at 1 by ring. apply Rabs_triang.
    - rewrite Rmult_plus_distr_l, <- Rmult_assoc, sqrt_def by auto. replace (INR n * eps / eta) with (INR n / eta * eps) in S1 by (field; lra). lra.
  Qed.
  (** the least residual of an interpolation: any weights do no better than the posterior *)
  Lemma pvar_least v w : pvar v <= k v v - 2 * rsum n (fun i => w i * k (pts i) v) + quad n K w + eta * ssq n w.
  Proof.
    set (kv := fun i => k (pts i) v). set (b := mvec n B kv).
    assert (PV : pvar v = k v v - rsum n (fun i => b i * kv i)) by (unfold pvar; rewrite (dual (fun i => k (pts i) v) (fun j => k (pts j) v)); reflexivity).
    pose proof (noisy_eig n K eta (kpsd n pts Gp) (fun i => w i - b i)) as P. cbv beta in P.
    assert (0 <= eta * ssq n (fun i => w i - b i)) by apply ssq_pos.
    assert (Ex : quad n (noisy K eta) (fun i => w i - b i) = quad n (noisy K eta) w - 2 * rsum n (fun i => w i * kv i) + rsum n (fun i => b i * kv i)).
    { rewrite !quad_mvec.
      assert (M1 : forall i, (i < n)%nat -> mvec n (noisy K eta) (fun i => w i - b i) i = mvec n (noisy K eta) w i - kv i).
      { intros i Hi. transitivity (mvec n (noisy K eta) w i - mvec n (noisy K eta) b i); [|unfold b; now rewrite (inv_mvec n _ B kv HB i Hi)]. unfold mvec. rewrite <- rsum_minus. apply rsum_ext. intros; ring. }
      rewrite (rsum_ext n _ (fun i => w i * mvec n (noisy K eta) w i - w i * kv i - (b i * mvec n (noisy K eta) w i) + b i * kv i)) by (intros i Hi; rewrite M1 by auto; ring).
      rewrite rsum_plus, !rsum_minus.
      assert (M2 : rsum n (fun i => b i * mvec n (noisy K eta) w i) = rsum n (fun i => w i * kv i)).
      { transitivity (rsum n (fun i => w i * mvec n (noisy K eta) b i)).
        - unfold mvec. transitivity (rsum n (fun i => rsum n (fun j => b i * (noisy K eta i j * w j)))); [apply rsum_ext; intros; now rewrite rsum_scal_l|].
          rewrite rsum_swap. apply rsum_ext. intros i Hi. rewrite <- rsum_scal_l. apply rsum_ext. intros j Hj. rewrite (noisy_symm n K eta K_symm i j Hi Hj). ring.
        - apply rsum_ext. intros i Hi. unfold b. now rewrite (inv_mvec n _ B kv HB i Hi). }
      rewrite M2. ring. }
    rewrite PV. rewrite Ex, quad_noise in P. unfold kv in *. lra.
  Qed.
  (** a point sampled [c] times *)
  Lemma pvar_repeat v (I : nat -> bool) c : (1 <= c)%nat -> G v -> rsum n (fun i => if I i then 1 else 0) = INR c ->
    (forall i, (i < n)%nat -> I i = true -> pts i = v) -> pvar v <= eta / INR c.
  Proof.
    intros Hc Gv HI HE. assert (Pc : 0 < INR c) by (apply lt_0_INR; lia). set (ind := fun i => if I i then 1 else 0) in *. set (w := fun i => / INR c * ind i).
    assert (W1 : rsum n w = 1) by (unfold w; rewrite rsum_scal_l, HI; field; lra).
    assert (W2 : ssq n w = / INR c).
    { unfold ssq. rewrite (rsum_ext n (fun i => w i * w i) (fun i => / INR c * w i)); [rewrite rsum_scal_l, W1; ring|]. intros i _. unfold w, ind. destruct (I i); ring. }
    assert (Z : forall i f, (i < n)%nat -> w i * f (pts i) = w i * f v).
    { intros i f Hi. unfold w, ind. destruct (I i) eqn:E; [now rewrite (HE i Hi E)|ring]. }
    pose proof (pvar_least v w) as P.
    rewrite (rsum_ext n (fun i => w i * k (pts i) v) (fun i => w i * k v v)) in P by (intros i Hi; exact (Z i (fun x => k x v) Hi)).
    assert (Q : quad n K w = k v v).
    { unfold quad, K. rewrite (rsum_ext n _ (fun i => w i * k v v)); [rewrite rsum_scal_r, W1; ring|]. intros i Hi.
      rewrite (rsum_ext n _ (fun j => (w i * k v v) * w j)); [rewrite rsum_scal_l, W1; ring|]. intros j Hj.
      replace (w i * w j * k (pts i) (pts j)) with (w j * (w i * k (pts i) (pts j))) by ring. rewrite (Z i (fun x => k x (pts j)) Hi).
      replace (w j * (w i * k v (pts j))) with (w i * (w j * k v (pts j))) by ring. rewrite (Z j (fun x => k v x) Hj). ring. }
    rewrite rsum_scal_r, W1, Q, W2 in P. unfold Rdiv. lra.
  Qed.
End Space.
