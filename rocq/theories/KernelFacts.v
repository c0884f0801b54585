(** Facts about the kernels: symmetry, positive semi-definiteness, parameters. *)
From Coq Require Import Reals List Bool ZArith Lia Lra.
From Verif Require Import LinAlgModel LinAlg KernelModel GPModel GPSpec KernelSpec Psd MaternPsd.
Import ListNotations.
Open Scope R_scope.

Lemma sqdist_sym x y : length x = length y -> sqdist x y = sqdist y x.
Proof. intro H. unfold sqdist. rewrite H. apply rsum_ext. intros; lra. Qed.
Lemma sqdist_nonneg x y : 0 <= sqdist x y.
Proof. apply rsum_nonneg. intros i _. apply Rle_0_sqr. Qed.
Lemma sqdist_refl x : sqdist x x = 0.
Proof. apply rsum_0. intros; lra. Qed.
Lemma dist_refl x : dist x x = 0.
Proof. unfold dist. rewrite sqdist_refl. apply sqrt_0. Qed.
Lemma dist_sq x y : dist x y * dist x y = sqdist x y.
Proof. apply sqrt_def, sqdist_nonneg. Qed.

(** * What is needed of the four kernels *)
Record CKernOK (C : CKern) := {
  cok : nat -> cst C -> Prop;
  c_sf2 : cst C -> R;
  cok_new : forall d, cok d (c_new C d);
  cok_set : forall d st p, cok d st -> length p = c_size C st -> cok d (c_set C st p);
  cok_size : forall d st, cok d st -> c_size C st = c_size C (c_new C d);
  cok_params : forall d st, cok d st -> length (c_params C st) = c_size C st;
  cok_pos : forall d st, cok d st -> (0 < c_size C st)%nat;
  cok_last : forall d st, cok d st -> c_sf2 st = exp (2 * vget (c_params C st) (c_size C st - 1));
  cok_sf2 : forall d st, cok d st -> 0 < c_sf2 st;
  cok_sym : forall d st x y, cok d st -> length x = d -> length y = d -> c_ker C st x y = c_ker C st y x;
  cok_psd : forall d st n (pts : nat -> vec), cok d st -> (forall i, (i < n)%nat -> length (pts i) = d) ->
    psd n (fun i j => c_ker C st (pts i) (pts j));
  cok_pos_ker : forall d st x y, cok d st -> length x = d -> length y = d -> 0 < c_ker C st x y;
  cok_diag : forall d st x, cok d st -> length x = d -> c_ker C st x x = c_sf2 st;
  cok_get_set : forall d st p, cok d st -> length p = c_size C st -> c_params C (c_set C st p) = p;
  cok_set_get : forall d st st', cok d st -> cok d st' -> c_set C st' (c_params C st) = st;
  cok_set_any : forall d st st' p, cok d st -> cok d st' -> c_set C st p = c_set C st' p
}.
Arguments cok {C}. Arguments c_sf2 {C}. Arguments cok_new {C}. Arguments cok_set {C}. Arguments cok_size {C}. Arguments cok_params {C}.
Arguments cok_pos {C}. Arguments cok_last {C}. Arguments cok_sf2 {C}. Arguments cok_sym {C}. Arguments cok_psd {C}. Arguments cok_pos_ker {C}. Arguments cok_diag {C}.
Arguments cok_get_set {C}. Arguments cok_set_get {C}. Arguments cok_set_any {C}.

(** * Isotropic kernels *)
Definition iso_ok (s : iso) : Prop := 0 < i_l s /\ 0 < i_sf2 s /\ i_h s = [ln (i_l s); ln (sqrt (i_sf2 s))].
Lemma iso_new_ok sf2 l : 0 < sf2 -> 0 < l -> iso_ok (iso_new sf2 l).
Proof. intros. repeat split; auto. Qed.
Lemma sqrt_exp2 t : sqrt (exp (2 * t)) = exp t.
Proof. replace (2 * t) with (t + t) by ring. rewrite exp_plus. apply sqrt_square. left. apply exp_pos. Qed.
Lemma exp_2ln t : 0 < t -> exp (2 * ln (sqrt t)) = t.
Proof.
  intro H. assert (0 < sqrt t) by now apply sqrt_lt_R0.
  replace (2 * ln (sqrt t)) with (ln (sqrt t) + ln (sqrt t)) by ring. rewrite exp_plus, exp_ln by auto. apply sqrt_def. lra.
Qed.
Lemma len2 (p : vec) : length p = 2%nat -> p = [vget p 0; vget p 1].
Proof. destruct p as [|a [|b [|]]]; simpl; try discriminate. auto. Qed.
Lemma iso_set_ok p : length p = 2%nat -> iso_ok (iso_set p).
Proof.
  intro H. repeat split; cbn [iso_set i_l i_sf2 i_h]; try apply exp_pos. rewrite sqrt_exp2, !ln_exp. now apply len2.
Qed.
Lemma iso_set_get s : iso_ok s -> iso_set (i_h s) = s.
Proof.
  intros (H1 & H2 & H3). unfold iso_set. destruct s as [sf2 l h]. cbn [i_l i_sf2 i_h] in *. rewrite H3. unfold vget. cbn [nth].
  rewrite exp_ln, exp_2ln by auto. reflexivity.
Qed.
Lemma iso_last s : iso_ok s -> i_sf2 s = exp (2 * vget (i_h s) 1).
Proof. intros (H1 & H2 & H3). rewrite H3. unfold vget. cbn [nth]. now rewrite exp_2ln. Qed.

Lemma iso_sums n (pts : nat -> vec) d a : (forall i, (i < n)%nat -> length (pts i) = d) ->
  meq n n (fun i j => rsum d (fun k => (a * vget (pts i) k - a * vget (pts j) k) * (a * vget (pts i) k - a * vget (pts j) k)))
          (fun i j => a * a * sqdist (pts i) (pts j)).
Proof.
  intros H i j Hi Hj. unfold sqdist. rewrite H by auto. rewrite <- rsum_scal_l. apply rsum_ext. intros; ring.
Qed.

Lemma exp_psd s n pts d : iso_ok s -> (forall i, (i < n)%nat -> length (pts i) = d) ->
  psd n (fun i j => exp_kernel s (pts i) (pts j)).
Proof.
  intros (Hl & Hs & _) Hp. eapply psd_ext; [|exact (psd_scal n (i_sf2 s) _ ltac:(lra) (psd_gauss n d (1 / 2) (fun i k => / i_l s * vget (pts i) k) ltac:(lra)))].
  intros i j Hi Hj. cbn beta. rewrite (iso_sums n pts d (/ i_l s) Hp i j Hi Hj). unfold exp_kernel. f_equal. f_equal. field. lra.
Qed.
Lemma sqrt_scale a t : 0 <= a -> 0 <= t -> sqrt (a * a * t) = a * sqrt t.
Proof. intros Ha Ht. rewrite sqrt_mult by nra. rewrite sqrt_square by auto. reflexivity. Qed.
Lemma matern3_kernel_psd s n pts d : iso_ok s -> (forall i, (i < n)%nat -> length (pts i) = d) ->
  psd n (fun i j => matern3_kernel s (pts i) (pts j)).
Proof.
  intros (Hl & Hs & _) Hp. set (a := sqrt 3 / i_l s).
  assert (Ha : 0 <= a) by (apply Rmult_le_pos; [apply sqrt_pos|left; now apply Rinv_0_lt_compat]).
  eapply psd_ext; [|exact (psd_scal n (i_sf2 s) _ ltac:(lra) (matern3_psd n d (fun i k => a * vget (pts i) k)))].
  intros i j Hi Hj. cbn beta. rewrite (iso_sums n pts d a Hp i j Hi Hj), sqrt_scale by (auto using sqdist_nonneg).
  unfold matern3_kernel. fold (dist (pts i) (pts j)). replace (sqrt 3 * dist (pts i) (pts j) / i_l s) with (a * dist (pts i) (pts j)) by (unfold a; field; lra).
  ring.
Qed.
Lemma matern5_kernel_psd s n pts d : iso_ok s -> (forall i, (i < n)%nat -> length (pts i) = d) ->
  psd n (fun i j => matern5_kernel s (pts i) (pts j)).
Proof.
  intros (Hl & Hs & _) Hp. set (a := sqrt 5 / i_l s).
  assert (Ha : 0 <= a) by (apply Rmult_le_pos; [apply sqrt_pos|left; now apply Rinv_0_lt_compat]).
  eapply psd_ext; [|exact (psd_scal n (i_sf2 s) _ ltac:(lra) (matern5_psd n d (fun i k => a * vget (pts i) k)))].
  intros i j Hi Hj. cbn beta. rewrite (iso_sums n pts d a Hp i j Hi Hj), sqrt_scale by (auto using sqdist_nonneg).
  unfold matern5_kernel. fold (dist (pts i) (pts j)). set (t := dist (pts i) (pts j)).
  replace (sqrt 5 * t / i_l s) with (a * t) by (unfold a; field; lra).
  replace (5 * (t * t) / (3 * (i_l s * i_l s))) with (a * t * (a * t) / 3).
  - ring.
  - unfold a. replace 5 with (sqrt 5 * sqrt 5) at 3 by (apply sqrt_def; lra). field. lra.
Qed.

Lemma exp_OK sf2 l : 0 < sf2 -> 0 < l -> CKernOK (Exp sf2 l).
Proof.
  intros Hs Hl. refine (@Build_CKernOK (Exp sf2 l) (fun _ => iso_ok) i_sf2 _ _ _ _ _ _ _ _ _ _ _ _ _ _); simpl; intros; auto.
  - now apply iso_new_ok.
  - now apply iso_set_ok.
  - destruct H as (_ & _ & H). now rewrite H.
  - now apply iso_last.
  - apply H.
  - unfold exp_kernel. rewrite (sqdist_sym x y); auto. congruence.
  - now apply (exp_psd st n pts d).
  - apply Rmult_lt_0_compat; [apply H|apply exp_pos].
  - unfold exp_kernel. rewrite sqdist_refl. unfold Rdiv. rewrite Rmult_0_l, Rmult_0_r, exp_0. ring.
  - now apply iso_set_get.
Defined.
Lemma matern_pos s t : 0 < i_sf2 s -> 0 <= t -> 0 < i_sf2 s * (1 + t) * exp (- t).
Proof. intros. apply Rmult_lt_0_compat; [nra|apply exp_pos]. Qed.
Lemma term_nonneg s a x y : 0 < i_l s -> 0 <= sqrt a * dist x y / i_l s.
Proof.
  intro H. apply Rmult_le_pos; [apply Rmult_le_pos; apply sqrt_pos|left; now apply Rinv_0_lt_compat].
Qed.
Lemma matern3_OK sf2 l : 0 < sf2 -> 0 < l -> CKernOK (MaternThreeHalves sf2 l).
Proof.
  intros Hs Hl. refine (@Build_CKernOK (MaternThreeHalves sf2 l) (fun _ => iso_ok) i_sf2 _ _ _ _ _ _ _ _ _ _ _ _ _ _); simpl; intros; auto.
  - now apply iso_new_ok.
  - now apply iso_set_ok.
  - destruct H as (_ & _ & H). now rewrite H.
  - now apply iso_last.
  - apply H.
  - unfold matern3_kernel, dist. rewrite (sqdist_sym x y); auto. congruence.
  - now apply (matern3_kernel_psd st n pts d).
  - apply matern_pos; [apply H|]. apply term_nonneg, H.
  - unfold matern3_kernel. rewrite dist_refl. unfold Rdiv. rewrite Rmult_0_r, Rmult_0_l, Ropp_0, exp_0. ring.
  - now apply iso_set_get.
Defined.
Lemma matern5_OK sf2 l : 0 < sf2 -> 0 < l -> CKernOK (MaternFiveHalves sf2 l).
Proof.
  intros Hs Hl. refine (@Build_CKernOK (MaternFiveHalves sf2 l) (fun _ => iso_ok) i_sf2 _ _ _ _ _ _ _ _ _ _ _ _ _ _); simpl; intros; auto.
  - now apply iso_new_ok.
  - now apply iso_set_ok.
  - destruct H as (_ & _ & H). now rewrite H.
  - now apply iso_last.
  - apply H.
  - unfold matern5_kernel, dist. rewrite (sqdist_sym x y); auto. congruence.
  - now apply (matern5_kernel_psd st n pts d).
  - unfold matern5_kernel. destruct H as (Ha & Hb & _). pose proof (term_nonneg st 5 x y Ha).
    assert (0 <= 5 * (dist x y * dist x y) / (3 * (i_l st * i_l st))).
    { apply Rmult_le_pos; [|left; apply Rinv_0_lt_compat; nra]. assert (0 <= dist x y * dist x y) by apply Rle_0_sqr. lra. }
    apply Rmult_lt_0_compat; [nra|apply exp_pos].
  - unfold matern5_kernel. rewrite dist_refl. unfold Rdiv. rewrite !Rmult_0_r, !Rmult_0_l, Ropp_0, exp_0. ring.
  - now apply iso_set_get.
Defined.

(** * SquaredExpARD *)
Section ARD.
Variable k : nat.
Definition ard_ok (d : nat) (s : ard) : Prop := a_dim s = d /\ length (a_h s) = (d + d * k + 1)%nat /\ s = ard_set k d (a_h s).
Lemma vec_of_len n f : length (vec_of n f) = n.
Proof. unfold vec_of. now rewrite map_length, seq_length. Qed.
Lemma ard_ell_pos d s i : ard_ok d s -> 0 < a_ell s i.
Proof. intros (_ & _ & ->). apply exp_pos. Qed.

(** the quadratic form is a sum of squares *)
Lemma ard_z_squares d s x y : ard_ok d s ->
  ard_z k s x y = rsum k (fun m => rsum d (fun i => (vget x i - vget y i) * a_A s i m) * rsum d (fun i => (vget x i - vget y i) * a_A s i m))
                + rsum d (fun i => (vget x i - vget y i) / a_ell s i * ((vget x i - vget y i) / a_ell s i)).
Proof.
  intro H. destruct H as (Hd & _). unfold ard_z. rewrite Hd. set (D := fun i => vget x i - vget y i).
  destruct (Nat.ltb_spec 0 k) as [Hk|Hk].
  - transitivity (rsum d (fun j => rsum d (fun i => rsum k (fun m => D i * a_A s i m * (D j * a_A s j m)))) +
                  rsum d (fun j => rsum d (fun i => if (i =? j)%nat then D i / a_ell s i * (D i / a_ell s i) else 0))).
    + rewrite <- rsum_plus. apply rsum_ext. intros j Hj. rewrite <- rsum_scal_r, <- rsum_plus. apply rsum_ext. intros i Hi.
      unfold ard_K. rewrite Rmult_plus_distr_l, Rmult_plus_distr_r. f_equal.
      * rewrite <- rsum_scal_l, <- rsum_scal_r. apply rsum_ext. intros m _. unfold D. ring.
      * destruct (Nat.eqb_spec i j) as [E|]; [subst j|]; unfold D, Rdiv; ring.
    + f_equal.
      * rewrite (rsum_ext d _ (fun j => rsum k (fun m => rsum d (fun i => D i * a_A s i m) * (D j * a_A s j m)))).
        -- rewrite rsum_swap. apply rsum_ext. intros m _. now rewrite rsum_scal_l.
        -- intros j _. rewrite rsum_swap. apply rsum_ext. intros m _. now rewrite rsum_scal_r.
      * apply rsum_ext. intros j Hj. rewrite (rsum_delta d j (fun i => D i / a_ell s i * (D i / a_ell s i))) by auto. reflexivity.
  - replace k with O by lia. simpl. rewrite Rplus_0_l. reflexivity.
Qed.
Lemma ard_z_sym d s x y : ard_ok d s -> ard_z k s x y = ard_z k s y x.
Proof.
  intro H. rewrite !(ard_z_squares d) by auto. f_equal.
  - apply rsum_ext. intros m _.
    replace (rsum d (fun i => (vget y i - vget x i) * a_A s i m)) with (- rsum d (fun i => (vget x i - vget y i) * a_A s i m)); [ring|].
    rewrite <- rsum_opp. apply rsum_ext. intros; ring.
  - apply rsum_ext. intros i _. unfold Rdiv. ring.
Qed.
Lemma ard_z_refl d s x : ard_ok d s -> ard_z k s x x = 0.
Proof.
  intro H. rewrite (ard_z_squares d) by auto. rewrite (rsum_0 k), (rsum_0 d); [ring| |].
  - intros i _. unfold Rdiv. rewrite Rminus_diag_eq by auto. ring.
  - intros m _. rewrite (rsum_0 d); [ring|]. intros; rewrite Rminus_diag_eq by auto. ring.
Qed.
Lemma ard_psd d s n pts : ard_ok d s -> psd n (fun i j => ard_kernel k s (pts i) (pts j)).
Proof.
  intro H. assert (Hs : 0 <= a_sf2 s) by (destruct H as (_ & _ & ->); left; apply exp_pos).
  eapply psd_ext; [|exact (psd_scal n (a_sf2 s) _ Hs
    (psd_schur_gauss n d (1 / 2) _ (fun i q => vget (pts i) q / a_ell s q) ltac:(lra)
      (psd_gauss n k (1 / 2) (fun i m => rsum d (fun q => vget (pts i) q * a_A s q m)) ltac:(lra))))].
  intros i j _ _. cbn beta. unfold ard_kernel. f_equal. rewrite <- exp_plus. f_equal. rewrite (ard_z_squares d) by auto.
  rewrite Rmult_plus_distr_l. f_equal.
  - f_equal. apply rsum_ext. intros m _. rewrite <- rsum_minus.
    rewrite (rsum_ext d (fun i0 => vget (pts i) i0 * a_A s i0 m - vget (pts j) i0 * a_A s i0 m) (fun i0 => (vget (pts i) i0 - vget (pts j) i0) * a_A s i0 m))
      by (intros; ring). reflexivity.
  - f_equal. apply rsum_ext. intros q _. unfold Rdiv. ring.
Qed.
Lemma ard_OK sf2 : 0 < sf2 -> CKernOK (SquaredExpARD sf2 k).
Proof.
  intros Hs. refine (@Build_CKernOK (SquaredExpARD sf2 k) ard_ok a_sf2 _ _ _ _ _ _ _ _ _ _ _ _ _ _); simpl; intros.
  - unfold ard_new. repeat split; auto. apply vec_of_len.
  - destruct H as (Hd & _). unfold ard_size in H0. rewrite Hd in *. repeat split; auto.
  - destruct H as (Hd & _). unfold ard_size. now rewrite Hd.
  - destruct H as (Hd & Hl & _). unfold ard_size. now rewrite Hd, Hl.
  - unfold ard_size. lia.
  - destruct H as (Hd & Hl & E). rewrite E at 1. unfold ard_size. rewrite Hd. reflexivity.
  - destruct H as (Hd & Hl & E). rewrite E. apply exp_pos.
  - unfold ard_kernel. now rewrite (ard_z_sym d).
  - now apply (ard_psd d).
  - destruct H as (_ & _ & E). apply Rmult_lt_0_compat; [rewrite E|]; apply exp_pos.
  - unfold ard_kernel. rewrite (ard_z_refl d) by auto. rewrite Rmult_0_r, exp_0. ring.
  - reflexivity.
  - destruct H as (Hd & Hl & E). destruct H0 as (Hd' & _). rewrite Hd'. auto.
  - destruct H as (Hd & _). destruct H0 as (Hd' & _). now rewrite Hd, Hd'.
Defined.
End ARD.

Lemma kernels_OK sf2 l k C : 0 < sf2 -> 0 < l -> In C (kernels sf2 l k) -> inhabited (CKernOK C).
Proof.
  intros Hs Hl [<-|[<-|[<-|[<-|[]]]]]; constructor; auto using exp_OK, matern3_OK, matern5_OK, ard_OK.
Qed.
Lemma creach_ok C (O : CKernOK C) d st : creach C d st -> cok O d st.
Proof. induction 1; [apply cok_new|]. now apply cok_set. Qed.

(** * BaseKernel *)
Section Base.
Variables (C : CKern) (O : CKernOK C) (noise0 : R) (opt : bool).
Hypothesis Hn0 : 0 <= noise0.
(** log(sqrt(0)) is infinite: with optimised noise the initial noise has to be positive *)
Hypothesis Hopt : opt = true -> 0 < noise0.
Notation BK := (BaseKernel C noise0 opt).
Definition base_ok (d : nat) (st : base_st C) : Prop :=
  cok O d (b_c st) /\ b_noise_p st = ln (sqrt (b_noise st)) /\ (if opt then 0 < b_noise st else b_noise st = noise0).
Lemma base_noise d st : base_ok d st -> 0 <= b_noise st.
Proof. intros (_ & _ & H). destruct opt; lra. Qed.
Lemma base_new_ok d : base_ok d (k_new BK d).
Proof. split; [apply cok_new|]. split; [reflexivity|]. simpl. destruct opt; auto. Qed.
Lemma base_set_ok d st p : base_ok d st -> length p = k_hsize BK st -> base_ok d (k_set BK st p).
Proof.
  intros (H1 & H2 & H3) Hl. simpl in *. unfold base_ok.
  assert (Hf : length (firstn (c_size C (b_c st)) p) = c_size C (b_c st)) by (rewrite firstn_length; destruct opt; lia).
  destruct opt; cbn [b_c b_noise b_noise_p].
  - split; [now apply cok_set|]. split; [|apply exp_pos]. now rewrite sqrt_exp2, ln_exp.
  - split; [now apply cok_set|]. auto.
Qed.
Lemma base_OK : KernOK BK.
Proof.
  refine (@Build_KernOK BK base_ok base_new_ok base_set_ok _ _ _).
  - intros d st x y (H & _) Hx Hy. now apply (cok_sym O d).
  - intros d st n pts (H & _) Hp. now apply (cok_psd O d).
  - intros d st H. now apply (base_noise d).
Defined.
Lemma base_get_set d st p : base_ok d st -> length p = k_hsize BK st -> k_hparams BK (k_set BK st p) = p.
Proof.
  intros (H1 & H2 & H3) Hl. simpl in *. set (n := c_size C (b_c st)) in *.
  assert (Hf : length (firstn n p) = n) by (rewrite firstn_length; destruct opt; lia).
  destruct opt; cbn [b_c b_noise b_noise_p]; rewrite (cok_get_set O d) by auto.
  - rewrite <- (firstn_skipn n p) at 3. f_equal.
    assert (length (skipn n p) = 1%nat) by (rewrite skipn_length; lia).
    rewrite <- (firstn_skipn n p) at 1. unfold vget. rewrite app_nth2 by lia. rewrite Hf, Nat.sub_diag.
    destruct (skipn n p) as [|a [|]]; try discriminate. reflexivity.
  - rewrite app_nil_r. apply firstn_all2. lia.
Qed.
Lemma base_set_get d st st' : base_ok d st -> base_ok d st' -> k_set BK st' (k_hparams BK st) = st.
Proof.
  intros (H1 & H2 & H3) (H1' & H2' & H3'). simpl.
  assert (Hs : c_size C (b_c st') = c_size C (b_c st)) by (rewrite (cok_size O d), (cok_size O d (b_c st)); auto).
  assert (Hp : length (c_params C (b_c st)) = c_size C (b_c st)) by now apply (cok_params O d).
  rewrite Hs. rewrite firstn_app, firstn_all2 by lia. rewrite Hp, Nat.sub_diag. cbn [firstn]. rewrite app_nil_r.
  rewrite (cok_set_get O d) by auto. destruct st as [c nz np], st' as [c' nz' np']. cbn [b_c b_noise b_noise_p] in *.
  destruct opt.
  - unfold vget. rewrite app_nth2 by lia. rewrite Hp, Nat.sub_diag. cbn [nth]. rewrite H2, exp_2ln by auto. reflexivity.
  - f_equal; congruence.
Qed.
Lemma base_sizes d st : base_ok d st -> length (k_hparams BK st) = k_hsize BK st /\ k_hsize BK st = k_hsize BK (k_new BK d) /\
  (0 < k_hsize BK st)%nat.
Proof.
  intros (H & _). simpl. rewrite app_length, (cok_params O d) by auto. rewrite (cok_size O d (b_c st)) by auto.
  pose proof (cok_pos O d _ (cok_new O d)). destruct opt; simpl; repeat split; lia.
Qed.
Lemma kreach_ok d st : kreach BK d st -> base_ok d st.
Proof. induction 1; [apply base_new_ok|now apply base_set_ok]. Qed.
End Base.
