(** C20-C23: the kernels. *)
From Coq Require Import Reals List Bool ZArith Lia Lra.
From Coquelicot Require Import Coquelicot.
From Verif Require Import LinAlgModel LinAlg KernelModel GPModel GPSpec KernelSpec KernelFacts KernelGrad.
Import ListNotations.
Open Scope R_scope.

Lemma last_vget (v : vec) : last v 0 = vget v (length v - 1).
Proof.
  induction v as [|a v IH]; [reflexivity|]. destruct v as [|b v]; [reflexivity|].
  change (last (a :: b :: v) 0) with (last (b :: v) 0). rewrite IH. unfold vget. simpl. now rewrite Nat.sub_0_r.
Qed.

(** C20.  Whatever the parameters set so far, with s2 = exp(2 * last parameter): *)
Theorem C20_kernel_values sf2 l k C d st x y :
  0 < sf2 -> 0 < l -> In C (kernels sf2 l k) -> creach C d st -> length x = d -> length y = d ->
  let s2 := exp (2 * last (c_params C st) 0) in
  c_ker C st x y = c_ker C st y x /\ 0 < c_ker C st x y <= s2 /\ c_ker C st x x = s2.
Proof.
  intros Hs Hl HC Hr Hx Hy s2. destruct (kernels_OK _ _ _ _ Hs Hl HC) as [O]. pose proof (creach_ok C O d st Hr) as H.
  assert (E : s2 = c_sf2 O st).
  { unfold s2. rewrite (cok_last O d) by auto. do 2 f_equal. rewrite <- (cok_params O d st H). apply last_vget. }
  assert (Sy : c_ker C st x y = c_ker C st y x) by now apply (cok_sym O d).
  repeat split; auto; rewrite ?E.
  - now apply (cok_pos_ker O d).
  - (* a 2x2 positive semi-definite matrix *)
    pose proof (cok_psd O d st 2 (fun i => if (i =? 0)%nat then x else y) H ltac:(intros [|] _; auto) (fun i => if (i =? 0)%nat then 1 else -1)) as Hq.
    unfold quad in Hq. simpl in Hq. rewrite !(cok_diag O d) in Hq by auto. rewrite <- Sy in Hq. lra.
  - now apply (cok_diag O d).
Qed.
(** the initial signal variance is the parameter sigma_sq *)
Theorem C20_initial_variance sf2 l k C d x : 0 < sf2 -> 0 < l -> In C (kernels sf2 l k) -> length x = d ->
  c_ker C (c_new C d) x x = sf2.
Proof.
  intros Hs Hl HC Hx. destruct (C20_kernel_values sf2 l k C d (c_new C d) x x Hs Hl HC (cr_new C d) Hx Hx) as (_ & _ & ->).
  destruct HC as [<-|[<-|[<-|[<-|[]]]]]; simpl; try now apply exp_2ln.
  unfold vec_of. rewrite Nat.add_1_r, seq_S, map_app. simpl. rewrite Nat.eqb_refl, last_last. now apply exp_2ln.
Qed.
(** the noise variance and the jitter 1e-8 enter exactly when the two indices are equal; the noise
    variance is Params::kernel::noise() or, when optimised and set, exp(2 * last hyper-parameter) *)
Theorem C20_noise_term C noise0 opt st x y :
  let K := BaseKernel C noise0 opt in
  (forall i j, i <> j -> kop K st x y i j = c_ker C (b_c st) x y) /\
  (forall i, kop K st x y i i = c_ker C (b_c st) x y + k_noise K st + 1 / 10 ^ 8) /\
  kop0 K st x y = c_ker C (b_c st) x y.
Proof.
  repeat split; intros; unfold kop0, kop; simpl.
  - apply Z.eqb_neq in H. rewrite H. ring.
  - rewrite Z.eqb_refl. unfold jitter. lra.
  - ring.
Qed.
Lemma noise_kreach C (O : CKernOK C) noise0 opt d st : 0 <= noise0 -> (opt = true -> 0 < noise0) -> kreach (BaseKernel C noise0 opt) d st ->
  k_noise (BaseKernel C noise0 opt) st = if opt then exp (2 * last (k_hparams (BaseKernel C noise0 opt) st) 0) else noise0.
Proof.
  intros Hn Ho Hr. apply (kreach_ok C O) in Hr; auto. destruct Hr as (_ & Hp & Hv). simpl. destruct opt.
  - rewrite last_last, Hp. now rewrite exp_2ln.
  - auto.
Qed.
Theorem C20_noise_value sf2 l k C noise0 opt d st :
  0 < sf2 -> 0 < l -> In C (kernels sf2 l k) -> 0 <= noise0 -> (opt = true -> 0 < noise0) -> kreach (BaseKernel C noise0 opt) d st ->
  k_noise (BaseKernel C noise0 opt) st = if opt then exp (2 * last (k_hparams (BaseKernel C noise0 opt) st) 0) else noise0.
Proof. intros Hs Hl HC. destruct (kernels_OK _ _ _ _ Hs Hl HC) as [O]. now apply noise_kreach. Qed.

(** C21. *)
Section Kernel.
Variables (sf2 l : R) (k : nat) (C : CKern) (noise0 : R) (opt : bool).
Hypotheses (Hs : 0 < sf2) (Hl : 0 < l) (HC : In C (kernels sf2 l k)) (Hn : 0 <= noise0) (Ho : opt = true -> 0 < noise0).
Notation K := (BaseKernel C noise0 opt).

Theorem C21_get_after_set d st p : kreach K d st -> length p = k_hsize K st -> k_hparams K (k_set K st p) = p.
Proof. intros Hr Hp. destruct (kernels_OK _ _ _ _ Hs Hl HC) as [O]. apply (base_get_set C O noise0 opt Ho d); auto. now apply kreach_ok. Qed.
Theorem C21_set_after_get d st : kreach K d st -> k_set K st (k_hparams K st) = st.
Proof. intros Hr. destruct (kernels_OK _ _ _ _ Hs Hl HC) as [O]. apply (base_set_get C O noise0 opt Ho d); auto; now apply kreach_ok. Qed.
(** the parameters describe the kernel completely: setting them in any other kernel object for points
    of the same dimension reproduces it *)
Theorem C21_parameters_determine_kernel d st st' : kreach K d st -> kreach K d st' -> k_set K st' (k_hparams K st) = st.
Proof. intros Hr Hr'. destruct (kernels_OK _ _ _ _ Hs Hl HC) as [O]. apply (base_set_get C O noise0 opt Ho d); auto; now apply kreach_ok. Qed.
Theorem C21_sizes d st : kreach K d st ->
  length (k_hparams K st) = k_hsize K st /\ k_hsize K st = k_hsize K (k_new K d) /\ (0 < k_hsize K st)%nat.
Proof. intros Hr. destruct (kernels_OK _ _ _ _ Hs Hl HC) as [O]. apply (base_sizes C O noise0 opt Ho); auto; now apply kreach_ok. Qed.
End Kernel.

(** the initial vectors, in log scale *)
Theorem C21_initial_parameters sf2 l k noise0 d :
  let f C := k_hparams (BaseKernel C noise0 false) (k_new (BaseKernel C noise0 false) d) in
  let g C := k_hparams (BaseKernel C noise0 true) (k_new (BaseKernel C noise0 true) d) in
  f (Exp sf2 l) = [ln l; ln (sqrt sf2)] /\ f (MaternThreeHalves sf2 l) = [ln l; ln (sqrt sf2)] /\
  f (MaternFiveHalves sf2 l) = [ln l; ln (sqrt sf2)] /\
  f (SquaredExpARD sf2 k) = repeat 0 (d + d * k) ++ [ln (sqrt sf2)] /\
  forall C, g C = f C ++ [ln (sqrt noise0)].
Proof.
  assert (Hr : forall n (h : nat -> R), (forall i, (i < n)%nat -> h i = 0) -> vec_of n h = repeat 0 n).
  { induction n; intros h H; [reflexivity|]. unfold vec_of in *. rewrite seq_S, map_app, IHn by auto. simpl. rewrite H by lia.
    rewrite <- repeat_cons. reflexivity. }
  repeat split; simpl.
  - rewrite app_nil_r. unfold vec_of at 1. rewrite Nat.add_1_r, seq_S, map_app. simpl. rewrite Nat.eqb_refl. f_equal.
    apply Hr. intros i Hi. apply Nat.lt_neq in Hi. apply Nat.eqb_neq in Hi. now rewrite Hi.
  - intro C. now rewrite app_nil_r.
Qed.

(** C22. Partial derivatives: entry [p] of the hyper-parameters varies, the others are fixed *)
Lemma firstn_vupd_app (u v : vec) n p t : length u = n -> (p < n)%nat -> firstn n (vupd (u ++ v) p t) = vupd u p t.
Proof.
  intros <-. unfold vupd. revert u. induction p; intros [|a u] H; simpl in *; try lia.
  - f_equal. rewrite firstn_app, Nat.sub_diag, firstn_O, app_nil_r. apply firstn_all.
  - f_equal. apply IHp. lia.
Qed.
Lemma creach_of_kreach C noise0 opt d st : kreach (BaseKernel C noise0 opt) d st -> creach C d (b_c st).
Proof.
  induction 1 as [|st p H IH Hp]; simpl; [constructor|].
  simpl in Hp. destruct opt; simpl; constructor; auto; rewrite firstn_length; lia.
Qed.
Theorem C22_gradient sf2 l k C noise0 opt d st x y i j p :
  0 < sf2 -> 0 < l -> In C (kernels sf2 l k) -> 0 <= noise0 -> (opt = true -> 0 < noise0) ->
  let K := BaseKernel C noise0 opt in
  kreach K d st -> (p < k_hsize K st)%nat ->
  length (k_grad K st x y i j) = k_hsize K st /\
  derivable_pt_lim (fun t => kop K (k_set K st (vupd (k_hparams K st) p t)) x y i j) (vget (k_hparams K st) p)
    (vget (k_grad K st x y i j) p).
Proof.
  intros Hs Hl HC Hn Ho K Hr Hp. destruct (kernels_OK _ _ _ _ Hs Hl HC) as [O].
  pose proof (kreach_ok C O noise0 opt Ho d st Hr) as Hok. pose proof (creach_of_kreach _ _ _ _ _ Hr) as Hcr.
  pose proof (cgrad_len sf2 l k C d (b_c st) x y Hs Hl HC Hcr) as Hgl.
  pose proof Hok as (Hc & Hnp & Hv). pose proof (cok_params O d _ Hc) as Hpl.
  split; [simpl; rewrite app_length, Hgl; destruct opt; reflexivity|].
  apply is_derive_Reals. simpl in Hp. destruct (Nat.lt_ge_cases p (c_size C (b_c st))) as [H|H].
  - pose proof (cgrad sf2 l k C d (b_c st) x y p Hs Hl HC Hcr H) as Hg.
    assert (E1 : vget (k_hparams K st) p = vget (c_params C (b_c st)) p) by (simpl; apply vget_app1; lia).
    assert (E2 : vget (k_grad K st x y i j) p = vget (c_gradient C (b_c st) x y) p) by (simpl; apply vget_app1; lia).
    rewrite E1, E2. unfold kop.
    assert (E3 : forall t, k_ker K (k_set K st (vupd (k_hparams K st) p t)) x y = c_ker C (c_set C (b_c st) (vupd (c_params C (b_c st)) p t)) x y).
    { intro t. simpl. destruct opt; cbn [b_c]; rewrite firstn_vupd_app by auto; reflexivity. }
    assert (E4 : forall t, k_noise K (k_set K st (vupd (k_hparams K st) p t)) = b_noise st).
    { intro t. simpl. destruct opt; [|reflexivity]. cbn [b_noise].
      rewrite vget_vupd by (rewrite app_length; simpl; lia).
      replace (c_size C (b_c st) =? p)%nat with false by (symmetry; apply Nat.eqb_neq; lia).
      replace (c_size C (b_c st)) with (length (c_params C (b_c st)) + 0)%nat by lia. rewrite vget_app2. unfold vget; cbn [nth].
      rewrite Hnp. now apply exp_2ln. }
    apply is_derive_ext with (f := fun t => c_ker C (c_set C (b_c st) (vupd (c_params C (b_c st)) p t)) x y + (if (i =? j)%Z then b_noise st + jitter else 0));
      [intro t; now rewrite E3, E4|].
    eapply is_derive_val; [apply @is_derive_plus; [exact Hg|apply @is_derive_const]|]. apply Rplus_0_r.
  - (* the noise parameter *)
    destruct opt; [|lia]. assert (p = c_size C (b_c st)) by lia. subst p.
    assert (E1 : vget (k_hparams K st) (c_size C (b_c st)) = b_noise_p st).
    { simpl. replace (c_size C (b_c st)) with (length (c_params C (b_c st)) + 0)%nat by lia. rewrite vget_app2. reflexivity. }
    assert (E2 : vget (k_grad K st x y i j) (c_size C (b_c st)) = if (i =? j)%Z then 2 * b_noise st else 0).
    { simpl. rewrite <- Hgl. replace (length (c_gradient C (b_c st) x y)) with (length (c_gradient C (b_c st) x y) + 0)%nat at 1 by lia.
      rewrite vget_app2. reflexivity. }
    rewrite E1, E2. unfold kop.
    assert (Ef : forall t, firstn (c_size C (b_c st)) (vupd (c_params C (b_c st) ++ [b_noise_p st]) (c_size C (b_c st)) t) = c_params C (b_c st)).
    { intro t. unfold vupd. rewrite firstn_app. rewrite firstn_firstn, Nat.min_id. rewrite firstn_app, Hpl, Nat.sub_diag. cbn [firstn].
      rewrite app_nil_r. rewrite (firstn_all2 (c_params C (b_c st))) by lia. rewrite Hpl, Nat.sub_diag. apply app_nil_r. }
    assert (E3 : forall t, k_ker K (k_set K st (vupd (k_hparams K st) (c_size C (b_c st)) t)) x y = c_ker C (b_c st) x y).
    { intro t. simpl. cbn [b_c]. rewrite Ef. now rewrite (cok_set_get O d). }
    assert (E4 : forall t, k_noise K (k_set K st (vupd (k_hparams K st) (c_size C (b_c st)) t)) = exp (2 * t)).
    { intro t. simpl. cbn [b_noise]. rewrite vget_vupd by (rewrite app_length; simpl; lia). now rewrite Nat.eqb_refl. }
    apply is_derive_ext with (f := fun t => c_ker C (b_c st) x y + (if (i =? j)%Z then exp (2 * t) + jitter else 0));
      [intro t; now rewrite E3, E4|].
    destruct (i =? j)%Z.
    + auto_derive; [exact I|]. rewrite Hnp, exp_2ln by auto. ring.
    + apply @is_derive_const.
Qed.

(** C23. *)
Theorem C23_gram_positive_definite sf2 l k C noise0 opt d st xs :
  0 < sf2 -> 0 < l -> In C (kernels sf2 l k) -> 0 <= noise0 -> (opt = true -> 0 < noise0) ->
  let K := BaseKernel C noise0 opt in
  kreach K d st -> List.Forall (fun x => length x = d) xs ->
  let n := length xs in
  psd n (fun i j => k_ker K st (nth i xs []) (nth j xs [])) /\
  symm n (gram K st xs) /\ pd n (gram K st xs) /\
  exists L, chol n (gram K st xs) = Some L /\
    (forall i, (i < n)%nat -> 0 < L i i) /\
    (forall i j, (i < n)%nat -> (j < n)%nat -> (i < j)%nat -> L i j = 0) /\
    (forall i j, (i < n)%nat -> (j < n)%nat -> rsum n (fun m => L i m * L j m) = gram K st xs i j).
Proof.
  intros Hs Hl HC Hn Ho K Hr Hx n. destruct (kernels_OK _ _ _ _ Hs Hl HC) as [O].
  pose proof (kreach_ok C O noise0 opt Ho d st Hr) as Hok.
  assert (Hlen : forall i, (i < n)%nat -> length (nth i xs []) = d).
  { intros i Hi. rewrite Forall_forall in Hx. apply Hx. now apply nth_In. }
  assert (HP : psd n (fun i j => k_ker K st (nth i xs []) (nth j xs []))) by (apply (kok_psd (base_OK C O noise0 opt Hn Ho) d); auto).
  assert (HS : symm n (gram K st xs)).
  { intros i j Hi Hj. unfold gram. rewrite (Nat.eqb_sym i j). f_equal. apply (kok_sym (base_OK C O noise0 opt Hn Ho) d); auto; now apply Hlen. }
  assert (HD : pd n (gram K st xs)).
  { apply psd_noise_pd; auto. pose proof (base_noise C O noise0 opt Hn Ho d st Hok). simpl. lra. }
  repeat split; auto.
  destruct (chol_succeeds n _ HS HD) as (L & HL). exists L. destruct (chol_is_chol n _ L HS HL) as (Hlo & Hf).
  split; [exact HL|]. split; [|split].
  - intros i Hi. now apply Hlo.
  - intros i j Hi Hj Hij. now apply Hlo.
  - exact Hf.
Qed.

(** The hypotheses are met: an ARD kernel with one factor column in dimension 2 whose parameters
    (and noise) were set, evaluated on samples with a duplicate. *)
Example kernel_hypotheses :
  let K := BaseKernel (SquaredExpARD 1 1) (1 / 100) true in
  In (SquaredExpARD 1 1) (kernels 1 1 1) /\ 0 <= 1 / 100 /\
  kreach K 2 (k_set K (k_new K 2) [0; 1; 2; 3; -1; -2]) /\
  k_hsize K (k_set K (k_new K 2) [0; 1; 2; 3; -1; -2]) = 6%nat /\
  List.Forall (fun x => length x = 2%nat) [[0; 0]; [1; 2]; [0; 0]].
Proof.
  repeat split.
  - simpl; auto.
  - lra.
  - apply kr_set; [apply kr_new|reflexivity].
  - repeat constructor.
Qed.
