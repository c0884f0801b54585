(** C33: mean functions; and the GP theorems for the kernels and means of limbo. *)
From Coq Require Import Reals List Bool ZArith Lia Lra.
From Coquelicot Require Import Coquelicot.
From Verif Require Import LinAlgModel LinAlg KernelModel GPModel GPSpec GPFacts Prop_GP KernelSpec KernelFacts KernelGrad MeanSpec MeanFacts.
Import ListNotations.
Open Scope R_scope.

Lemma vec_eq (u v : vec) : length u = length v -> (forall i, (i < length u)%nat -> vget u i = vget v i) -> u = v.
Proof. intros H E. apply nth_ext with (d := 0) (d' := 0); auto. Qed.

Theorem C33_ard_initially_the_wrapped_mean M d x mo : means M -> length mo = d ->
  m_val (FunctionARD M) (m_new (FunctionARD M) d) x mo = m_val M (m_new M d) x mo.
Proof.
  intros HM Hmo. destruct (means_RT M HM) as [T]. pose proof (fard_new_ok M T d) as Hok.
  assert (Hl : length (m_val M (m_new M d) x mo) = d) by (apply (mr_len T); auto; apply mr_new).
  apply vec_eq.
  - rewrite Hl. cbn [m_val FunctionARD m_new]. unfold fard_val. apply vec_of_len.
  - intros o Ho. cbn [m_val FunctionARD m_new] in *. assert (Hod : (o < d)%nat) by (unfold fard_val in Ho; rewrite vec_of_len in Ho; auto).
    rewrite (fard_val_eq M T d) by auto. unfold fard_new. cbn zeta.
    assert (Hh : length (vec_of (d * (d + 1)) (fun k => if existsb (fun i => (k =? i * (d + 2))%nat) (seq 0 d) then 1 else 0)
                 ++ (if (0 <? m_hsize M (m_new M d))%nat then m_hparams M (m_new M d) else [])) = (d * (d + 1) + m_hsize M (m_new M d))%nat).
    { rewrite app_length, vec_of_len, (if_hparams M T d), (mr_hlen T d) by apply mr_new. reflexivity. }
    rewrite (set_hparams M T d) by (auto; apply mr_new). rewrite (fard_set_m M T d) by (auto; apply mr_new).
    rewrite (if_hparams M T d) by apply mr_new. rewrite skipn_app, vec_of_len, Nat.sub_diag, skipn_O, skipn_all2 by (rewrite vec_of_len; auto).
    cbn [app]. rewrite (mr_set_get T d) by apply mr_new.
    rewrite (rsum_ext (d + 1) _ (fun c => if (c =? o)%nat then vget (m_val M (m_new M d) x mo ++ [1]) c else 0)).
    + rewrite rsum_delta by lia. apply vget_app1. lia.
    + intros c Hc. assert (Hlt : (o * (d + 1) + c < d * (d + 1))%nat) by (pose proof (Nat.mul_le_mono_r (o + 1) d (d + 1) ltac:(lia)); lia).
      rewrite vget_app1 by (rewrite vec_of_len; auto). rewrite vget_vec_of by auto.
      destruct (Nat.eqb_spec c o) as [->|Hne].
      * replace (existsb _ _) with true; [ring|]. symmetry. apply existsb_exists. exists o. split; [apply in_seq; lia|]. apply Nat.eqb_eq. lia.
      * replace (existsb _ _) with false; [ring|]. symmetry. apply not_true_is_false. intro E. apply existsb_exists in E.
        destruct E as (i & Hi & E). apply in_seq in Hi. apply Nat.eqb_eq in E. apply Hne.
        destruct (Nat.lt_total i o) as [H|[->|H]]; [exfalso|lia|exfalso].
        -- pose proof (Nat.mul_le_mono_r (i + 1) o (d + 1) ltac:(lia)). lia.
        -- pose proof (Nat.mul_le_mono_r (o + 1) i (d + 1) ltac:(lia)). lia.
Qed.

(** hyper-parameter vectors round-trip and determine the mean, for every mean function of limbo *)
Theorem C33_get_after_set M d st p : means M -> mreach M d st -> length p = m_hsize M st -> m_hparams M (m_set M st p) = p.
Proof. intros HM Hr Hp. destruct (means_RT M HM) as [T]. apply (mr_get_set T d); auto. now apply mreach_ok. Qed.
Theorem C33_parameters_determine_mean M d st st' : means M -> mreach M d st -> mreach M d st' -> m_set M st' (m_hparams M st) = st.
Proof. intros HM Hr Hr'. destruct (means_RT M HM) as [T]. apply (mr_set_get T d); now apply mreach_ok. Qed.
Theorem C33_sizes M d st x mo : means M -> mreach M d st -> length mo = d ->
  length (m_hparams M st) = m_hsize M st /\ m_hsize M st = m_hsize M (m_new M d) /\ length (m_val M st x mo) = d.
Proof.
  intros HM Hr Hm. destruct (means_RT M HM) as [T]. apply (mreach_ok M T) in Hr.
  repeat split; [now apply (mr_hlen T d)|now apply (mr_size T)|now apply (mr_len T)].
Qed.
(** the gradient, row [o] for output [o], is the derivative *)
Theorem C33_gradient M d st x mo o q : means M -> mreach M d st -> length mo = d -> (o < d)%nat -> (q < m_hsize M st)%nat ->
  length (m_grad M st x mo) = d /\ length (nth o (m_grad M st x mo) []) = m_hsize M st /\
  derivable_pt_lim (fun t => vget (m_val M (m_set M st (vupd (m_hparams M st) q t)) x mo) o) (vget (m_hparams M st) q)
    (vget (nth o (m_grad M st x mo) []) q).
Proof.
  intros HM Hr Hm Ho Hq. destruct (means_RT M HM) as [T]. apply (mreach_ok M T) in Hr.
  repeat split; [apply (mr_glen T); auto; lia|apply (mr_gcols T d); auto; lia|]. apply is_derive_Reals. now apply (mr_grad T d).
Qed.
Example ard_of_a_constant :
  let M := FunctionARD (Constant 3) in
  means M /\ mreach M 2 (m_set M (m_new M 2) [1; 2; 3; 4; 5; 6; 7]) /\ m_hsize M (m_new M 2) = 7%nat /\
  m_hparams M (m_new M 2) = [1; 0; 0; 0; 1; 0; 3].
Proof.
  repeat split.
  - repeat constructor.
  - apply MeanSpec.mr_set; [apply MeanSpec.mr_new|reflexivity].
Qed.

(** the Data mean of a GP is the average of its observations *)
Theorem C33_data_mean_is_the_average K g0 s0 os g (KO : KernOK K) :
  fresh K Data g0 s0 -> run K Data g0 os = Done g ->
  let s := meaning K Data s0 os in
  s_xs K Data s <> [] -> forall v j, (j < oget (s_dout K Data s))%nat ->
  vget (mean_at K Data g v) j = rsum (length (s_ys K Data s)) (fun i => vget (nth i (s_ys K Data s) []) j) / INR (length (s_ys K Data s)).
Proof.
  intros F E s Hx v j Hj. pose proof (run_inv K Data KO (RT_OK _ data_RT) os g0 s0 g (fresh_inv _ _ _ _ _ _ F) E) as I.
  destruct (v_nonempty _ _ _ _ _ _ I Hx) as (_ & _ & _ & _ & _ & Hmo & _).
  unfold mean_at. cbn [m_val Data]. unfold mean_observation. rewrite (v_samples _ _ _ _ _ _ I).
  fold s in Hmo |- *. destruct (s_xs K Data s); [congruence|]. rewrite Hmo. unfold data_mean, P. now rewrite vget_vec_of.
Qed.

(** * The GP theorems apply to every kernel and every mean function of limbo *)
Section Limbo.
Variables (sf2 l : R) (k : nat) (C : CKern) (noise0 : R) (opt : bool) (M : Mean).
Hypotheses (Hs : 0 < sf2) (Hl : 0 < l) (HC : In C (kernels sf2 l k)) (Hn : 0 <= noise0) (Ho : opt = true -> 0 < noise0) (HM : means M).
Notation K := (BaseKernel C noise0 opt).
Theorem contracts_hold : inhabited (KernOK K) /\ inhabited (MeanOK M).
Proof.
  destruct (kernels_OK _ _ _ _ Hs Hl HC) as [O]. destruct (means_RT M HM) as [T].
  split; constructor; [exact (base_OK C O noise0 opt Hn Ho)|exact (RT_OK M T)].
Qed.
Theorem C24_limbo_gp g0 s0 os :
  fresh K M g0 s0 -> valid_all K M s0 os ->
  exists g, run K M g0 os = Done g /\
  let s := meaning K M s0 os in
  let n := length (s_xs K M s) in
  (s_xs K M s <> [] -> s_dk K M s = false -> s_dm K M s = false ->
   forall v, s_din K M s = Some (length v) ->
   exists B, is_inv n (gram K (s_k K M s) (s_xs K M s)) B /\
    let p := oget (s_dout K M s) in
    query K M g v = Done (vec_of p (post_mean K M (s_k K M s) (s_m K M s) (s_xs K M s) (s_ys K M s) p B v),
                          clamp (post_var K (s_k K M s) (s_xs K M s) B v) + k_noise K (s_k K M s))).
Proof.
  intros F V. destruct contracts_hold as [[KO] [MO]].
  destruct (C24_valid_histories_succeed K M KO MO g0 s0 os F V) as (g & E). exists g. split; auto. cbn zeta. intros Hx Hk Hm v Hv.
  destruct (C24_exact_posterior K M KO MO g0 s0 os g F E Hx Hk Hm v Hv) as ((B & HB) & H). exists B. split; auto.
  now destruct (H B HB) as (_ & _ & ?).
Qed.
End Limbo.

(** The hypotheses of the GP theorems are met by a non-trivial history: batch training, new kernel
    parameters, recomputation, a further sample (equal to an earlier one), cached inverse. *)
Section Concrete.
Let K := BaseKernel (SquaredExpARD 1 0) (1 / 100) true.
Let M := FunctionARD Data.
Let os : list (op K M) :=
  [Compute [[0; 0]; [1; 2]] [[1]; [5]] true; SetK [0; 1; 0; -2]; SetM [2; 1]; Recompute true true;
   Add (fun _ _ => 0) (fun _ _ => 7) [0; 0] [2]; Inverse].
Example history_is_valid : fresh K M (gp_default K M) (s_default K M) /\ valid_all K M (s_default K M) os /\
  s_xs K M (meaning K M (s_default K M) os) <> [] /\ s_dk K M (meaning K M (s_default K M) os) = false /\
  s_dm K M (meaning K M (s_default K M) os) = false /\ s_din K M (meaning K M (s_default K M) os) = Some 2%nat.
Proof.
  split; [constructor|]. split; [|cbn; repeat split; discriminate].
  cbn. repeat split; try discriminate; try lia; repeat constructor; auto.
Qed.
End Concrete.
