(** C67 for limbo's kernels and mean functions, and a run that meets the hypotheses. *)
From Coq Require Import Reals List Bool ZArith Lia Lra Permutation.
From Verif Require Import F64 F64R LinAlgModel LinAlg KernelModel GPModel GPSpec GPFacts Prop_GP Prop_Load HpOptModel
  KernelSpec KernelFacts MeanSpec MeanFacts Prop_Mean Prop_Load2 Prop_HpOpt BOModel BOSpec BOFacts BORel BoGpModel Prop_BoGp Prop_BoGp2
  ParegoModel Prop_Parego2 ParegoBoModel Prop_ParegoBo.
Import ListNotations.
Open Scope R_scope.

Section Limbo.
Variables (sf2 l noise0 : R) (k : nat) (opt : bool) (C : CKern) (M : Mean).
Hypotheses (Hs : 0 < sf2) (Hl : 0 < l) (HC : In C (kernels sf2 l k)) (Hn : 0 <= noise0) (Ho : opt = true -> 0 < noise0) (HM : means M).
Notation K := (BaseKernel C noise0 opt).
Context {W E : Type}.
Variables (rho : R) (din q : nat).
Hypotheses (Din : (0 < din)%nat) (Dq : (0 < q)%nat).
Variables (hpo : hp_opt) (hp_period : Z).
Variable eps : R.
Variable iterations : Z.
Hypothesis Heps : 0 <= eps.
(** hyper-parameters are optimised with Rprop, if at all *)
Let optimizer (w : W) (f : KernelModel.vec -> outcome (R * KernelModel.vec)) (init : KernelModel.vec) := rprop_R f eps iterations init.
Hypothesis Hhp : (0 < hp_period)%Z -> hpo <> NoLFOpt /\ (hpo = MeanLFOpt \/ hpo = KernelMeanLFOpt -> (0 < m_hsize M (m_new M 1))%nat).
Variable draw : W -> nat -> R.
Variables tw tm ts : W -> tree.
Variable tick : W -> W.
Hypothesis Hdraw : forall w, (forall i, (i < q)%nat -> 0 <= draw w i) /\ exists i, (i < q)%nat /\ draw w i <> 0.
Hypothesis Htrees : forall w, Permutation (leaves (tw w)) (seq 0 q) /\ Permutation (leaves (tm w)) (seq 0 q) /\ Permutation (leaves (ts w)) (seq 0 q).
Variable sfun : W -> F64.vec -> (F64.vec + E) * W.
Variable acq : W -> outcome (parego K M) -> Z -> F64.vec * W.
Variable init_n : nat.
Variable init_pt : nat -> W -> F64.vec * W.
Hypothesis H_sfun : forall w x v w', length x = din -> sfun w x = (inl v, w') -> length v = q.
Hypothesis H_acq : forall w m c, point din (fst (acq w m c)).
Hypothesis H_init : forall i w, point din (fst (init_pt i w)).
Theorem C67_limbo : forall cs os w s, Forall (fine_op din q) os ->
  run_ops sfun (pm_fresh K M din) (pm_compute K M rho draw tw tm ts tick) (pm_add K M rho draw tw tm ts tick) (pm_hp K M hpo optimizer tick)
    acq init_n init_pt hp_period cs os (new_bo (pm_default K M) w) = Some s ->
  Forall (consulted (parego_exact K M rho din q (0 <? hp_period)%Z)) (trace s).
Proof.
  intros cs os w s Hf Hr. destruct (kernels_OK _ _ _ _ Hs Hl HC) as [O]. destruct (means_RT M HM) as [T].
  eapply (C67_scalarised_posterior K M (base_OK C O noise0 opt Hn Ho) (RT_OK M T) (limbo_KernRT C noise0 opt Hn Ho O) (limbo_MeanRT M T) rho din q Din Dq hpo optimizer);
    try eassumption.
  intros Hp. destruct (Hhp Hp) as [H1 H2]. split; [exact H1|]. split; [intro w0; now apply rprop_improves|].
  intros H3 m Hm. rewrite (mrt_size (RT_OK M T) (limbo_MeanRT M T) 1 m Hm). auto.
Qed.
End Limbo.

(** a run: two initial points, two iterations, two objectives, the parameters of the kernel optimised after each
    iteration, new weights at every call; the hypotheses of C67_limbo hold, and the acquisition function is asked for
    with two and with three samples *)
Section Example.
Definition sf2 (w : nat) (x : F64.vec) : (F64.vec + unit) * nat := (inl [hd f0 x; f1], w).
Definition draw2 (w i : nat) : R := INR (w mod 3 + i).
Definition tree2 (w : nat) : tree := Node (Leaf 1) (Leaf 0).
Lemma run_any2 (Mt : Type) (m0 fresh : Mt) c a h : exists s,
  run_ops sf2 fresh (fun w m xs ys => (c w m xs ys, S w)) (fun w m x y => (a w m x y, S w)) (fun w m => (h w m, S w)) acq1 2 init1 1 [max_iterations 2]
    [OpOptimize true 10] (new_bo m0 0%nat) = Some s /\ acqs (trace s) = [2; 3]%nat.
Proof. eexists. split; vm_compute; reflexivity. Qed.
Let K := BaseKernel (Exp 1 1) 0 false.
Let M := Data.
Example C67_nonvacuous :
  (forall w, (forall i, (i < 2)%nat -> 0 <= draw2 w i) /\ exists i, (i < 2)%nat /\ draw2 w i <> 0) /\ Permutation (leaves (tree2 0)) (seq 0 2) /\
  (forall w x v w', length x = 1%nat -> sf2 w x = (inl v, w') -> length v = 2%nat) /\
  (forall w (m : outcome (parego K M)) c, point 1 (fst (acq1 w m c))) /\ (forall i w, point 1 (fst (init1 i w))) /\ Forall (fine_op 1 2) [OpOptimize true 10] /\
  exists s, run_ops sf2 (pm_fresh K M 1) (pm_compute K M 0.05 draw2 tree2 tree2 tree2 S) (pm_add K M 0.05 draw2 tree2 tree2 tree2 S)
    (pm_hp K M KernelLFOpt (fun _ f p => rprop_R f 0 10 p) S) acq1 2 init1 1
    [max_iterations 2] [OpOptimize true 10] (new_bo (pm_default K M) 0%nat) = Some s /\ acqs (trace s) = [2; 3]%nat.
Proof.
  split. { intro w. split; [intros i _; apply pos_INR|]. exists 1%nat. split; [lia|]. unfold draw2. apply not_0_INR. lia. }
  split; [apply perm_swap|]. split; [intros w x v w' _ H; injection H as <- _; reflexivity|].
  destruct C61_nonvacuous as (_ & _ & HI & _). split; [|split; [exact HI|]].
  { intros w m c. assert (N : forall b : bool, is_number (if b then fofZ 2 else fofZ 3)) by (intros []; apply is_nan_or_inf1_spec; vm_compute; reflexivity).
    split; [reflexivity|constructor; [apply N|constructor]]. }
  split; [repeat constructor|].
  apply (run_any2 (outcome (parego K M)) (pm_default K M) (pm_fresh K M 1)
    (fun w m xs ys => fst (pm_compute K M 0.05 draw2 tree2 tree2 tree2 S w m xs ys)) (fun w m x y => fst (pm_add K M 0.05 draw2 tree2 tree2 tree2 S w m x y))
    (fun w m => fst (pm_hp K M KernelLFOpt (fun _ f p => rprop_R f 0 10 p) S w m))).
Qed.
(** the history of the theorem on loading *)
Example C67_add_after_load_nonvacuous : let t := tree2 0 in
  fresh K M (gp_new K M 1 1) (s_new K M 1 1) /\ Forall (pproper 1 2) ([PCompute [[0]] [[1; 2]] t t t (draw2 0)] ++ [PAdd [1] [0; 3] t t t (draw2 1)]).
Proof.
  cbv zeta. split; [constructor|]. constructor; [|constructor; [|constructor]]; cbn [pproper].
  - split; [discriminate|]. split; [reflexivity|]. split; [repeat constructor|]. split; [repeat constructor|]. unfold draw2, tree2. cbn -[INR]. simpl. lra.
  - split; [reflexivity|]. split; [reflexivity|]. unfold draw2, tree2. cbn -[INR]. simpl. lra.
Qed.
End Example.
