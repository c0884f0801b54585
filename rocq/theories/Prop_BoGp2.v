(** C61 for limbo's kernels and mean functions, and a run that meets the hypotheses. *)
From Coq Require Import Reals List Bool ZArith Lia Lra.
From Verif Require Import F64 F64R LinAlgModel LinAlg KernelModel GPModel GPSpec GPFacts Prop_GP Prop_Load HpOptModel
  KernelSpec KernelFacts MeanSpec MeanFacts Prop_Mean Prop_Load2 Prop_HpOpt BOModel BOSpec BOFacts BORel BoGpModel Prop_BoGp.
Import ListNotations.
Open Scope R_scope.

Section Limbo.
Variables (sf2 l noise0 : R) (k : nat) (opt : bool) (C : CKern) (M : Mean).
Hypotheses (Hs : 0 < sf2) (Hl : 0 < l) (HC : In C (kernels sf2 l k)) (Hn : 0 <= noise0) (Ho : opt = true -> 0 < noise0) (HM : means M).
Notation K := (BaseKernel C noise0 opt).
Context {W E : Type}.
Variables (din dout : nat).
Hypotheses (Din : (0 < din)%nat) (Dout : (0 < dout)%nat).
Variables (hpo : hp_opt) (hp_period : Z).
Variable eps : R.
Variable iterations : Z.
Hypothesis Heps : 0 <= eps.
(** hyper-parameters are optimised with Rprop, if at all *)
Let optimizer (w : W) (f : KernelModel.vec -> outcome (R * KernelModel.vec)) (init : KernelModel.vec) := rprop_R f eps iterations init.
Hypothesis Hhp : (0 < hp_period)%Z -> hpo <> NoLFOpt /\ (hpo = MeanLFOpt \/ hpo = KernelMeanLFOpt -> (0 < m_hsize M (m_new M dout))%nat).
Variables junk1 junk2 : W -> nat -> nat -> R.
Variable tick : W -> W.
Variable sfun : W -> F64.vec -> (F64.vec + E) * W.
Variable acq : W -> outcome (gp K M) -> Z -> F64.vec * W.
Variable init_n : nat.
Variable init_pt : nat -> W -> F64.vec * W.
Hypothesis H_sfun : forall w x v w', length x = din -> sfun w x = (inl v, w') -> length v = dout.
Hypothesis H_acq : forall w m c, point din (fst (acq w m c)).
Hypothesis H_init : forall i w, point din (fst (init_pt i w)).
Theorem C61_limbo : forall cs os w s, Forall (fine_op din dout) os ->
  run_ops sfun (gm_fresh K M din dout) (gm_compute K M) (gm_add K M junk1 junk2 tick) (gm_hp K M hpo optimizer tick) acq init_n init_pt hp_period
    cs os (new_bo (Done (gp_default K M)) w) = Some s ->
  Forall (consulted (exact K M din dout (0 <? hp_period)%Z)) (trace s).
Proof.
  intros cs os w s Hf Hr. destruct (kernels_OK _ _ _ _ Hs Hl HC) as [O]. destruct (means_RT M HM) as [T].
  eapply (C61_exact_posterior_in_every_run K M (base_OK C O noise0 opt Hn Ho) (RT_OK M T) (limbo_KernRT C noise0 opt Hn Ho O) (limbo_MeanRT M T) din dout Din Dout hpo optimizer);
    try eassumption.
  intros Hp. destruct (Hhp Hp) as [H1 H2]. split; [exact H1|]. split; [intro w0; now apply rprop_improves|].
  intros H3 m Hm. rewrite (mrt_size (RT_OK M T) (limbo_MeanRT M T) dout m Hm). auto.
Qed.
End Limbo.

(** a run: two initial points, two iterations, the parameters of the kernel optimised after each; the hypotheses
    of C61_limbo hold, and the acquisition function is asked for with two and with three samples *)
Section Example.
Definition sf1 (w : nat) (x : F64.vec) : (F64.vec + unit) * nat := (inl [hd f0 x], w).
Definition acq1 {Mt : Type} (w : nat) (m : Mt) (c : Z) : F64.vec * nat := ([if (c =? 0)%Z then fofZ 2 else fofZ 3], S w).
Definition init1 (i w : nat) : F64.vec * nat := ([match i with O => f0 | _ => f1 end], w).
Definition junk (w : nat) (i j : nat) : R := 7.
Definition acqs {Mt : Type} (tr : list (event Mt unit)) : list nat :=
  flat_map (fun e => match e with EvAcq xs _ _ _ _ => [length xs] | _ => [] end) tr.
Lemma run_any (Mt : Type) (m0 fresh : Mt) c a h : exists s,
  run_ops sf1 fresh (fun w m xs ys => (c w m xs ys, w)) (fun w m x y => (a w m x y, S w)) (fun w m => (h w m, S w)) acq1 2 init1 1 [max_iterations 2]
    [OpOptimize true 10] (new_bo m0 0%nat) = Some s /\ acqs (trace s) = [2; 3]%nat.
Proof. eexists. split; vm_compute; reflexivity. Qed.
Let K := BaseKernel (Exp 1 1) 0 false.
Let M := Data.
Example C61_nonvacuous : (forall w x v w', length x = 1%nat -> sf1 w x = (inl v, w') -> length v = 1%nat) /\
  (forall w (m : outcome (gp K M)) c, point 1 (fst (acq1 w m c))) /\ (forall i w, point 1 (fst (init1 i w))) /\ Forall (fine_op 1 1) [OpOptimize true 10] /\
  exists s, run_ops sf1 (gm_fresh K M 1 1) (gm_compute K M) (gm_add K M junk junk S) (gm_hp K M KernelLFOpt (fun _ f p => rprop_R f 0 10 p) S) acq1 2 init1 1
    [max_iterations 2] [OpOptimize true 10] (new_bo (Done (gp_default K M)) 0%nat) = Some s /\ acqs (trace s) = [2; 3]%nat.
Proof.
  assert (N : forall b : bool, is_number (if b then fofZ 2 else fofZ 3)) by (intros []; apply is_nan_or_inf1_spec; vm_compute; reflexivity).
  split; [intros w x v w' _ H; injection H as <- _; reflexivity|].
  split; [intros w m c; split; [reflexivity|constructor; [apply N|constructor]]|].
  split; [intros [|i] w; (split; [reflexivity|]); constructor; auto; apply is_nan_or_inf1_spec; vm_compute; reflexivity|].
  split; [repeat constructor|].
  apply (run_any (outcome (gp K M)) (Done (gp_default K M)) (gm_fresh K M 1 1)
    (fun w m xs ys => fst (gm_compute K M w m xs ys)) (fun w m x y => fst (gm_add K M junk junk S w m x y)) (fun w m => fst (gm_hp K M KernelLFOpt (fun _ f p => rprop_R f 0 10 p) S w m))).
Qed.
End Example.
