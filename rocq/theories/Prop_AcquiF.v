(** C40, C41 and C49 in binary64; C43 with several threads. *)
From Coq Require Import ZArith List Bool Lia Reals Lra.
From Coq Require Import Floats.SpecFloat.
From Flocq Require Import Core IEEE754.BinarySingleNaN.
From Verif Require Import F64 F64R OptFloat BOModel BOSpec BOFacts Prop_BO AcquiModelF.
Import ListNotations.
Open Scope Z_scope.

(** * C40 *)
Lemma fsqrt_correct x : fvalid x -> ffin x -> (0 <= fval x)%R -> ffin (fsqrt x) /\ fval (fsqrt x) = rnd (sqrt (fval x)).
Proof.
  intros Hx Fx H. pose proof (Bsqrt_correct fprec femax _ _ mode_NE (toB x Hx)) as (K1 & K2 & _).
  change (round_mode mode_NE) with ZnearestE in K1. rewrite !toB_R in K1. fold (rnd (sqrt (fval x))) in K1.
  rewrite <- (toB_SF x Hx) at 1 2. rewrite fsqrt_B. unfold ffin, fval. rewrite is_finite_SF_B2SF, SF2R_B2SF. split; [|exact K1].
  rewrite K2. unfold ffin in Fx. destruct x as [s|s| |s m e]; try discriminate; [reflexivity|]. cbn. destruct s; [|reflexivity].
  exfalso. unfold fval, SF2R in H. cbn in H. unfold F2R in H. cbn in H. pose proof (bpow_gt_0 radix2 e). pose proof (IZR_lt (Z.neg m) 0 ltac:(lia)). nra.
Qed.
Lemma rnd_0 : rnd 0 = 0%R. Proof. unfold rnd. apply round_0. typeclasses eauto. Qed.
Lemma rnd_nonneg x : (0 <= x)%R -> (0 <= rnd x)%R.
Proof. intro H. rewrite <- rnd_0. now apply rnd_le. Qed.

(** Computed values: a larger mean and a larger variance never give a smaller value (no overflow in
    the larger one). *)
Theorem C40_monotone_float alpha mu s mu' s' :
  fvalid alpha -> fvalid mu -> fvalid s -> fvalid mu' -> fvalid s' ->
  ffin alpha -> ffin mu -> ffin s -> ffin mu' -> ffin s' ->
  fle f0 alpha = true -> fle f0 s = true -> fle mu mu' = true -> fle s s' = true ->
  (Rabs (rnd (fval alpha * rnd (sqrt (fval s')))) < bpow radix2 1024)%R ->
  (Rabs (rnd (fval mu' + rnd (fval alpha * rnd (sqrt (fval s'))))) < bpow radix2 1024)%R ->
  ffin (ucb_F alpha mu s) /\ ffin (ucb_F alpha mu' s') /\ fle (ucb_F alpha mu s) (ucb_F alpha mu' s') = true.
Proof.
  intros Va Vm Vs Vm' Vs' Fa Fm Fs Fm' Fs' La Ls Lm Lss O1 O2.
  destruct f0_ok as (V0 & F0 & E0).
  apply fle_R in La; auto. apply fle_R in Ls; auto. apply fle_R in Lm; auto. apply fle_R in Lss; auto. rewrite E0 in La, Ls.
  destruct (fsqrt_correct s Vs Fs Ls) as [S1 S2]. destruct (fsqrt_correct s' Vs' Fs' ltac:(lra)) as [S1' S2'].
  pose proof (fsqrt_valid s Vs) as S3. pose proof (fsqrt_valid s' Vs') as S3'.
  assert (Q0 : (0 <= rnd (sqrt (fval s)))%R) by (apply rnd_nonneg, sqrt_pos).
  assert (Q1 : (rnd (sqrt (fval s)) <= rnd (sqrt (fval s')))%R) by (apply rnd_le, sqrt_le_1; lra).
  assert (Q2 : (0 <= rnd (fval alpha * rnd (sqrt (fval s))))%R) by (apply rnd_nonneg, Rmult_le_pos; auto).
  assert (Q3 : (rnd (fval alpha * rnd (sqrt (fval s))) <= rnd (fval alpha * rnd (sqrt (fval s'))))%R) by (apply rnd_le, Rmult_le_compat_l; auto).
  assert (O1' : (Rabs (rnd (fval alpha * rnd (sqrt (fval s)))) < bpow radix2 1024)%R).
  { rewrite Rabs_pos_eq by exact Q2. eapply Rle_lt_trans; [exact Q3|]. eapply Rle_lt_trans; [apply Rle_abs|exact O1]. }
  destruct (fmul_correct alpha (fsqrt s) Va S3 Fa S1) as [P1 P2]; [rewrite S2; exact O1'|]. rewrite S2 in P2.
  destruct (fmul_correct alpha (fsqrt s') Va S3' Fa S1') as [P1' P2']; [rewrite S2'; exact O1|]. rewrite S2' in P2'.
  pose proof (fmul_valid _ _ Va S3) as P3. pose proof (fmul_valid _ _ Va S3') as P3'.
  assert (Q4 : (rnd (fval mu + rnd (fval alpha * rnd (sqrt (fval s)))) <= rnd (fval mu' + rnd (fval alpha * rnd (sqrt (fval s')))))%R) by (apply rnd_le; lra).
  assert (Q5 : (fval mu <= rnd (fval mu + rnd (fval alpha * rnd (sqrt (fval s)))))%R) by (rewrite <- (rnd_id mu Vm) at 1; apply rnd_le; lra).
  assert (O2' : (Rabs (rnd (fval mu + rnd (fval alpha * rnd (sqrt (fval s))))) < bpow radix2 1024)%R).
  { apply Rabs_lt. split.
    - eapply Rlt_le_trans; [|exact Q5]. assert (B : (Rabs (fval mu) < bpow radix2 1024)%R).
      { rewrite <- (toB_R mu Vm). apply abs_B2R_lt_emax. } apply Rabs_lt_inv in B. lra.
    - eapply Rle_lt_trans; [exact Q4|]. eapply Rle_lt_trans; [apply Rle_abs|exact O2]. }
  unfold ucb_F. destruct (fadd_correct mu _ Vm P3 Fm P1) as [R1 R2]; [rewrite P2; exact O2'|].
  destruct (fadd_correct mu' _ Vm' P3' Fm' P1') as [R1' R2']; [rewrite P2'; exact O2|].
  split; [exact R1|]. split; [exact R1'|]. apply fle_R; auto using fadd_valid. rewrite R2, R2', P2, P2'. exact Q4.
Qed.
Example C40_float_example : fle (ucb_F f1 (fofZ 2) (fofZ 4)) (ucb_F f1 (fofZ 3) (fofZ 9)) = true.
Proof. vm_compute. reflexivity. Qed.

(** * C41 *)
Lemma exponent_pos dim : 0 <= dim <= 2 ^ 53 -> flt f0 (fadd (fdiv (fofZ dim) f2) f2) = true.
Proof.
  intro Hd. destruct f0_ok as (V0 & F0 & E0).
  destruct (fofZ_correct dim ltac:(lia)) as [D1 D2]. destruct (fofZ_correct 2 ltac:(lia)) as [T1 T2]. fold f2 in T1, T2.
  assert (Hdr : (0 <= IZR dim <= IZR (2 ^ 53))%R) by (split; apply IZR_le; lia).
  assert (Bd : (IZR (2 ^ 53) <= bpow radix2 1000)%R).
  { change (2 ^ 53) with (Zpower radix2 53). rewrite IZR_Zpower by lia. apply bpow_le. lia. }
  assert (Bd2 : (IZR (2 ^ 53) * 2 <= bpow radix2 1000)%R).
  { change (2 ^ 53) with (Zpower radix2 53). rewrite IZR_Zpower by lia. change 2%R with (bpow radix2 1). rewrite <- bpow_plus. apply bpow_le. lia. }
  assert (B8 : (8 <= IZR (2 ^ 53))%R) by (apply IZR_le; lia).
  destruct (fdiv_correct (fofZ dim) f2 (fofZ_valid _) (fofZ_valid _) D1 T1) as [Q1 Q2]; [rewrite T2; lra| |].
  { rewrite D2, T2. apply rnd_small. rewrite Rabs_pos_eq; lra. }
  rewrite D2, T2 in Q2.
  assert (Q3 : (0 <= fval (fdiv (fofZ dim) f2) <= IZR (2 ^ 53))%R).
  { rewrite Q2. split; [apply rnd_nonneg; lra|]. destruct (fofZ_correct (2 ^ 53) ltac:(lia)) as [_ G]. rewrite <- G. rewrite <- (rnd_id (fofZ (2 ^ 53)) (fofZ_valid _)). apply rnd_le. rewrite G. lra. }
  destruct (fadd_correct (fdiv (fofZ dim) f2) f2 (fdiv_valid _ _ (fofZ_valid _) (fofZ_valid _)) (fofZ_valid _) Q1 T1) as [A1 A2].
  { rewrite T2. apply rnd_small. rewrite Rabs_pos_eq; lra. }
  assert (VA : fvalid (fadd (fdiv (fofZ dim) f2) f2)) by (apply fadd_valid; [apply fdiv_valid|]; apply fofZ_valid).
  apply flt_R; auto.
  rewrite A2, E0, T2. apply Rlt_le_trans with 2%R; [lra|]. rewrite <- T2 at 1. rewrite <- (rnd_id f2 (fofZ_valid _)). apply rnd_le. rewrite T2. lra.
Qed.

(** The weight and every value are NaN at iteration 0.  std::pow(0, y) = +0 for y > 0 and
    std::log(+0) = -inf are required by the C standard (annex F). *)
Theorem C41_nan_refuted pow_ log_ delta dim :
  (forall y, flt f0 y = true -> pow_ f0 y = f0) -> log_ f0 = fninf ->
  flt f0 (fmul delta (fofZ 3)) = true -> 0 <= dim <= 2 ^ 53 ->
  gp_ucb_beta_F pow_ log_ delta dim 0 = fnan /\
  forall mu sigma, ucb_F (gp_ucb_beta_F pow_ log_ delta dim 0) mu sigma = fnan.
Proof.
  intros Hp Hl Hd Hdim.
  assert (B : gp_ucb_beta_F pow_ log_ delta dim 0 = fnan).
  { unfold gp_ucb_beta_F. cbn zeta. change (fofZ 0) with f0. rewrite (Hp _ (exponent_pos dim Hdim)).
    assert (Z : fmul f0 (fmul M_PI M_PI) = f0) by (vm_compute; reflexivity). rewrite Z.
    assert (Q : fdiv f0 (fmul delta (fofZ 3)) = f0).
    { destruct (fmul delta (fofZ 3)) as [[|]|[|]| |[|] m e]; vm_compute in Hd; try discriminate; reflexivity. }
    rewrite Q, Hl. vm_compute. reflexivity. }
  split; [exact B|]. intros mu sigma. rewrite B. unfold ucb_F. unfold fmul, fadd, fnan. cbn. destruct mu as [[|]|[|]| |[|] m e]; reflexivity.
Qed.
Example C41_hypotheses : flt f0 (fmul (fdiv f1 (fofZ 10)) (fofZ 3)) = true. Proof. vm_compute. reflexivity. Qed.

(** Iteration 0 is reached by every call of optimize() that maximises the acquisition function. *)
Section BO.
  Context {W M E : Type}.
  Variable sfun : W -> vec -> (vec + E) * W.
  Variables (m_fresh : M) (m_compute : W -> M -> list vec -> list vec -> M * W) (m_add : W -> M -> vec -> vec -> M * W) (m_hp : W -> M -> M * W).
  Variable acq : W -> M -> Z -> vec * W.
  Variables (init_n : nat) (init_pt : nat -> W -> vec * W) (hp_period : Z).
  Notation run_init := (run_init (M := M) sfun init_pt).
  Notation init_phase := (init_phase (M := M) sfun init_n init_pt).
  Notation loop := (loop sfun m_add m_hp acq hp_period).
  Notation optimize := (optimize sfun m_fresh m_compute m_add m_hp acq init_n init_pt hp_period).
  (** the iteration numbers given to the acquisition functions *)
  Fixpoint acq_iters (evs : list (event M E)) : list Z :=
    match evs with [] => [] | EvAcq _ _ _ c _ :: r => c :: acq_iters r | _ :: r => acq_iters r end.
  Lemma acq_iters_app a b : acq_iters (a ++ b) = acq_iters a ++ acq_iters b.
  Proof. induction a as [|e a IH]; auto. destruct e; simpl; now rewrite ?IH. Qed.
  Definition ok (s0 : bo W M E) (k : nat) (s : bo W M E) : Prop :=
    exists tr, trace s = trace s0 ++ tr /\ acq_iters tr = map Z.of_nat (seq 0 k).
  Lemma ok_log s0 k s e : ok s0 k s -> acq_iters [e] = [] -> ok s0 k (log s e).
  Proof. intros (tr & A & B) He. exists (tr ++ [e]). rewrite acq_iters_app, He, app_nil_r. split; [|exact B]. cbn. now rewrite A, app_assoc. Qed.
  Lemma ok_trace s0 k s s' : ok s0 k s -> trace s' = trace s -> ok s0 k s'.
  Proof. intros (tr & A & B) H. exists tr. now rewrite H. Qed.
  Lemma run_init_ok k n : forall i s0 s, ok s0 n s -> match run_init k i s with
    | Ret s' => cur s' = cur s /\ ok s0 n s' | Throw s' _ => ok s0 n s' | _ => False end.
  Proof.
    induction k as [|k IH]; intros i s0 s H; cbn [BOModel.run_init]; [auto|].
    destruct (init_pt i (world s)) as [x w].
    destruct (BOFacts.eval_and_add_spec (M := M) sfun (set_world s w) x) as (r & w' & Hf & Hc). cbv zeta in Hc.
    destruct Hc as [(v & -> & Hfin & ->)|(Hb & ->)].
    - set (s1 := push _ _ _).
      assert (O1 : ok s0 n s1) by (apply ok_trace with (log s (EvEval x (inl v))); [now apply ok_log|destruct s; reflexivity]).
      specialize (IH (S i) s0 s1 O1). destruct (run_init k (S i) s1) as [s'|s' e|s'|]; auto.

    - apply ok_trace with (log s (EvEval x r)); [now apply ok_log|destruct s; reflexivity].
  Qed.
  Lemma loop_ok cs s0 : forall fuel k s, cur s = Some (Z.of_nat k) -> ok s0 k s ->
    match loop cs fuel s with Ret s' | Throw s' _ | Running s' => exists k', ok s0 k' s' | UninitRead => False end.
  Proof.
    induction fuel as [|fuel IH]; intros k s Hc Hok; cbn [BOModel.loop]; [eauto|].
    rewrite Hc. destruct (stop_now cs s) as [b w]. set (sa := log (set_world s w) _).
    assert (Oa : ok s0 k sa) by (unfold sa; apply ok_log; [|reflexivity]; apply ok_trace with s; auto).
    destruct b; [eauto|]. unfold BOModel.iteration. destruct (acq (world sa) (model sa) (Z.of_nat k)) as [x w1].
    set (sb := log (set_world sa w1) _).
    assert (Ob : ok s0 (S k) sb).
    { destruct Oa as (tr & A & B). eexists (tr ++ [_]). split; [unfold sb; cbn [trace log set_world]; now rewrite A, app_assoc|].
      rewrite acq_iters_app, B. rewrite seq_S, map_app. reflexivity. }
    destruct (BOFacts.eval_and_add_spec (M := M) sfun sb x) as (r & w' & Hf & Hcs). cbv zeta in Hcs.
    destruct Hcs as [(v & -> & Hfin & ->)|(Hb & ->)].
    - set (s2 := push _ _ _). set (s3 := log s2 _).
      assert (O3 : ok s0 (S k) s3).
      { apply ok_log; [|reflexivity]. apply ok_trace with (log sb (EvEval x (inl v))); [now apply ok_log|reflexivity]. }
      destruct (m_add (world s3) (model s3) (last (samples s3) []) (last (observations s3) [])) as [m w3].
      set (s4 := set_model (set_world s3 w3) m).
      assert (O4 : ok s0 (S k) s4) by (apply ok_trace with s3; auto).
      destruct ((0 <? hp_period) && ((Z.of_nat k + 1) mod hp_period =? 0)).
      + destruct (m_hp (world s4) (model s4)) as [m' w4].
        match goal with |- context [loop cs fuel ?u] => apply (IH (S k) u) end; [cbn; f_equal; lia|].
        apply ok_trace with (log (set_model (set_world s4 w4) m') (EvHp (Z.of_nat k))); [|reflexivity]. apply ok_log; [|reflexivity]. now apply ok_trace with s4.
      + match goal with |- context [loop cs fuel ?u] => apply (IH (S k) u) end; [cbn; f_equal; lia|]. now apply ok_trace with s4.
    - exists (S k). apply ok_trace with (log sb (EvEval x r)); [now apply ok_log|reflexivity].
  Qed.

  (** The acquisition functions built during one call of optimize() are given the iteration numbers
      0, 1, 2, ... in this order: the first one is always 0. *)
  Theorem C41_iterations_used cs fuel reset s s' :
    optimize cs fuel reset s = Ret s' \/ optimize cs fuel reset s = Running s' \/ (exists e, optimize cs fuel reset s = Throw s' e) ->
    exists tr k, trace s' = trace s ++ tr /\ acq_iters tr = map Z.of_nat (seq 0 k).
  Proof.
    intro H. assert (G : match optimize cs fuel reset s with Ret s' | Throw s' _ | Running s' => exists k', ok s k' s' | UninitRead => False end).
    { unfold BOModel.optimize, BOModel.init_phase.
      set (s1 := set_cur _ 0). set (s2 := if reset then _ else s1).
      assert (O1 : ok s 0 s1). { apply ok_trace with (log s (EvCall reset)); [apply ok_log; [exists []; rewrite app_nil_r; auto|reflexivity]|reflexivity]. }
      assert (O2 : ok s 0 s2 /\ cur s2 = Some 0).
      { unfold s2. destruct reset; [|split; auto]. split; [|reflexivity]. apply ok_log; [|reflexivity]. now apply ok_trace with s1. }
      destruct O2 as [O2 C2].
      assert (T : match (if tot s2 =? 0 then run_init init_n 0 (log s2 EvInit) else Ret s2) with
                  | Ret s3 => cur s3 = Some 0 /\ ok s 0 s3 | Throw s3 _ => ok s 0 s3 | _ => False end).
      { destruct (tot s2 =? 0); [|auto]. pose proof (run_init_ok init_n 0 0 s (log s2 EvInit) ltac:(now apply ok_log)) as R.
        destruct (run_init init_n 0 (log s2 EvInit)) as [s3|s3 e|s3|]; auto. destruct R as [R1 R2]. split; [|exact R2]. rewrite R1. exact C2. }
      destruct (if tot s2 =? 0 then run_init init_n 0 (log s2 EvInit) else Ret s2) as [s3|s3 e|s3|]; [|eauto|contradiction|contradiction].
      destruct T as [C3 O3]. destruct (observations s3).
      - apply (loop_ok cs s fuel 0); [exact C3|now apply ok_trace with s3].
      - destruct (m_compute (world s3) (model s3) (samples s3) (v :: l)) as [m w]. apply (loop_ok cs s fuel 0); [exact C3|now apply ok_trace with s3]. }
    assert (G' : exists k, ok s k s') by (destruct H as [H|[H|(e & H)]]; rewrite H in G; exact G).
    destruct G' as (k & tr & A & B). eauto.
  Qed.
End BO.

(** * C49 *)
Section C49.
  Context {W M E : Type}.
  Variable start : W -> vec * W.
  Variable inner : (vec -> F) -> vec -> W -> vec * W.
  Variable mu : M -> vec -> vec.
  Variable afun : vec -> F.
  Variable ratio : F.
  Notation crit := (max_predicted_value (E := E) start inner mu afun ratio).
  Definition stops (w : W) (s : bo W M E) : bool := fst (fst (crit_op crit (crit_val crit) w s)).
  (** the value found by the inner optimizer, started at a random point *)
  Definition found (w : W) (s : bo W M E) (val : F) : Prop :=
    exists x0 w1 x w2, start w = (x0, w1) /\ inner (fun x => afun (mu (model s) x)) x0 w1 = (x, w2) /\ val = afun (mu (model s) x).
  Theorem C49_no_observations w s : observations s = [] -> stops w s = false.
  Proof. intro H. unfold stops. cbn. now rewrite H. Qed.
  (** [o] is the best observation.  Partial: for values that are not NaN, see [C49_nan_refuted]. *)
  Theorem C49_stops_iff_partial w s val o : observations s <> [] -> found w s val ->
    Forall notnan (map afun (observations s)) -> notnan (fmul ratio val) ->
    In o (observations s) -> (forall o', In o' (observations s) -> flt (afun o) (afun o') = false) ->
    (stops w s = true <-> flt (fmul ratio val) (afun o) = true).
  Proof.
    intros Hne (x0 & w1 & x & w2 & E1 & E2 & ->) Hn Hv Ho Hmax.
    unfold stops. cbn. destruct (observations s) as [|o1 r] eqn:Eo; [congruence|]. rewrite E1, E2. cbn [fst]. rewrite <- Eo in *.
    destruct (max_element_spec (map afun (observations s))) as (v & Hi & Hm & _); [rewrite Eo; discriminate|exact Hn|].
    unfold best_observation. rewrite nth_error_map in Hi. destruct (nth_error (observations s) (max_element (map afun (observations s)))) as [ob|] eqn:Eb; [|discriminate].
    cbn in Hi. assert (v = afun ob) as -> by congruence. apply nth_error_In in Eb as Ib.
    assert (N1 : notnan (afun o)) by (rewrite Forall_forall in Hn; apply Hn, in_map, Ho).
    assert (N2 : notnan (afun ob)) by (rewrite Forall_forall in Hn; apply Hn, in_map, Ib).
    apply In_nth_error in Ho as (j & Ej). assert (H1 : flt (afun ob) (afun o) = false) by (apply (Hm j); rewrite nth_error_map, Ej; reflexivity).
    pose proof (Hmax ob Ib) as H2.
    set (rv := fmul ratio (afun (mu (model s) x))) in *.
    assert (Eq : negb (fle (afun ob) rv) = flt rv (afun ob)).
    { destruct (fle (afun ob) rv) eqn:Ef; cbn.
      - apply fle_flt in Ef as (_ & _ & ->). reflexivity.
      - destruct (flt rv (afun ob)) eqn:Eg; [reflexivity|]. exfalso. assert (fle (afun ob) rv = true) by (apply fle_flt; auto). congruence. }
    rewrite Eq. split; intro H; eapply flt_nflt_trans; eauto.
  Qed.
End C49.

(** When the model's prediction is NaN the criterion stops although no observation exceeds the threshold. *)
Theorem C49_nan_refuted : exists (start : unit -> vec * unit) inner (mu : unit -> vec -> vec) (afun : vec -> F) (ratio : F) (s : bo unit unit unit) w val,
  observations s <> [] /\ found start inner mu afun w s val /\ Forall notnan (map afun (observations s)) /\
  stops start inner mu afun ratio w s = true /\
  forall o, In o (observations s) -> flt (fmul ratio val) (afun o) = false.
Proof.
  exists (fun w => ([f0], w)), (fun _ x w => (x, w)), (fun _ _ => [fnan]), (fun v => nth 0 v f0), f1, (mkBo (Some 0) 0 [[f0]] [[f1]] tt tt []), tt, fnan.
  split; [discriminate|]. split; [exists [f0], tt, [f0], tt; auto|]. split; [repeat constructor; discriminate|]. split; [reflexivity|].
  intros o [<-|[]]. reflexivity.
Qed.
(** hypotheses of [C49_stops_iff_partial]: one observation 1, prediction 1/2, ratio 1 *)
Example C49_example :
  let s := mkBo (Some 0) 0 [[f0]] [[f1]] tt tt [] : bo unit unit unit in
  stops (fun w => ([f0], w)) (fun _ x w => (x, w)) (fun _ _ => [fdiv f1 f2]) (fun v => nth 0 v f0) f1 tt s = true /\
  stops (fun w => ([f0], w)) (fun _ x w => (x, w)) (fun _ _ => [f2]) (fun v => nth 0 v f0) f1 tt s = false /\
  found (fun w => ([f0], w)) (fun _ x w => (x, w)) (fun _ _ => [f2]) (fun v => nth 0 v f0) tt s f2 /\ notnan (fmul f1 f2).
Proof. split; [vm_compute; reflexivity|]. split; [vm_compute; reflexivity|]. split; [exists [f0], tt, [f0], tt; auto|discriminate]. Qed.

(** * C43 with several threads *)
Section Threads.
  Context {V : Type}.
  Variables (n : Z) (f : V).
  (** Two threads call a new EI object: the second reads the incumbent before it is written. *)
  Theorem C43_threads_refuted : 0 <= n -> exists sched, c_pc (run_threads n f (start_cfg (-1) None) sched) 1%nat = Got None.
  Proof.
    intro Hn. exists [0; 0; 1; 1]%nat. assert (E : (-1 =? n) = false) by (apply Z.eqb_neq; lia).
    unfold run_threads, start_cfg. cbn [fold_left]. unfold tick at 4. unfold tick at 1. cbn [c_pc c_nb c_fmax]. rewrite E.
    unfold tick at 1. unfold goto at 1. cbn [Nat.eqb c_pc c_nb c_fmax]. unfold tick. unfold goto. cbn [Nat.eqb c_pc c_nb c_fmax]. rewrite Z.eqb_refl. reflexivity.
  Qed.
  (** If the object was called once before, every thread gets the incumbent in every execution. *)
  Theorem C43_threads_after_first_call sched i x :
    c_pc (run_threads n f (start_cfg n (Some f)) sched) i = Got x -> x = Some f.
  Proof.
    assert (G : forall sched c, c_nb c = n -> c_fmax c = Some f ->
      (forall j, match c_pc c j with Test | ReadF => True | Got y => y = Some f | _ => False end) ->
      let c' := run_threads n f c sched in forall j, match c_pc c' j with Test | ReadF => True | Got y => y = Some f | _ => False end).
    { clear. induction sched as [|i r IH]; intros c Hn Hf Hp; [exact Hp|]. cbn [run_threads fold_left]. apply IH.
      - unfold tick. specialize (Hp i). destruct (c_pc c i); try contradiction; auto.
      - unfold tick. specialize (Hp i). destruct (c_pc c i); try contradiction; auto.
      - intro j. unfold tick. pose proof (Hp i) as Hi. pose proof (Hp j) as Hj. destruct (c_pc c i); try contradiction; cbn; unfold goto;
          destruct (j =? i)%nat; auto. rewrite Hn, Z.eqb_refl. exact I. }
    intro H. specialize (G sched (start_cfg n (Some f)) eq_refl eq_refl (fun _ => I) i). cbv zeta in G. rewrite H in G. exact G.
  Qed.
End Threads.
