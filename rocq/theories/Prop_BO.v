(** Properties C01-C08: the optimisation loop. *)
From Coq Require Import ZArith List Bool Lia Permutation.
From Verif Require Import F64 BOModel BOSpec BOFacts.
Import ListNotations.
Open Scope Z_scope.

Section Props.
  Context {W M E : Type}.
  Variable sfun : W -> vec -> (vec + E) * W.
  Variable m_fresh : M.
  Variable m_compute : W -> M -> list vec -> list vec -> M * W.
  Variable m_add : W -> M -> vec -> vec -> M * W.
  Variable m_hp : W -> M -> M * W.
  Variable acq : W -> M -> Z -> vec * W.
  Variable init_n : nat.
  Variable init_pt : nat -> W -> vec * W.
  Variable hp_period : Z.

  Notation optimize := (optimize sfun m_fresh m_compute m_add m_hp acq init_n init_pt hp_period).
  Notation run_ops := (run_ops sfun m_fresh m_compute m_add m_hp acq init_n init_pt hp_period).

  (** C01: after any history of public calls the object is in a defined state, samples and
      observations are paired as the accepted evaluations of the history, all finite. *)
  Theorem C01_pairing :
    forall cs os (m : M) (w : W),
    exists s : bo W M E,
      run_ops cs os (new_bo m w) = Some s /\
      length (samples s) = length (observations s) /\
      combine (samples s) (observations s) = kept (trace s) /\
      Forall (Forall is_number) (observations s).
  Proof.
    intros cs os m w.
    destruct (run_ops_pair sfun m_fresh m_compute m_add m_hp acq init_n init_pt hp_period cs os _
                (new_bo_pair m w)) as (s & H1 & H2 & H3 & H4). eauto.
  Qed.

  (** C02 (one evaluation): a rejected result leaves the object as it was, and a result is
      rejected exactly when the objective throws or returns a non-finite component. *)
  Theorem C02_rejected_evaluation :
    forall (s : bo W M E) x r w, sfun (world s) x = (r, w) ->
      (bad_result r ->
         exists s', eval_and_add sfun s x = Throw s' (exn_of r) /\
           samples s' = samples s /\ observations s' = observations s /\ cur s' = cur s /\
           tot s' = tot s /\ model s' = model s /\ trace s' = trace s ++ [EvEval x r]) /\
      (~ bad_result r ->
         exists v s', r = inl v /\ eval_and_add sfun s x = Ret s' /\
           samples s' = samples s ++ [x] /\ observations s' = observations s ++ [v] /\ cur s' = cur s /\
           tot s' = tot s /\ model s' = model s /\ trace s' = trace s ++ [EvEval x r]).
  Proof.
    intros s x r w Hf.
    destruct (eval_and_add_spec sfun s x) as (r' & w' & Hf' & Hc). rewrite Hf in Hf'.
    inversion Hf'; subst r' w'. cbv zeta in Hc.
    destruct Hc as [(v & -> & Hfin & ->)|(Hb & ->)]; split.
    - intro Hb. simpl in Hb. congruence.
    - intros _. eexists _, _. repeat split.
    - intros _. eexists. repeat split.
    - intro Hn. contradiction.
  Qed.

  (** C02 (user additions): add_new_sample rejects exactly the non-finite observations. *)
  Theorem C02_add_new_sample :
    forall (s : bo W M E) x v,
      (Forall is_number v -> exists s', add_new_sample s x v = Ret s' /\
          samples s' = samples s ++ [x] /\ observations s' = observations s ++ [v]) /\
      (~ Forall is_number v -> add_new_sample s x v = Throw s EvaluationError).
  Proof.
    intros s x v. unfold add_new_sample. destruct (is_nan_or_inf v) eqn:Ev; split; intro H.
    - apply is_nan_or_inf_spec in H. congruence.
    - reflexivity.
    - eexists. repeat split.
    - apply is_nan_or_inf_spec in Ev. contradiction.
  Qed.

  (** C02 (whole run): when optimize() ends with an exception, the last thing that happened is
      the rejected evaluation; in the loop, the object still holds exactly the data, model and
      counter that were used to choose the rejected point. *)
  Theorem C02_optimize_exception :
    forall cs fuel reset (s s' : bo W M E) e,
      optimize cs fuel reset s = Throw s' e ->
      exists tr x r, bad_result r /\ e = exn_of r /\
        (trace s' = tr ++ [EvEval x r] /\ model s' = model s
         \/ exists c, cur s' = Some c /\
              trace s' = tr ++ [EvAcq (samples s') (observations s') (model s') c x; EvEval x r]).
  Proof.
    intros cs fuel reset s s' e. unfold BOModel.optimize.
    destruct (init_phase_cur sfun init_n init_pt reset s) as [(s1 & E1 & Hc & _)|(s1 & e1 & E1 & Hc & Hm)].
    - rewrite E1. intro H.
      assert (exists tr c x r, cur s' = Some c /\ bad_result r /\ e = exn_of r /\
              trace s' = tr ++ [EvAcq (samples s') (observations s') (model s') c x; EvEval x r]) as HH.
      { eapply loop_throw; [|exact H]. destruct (observations s1); [|destruct (m_compute _ _ _ _)]; simpl; congruence. }
      destruct HH as (tr & c & x & r & H1 & H2 & H3 & H4). exists tr, x, r. eauto 8.
    - rewrite E1. intro H. inversion H; subst.
      destruct (init_phase_throw sfun init_n init_pt reset s s' e E1) as (tr & x & r & H1 & H2 & H3).
      exists tr, x, r. auto.
  Qed.

  (** C03: exact budget with MaxIterations alone. *)
  Theorem C03_exact_budget :
    forall n fuel reset (s s' : bo W M E),
      optimize [max_iterations n] fuel reset s = Ret s' ->
      let k := Z.max 0 n in
      let n0 := if (reset || (tot s =? 0))%bool then Z.of_nat init_n else 0 in
      count is_eval (trace s') = count is_eval (trace s) + n0 + k /\
      cur s' = Some k /\
      tot s' = (if reset then 0 else tot s) + k /\
      Z.of_nat (length (samples s')) = Z.of_nat (length (if reset then [] else samples s)) + n0 + k.
  Proof.
    intros n fuel reset s s' H.
    pose proof (optimize_summary sfun m_fresh m_compute m_add m_hp acq init_n init_pt hp_period
                  [max_iterations n] fuel reset s) as HS.
    cbv zeta in HS. rewrite H in HS. cbv zeta.
    destruct HS as (k & (tr & xs & vs & _ & _ & _ & _ & Ht & _ & _ & Hc) & He & Hl & _).
    assert (cur s' = Some (Z.max 0 n)) as HC.
    { unfold BOModel.optimize in H.
      destruct (init_phase_cur sfun init_n init_pt reset s) as [(s1 & E1 & Hc1 & _)|(s1 & e1 & E1 & _)];
        rewrite E1 in H; [|discriminate].
      eapply loop_exact with (c := 0) in H; auto; try lia.
      destruct (observations s1); [|destruct (m_compute _ _ _ _)]; simpl; auto. }
    assert (Hk : Z.of_nat k = Z.max 0 n) by congruence.
    rewrite Hk in *. repeat split; auto.
    - rewrite He. destruct (reset || (tot s =? 0))%bool; lia.
    - rewrite Hl. destruct (reset || (tot s =? 0))%bool; lia.
  Qed.

  (** C03: whatever the other criteria, MaxIterations makes optimize() return (or throw) within
      max(0,n) iterations. *)
  Theorem C03_termination :
    forall cs n fuel reset (s : bo W M E),
      In (max_iterations n) cs -> (Z.to_nat n < fuel)%nat ->
      exists s', (optimize cs fuel reset s = Ret s' \/ exists e, optimize cs fuel reset s = Throw s' e) /\
        exists k, cur s' = Some (Z.of_nat k) /\ Z.of_nat k <= Z.max 0 n /\
          tot s' = (if reset then 0 else tot s) + Z.of_nat k.
  Proof.
    intros cs n fuel reset s Hin Hf.
    pose proof (optimize_summary sfun m_fresh m_compute m_add m_hp acq init_n init_pt hp_period
                  cs fuel reset s) as HS. cbv zeta in HS.
    assert (HB : match optimize cs fuel reset s with
                 | Ret s' | Running s' | Throw s' _ => exists c', cur s' = Some c' /\ c' <= Z.max 0 n
                 | UninitRead => False end /\
                 (forall s', optimize cs fuel reset s <> Running s')).
    { unfold BOModel.optimize.
      destruct (init_phase_cur sfun init_n init_pt reset s) as [(s1 & E1 & Hc1 & _)|(s1 & e1 & E1 & Hc1 & _)];
        rewrite E1; [|split; [exists 0; split; auto; lia|discriminate]].
      set (s2 := match observations s1 with [] => _ | _ :: _ => _ end).
      assert (A : cur s2 = Some 0).
      { unfold s2. destruct (observations s1); [|destruct (m_compute _ _ _ _)]; simpl; auto. }
      split; [apply (loop_bound sfun m_add m_hp acq hp_period cs n Hin fuel s2 0 A); lia|].
      destruct (loop_terminates sfun m_add m_hp acq hp_period cs n Hin fuel s2 0 A) as [(s' & Eq)|(s' & e & Eq)].
      - rewrite Z.sub_0_r. auto.
      - rewrite Eq. discriminate.
      - rewrite Eq. discriminate. }
    destruct HB as [HB HR].
    destruct (optimize cs fuel reset s) as [s'|s' e|s'|].
    - exists s'. split; auto. destruct HS as (k & (tr & xs & vs & _ & _ & _ & _ & Ht & _ & _ & Hc) & _).
      destruct HB as (c & Hc' & Hle). exists k. repeat split; auto.
      assert (Z.of_nat k = c) by congruence. lia.
    - exists s'. split; eauto. destruct HS as (k & (tr & xs & vs & _ & _ & _ & _ & Ht & _ & _ & Hc)).
      destruct HB as (c & Hc' & Hle). exists k. repeat split; auto.
      assert (Z.of_nat k = c) by congruence. lia.
    - exfalso. eapply HR; eauto.
    - destruct HB.
  Qed.

  (** C04: resuming keeps the earlier data as a prefix, resetting drops it; the initialisation is
      run again exactly when [tot = 0]; whatever the outcome of the call. *)
  Theorem C04_resume :
    forall cs fuel reset (s s' : bo W M E),
      optimize cs fuel reset s = Ret s' \/ optimize cs fuel reset s = Running s' \/
      (exists e, optimize cs fuel reset s = Throw s' e) ->
      exists tr xs vs,
        trace s' = trace s ++ tr /\
        samples s' = (if reset then [] else samples s) ++ xs /\
        observations s' = (if reset then [] else observations s) ++ vs /\
        count is_init tr = (if (reset || (tot s =? 0))%bool then 1 else 0).
  Proof.
    intros cs fuel reset s s' H.
    pose proof (optimize_summary sfun m_fresh m_compute m_add m_hp acq init_n init_pt hp_period
                  cs fuel reset s) as HS. cbv zeta in HS.
    assert (exists k, OptInv hp_period reset s k s') as (k & tr & xs & vs & H1 & H2 & H3 & H4 & _).
    { destruct H as [H|[H|(e & H)]]; rewrite H in HS; destruct HS as (k & HS); eauto; destruct HS; eauto. }
    eauto 8.
  Qed.

  (** C04: [total_iterations()] is the number of iterations completed since the last reset. *)
  Theorem C04_total_iterations :
    forall cs os (m : M) (w : W) (s : bo W M E),
      run_ops cs os (new_bo m w) = Some s -> tot s = iters (trace s).
  Proof.
    intros cs os m w s H.
    eapply (run_ops_tot sfun m_fresh m_compute m_add m_hp acq init_n init_pt hp_period); eauto.
    reflexivity.
  Qed.

  (** C05 *)
  Theorem C05_model_in_sync :
    forall (data : M -> list (vec * vec)),
      data m_fresh = [] ->
      (forall w m xs ys, data (fst (m_compute w m xs ys)) = combine xs ys) ->
      (forall w m x y, data (fst (m_add w m x y)) = data m ++ [(x, y)]) ->
      (forall w m, data (fst (m_hp w m)) = data m) ->
      forall cs os m w (s : bo W M E),
        run_ops cs os (new_bo m w) = Some s ->
        Forall (coherent_event data) (trace s) /\
        forall fuel reset s', optimize cs fuel reset s = Ret s' ->
          Forall (coherent_event data) (trace s') /\
          data (model s') = combine (samples s') (observations s').
  Proof.
    intros data D1 D2 D3 D4 cs os m w s H.
    assert (HP : InvPair s).
    { destruct (run_ops_pair sfun m_fresh m_compute m_add m_hp acq init_n init_pt hp_period cs os _
                (new_bo_pair m w)) as (s0 & E0 & HP). rewrite H in E0. inversion E0; subst. exact HP. }
    assert (HT : InvTr data s).
    { apply (run_ops_tr sfun m_fresh m_compute m_add m_hp acq init_n init_pt hp_period data D1 D2 D3 D4
        cs os (new_bo m w) s (new_bo_pair m w)); [constructor|exact H]. }
    split; [exact HT|]. intros fuel reset s' Ho.
    pose proof (optimize_data sfun m_fresh m_compute m_add m_hp acq init_n init_pt hp_period
      data D1 D2 D3 D4 cs fuel reset s HP HT) as HH. rewrite Ho in HH. exact HH.
  Qed.

  (** C06: the iterations (1-based, of this call) after which hyper-parameters are optimised are
      exactly the multiples of [hp_period] among the [k] completed iterations. *)
  Theorem C06_hp_schedule :
    forall cs fuel reset (s s' : bo W M E),
      optimize cs fuel reset s = Ret s' \/ optimize cs fuel reset s = Running s' \/
      (exists e, optimize cs fuel reset s = Throw s' e) ->
      exists tr k, trace s' = trace s ++ tr /\ cur s' = Some (Z.of_nat k) /\
        hp_iters tr = filter (divides hp_period) (upto k).
  Proof.
    intros cs fuel reset s s' H.
    pose proof (optimize_summary sfun m_fresh m_compute m_add m_hp acq init_n init_pt hp_period
                  cs fuel reset s) as HS. cbv zeta in HS.
    assert (exists k, OptInv hp_period reset s k s') as (k & tr & xs & vs & H1 & _ & _ & _ & _ & _ & H4 & H5).
    { destruct H as [H|[H|(e & H)]]; rewrite H in HS; destruct HS as (k & HS); eauto; destruct HS; eauto. }
    eauto 8.
  Qed.

  (** C07: criteria are consulted in order on their initial state until one holds. *)
  Theorem C07_stop_consults_in_order :
    forall cs (s : bo W M E),
    exists bs w', consult s cs (world s) bs w' /\
      stop_now cs s = (existsb (fun b => b) bs, w') /\
      (exists n, bs = repeat false n ++ (if existsb (fun b => b) bs then [true] else [])).
  Proof.
    intros cs s. destruct (chain_consult cs (world s) s) as (bs & w' & H1 & H2).
    exists bs, w'. repeat split; auto.
    clear H2. induction H1 as [w|c cs w u w' Hop|c cs w u w' bs w'' Hop HC IH].
    - exists O. reflexivity.
    - exists O. reflexivity.
    - destruct IH as (n & Hn). exists (S n). simpl. now rewrite <- Hn.
  Qed.

  (** C07: for criteria that do not change the world the decision is their disjunction, hence
      independent of their order. *)
  Theorem C07_stop_is_disjunction :
    forall (P : @criterion W M E -> bool) cs (s : bo W M E),
      (forall c w', In c cs -> exists u, crit_op c (crit_val c) w' s = (P c, u, w')) ->
      stop_now cs s = (existsb P cs, world s) /\
      forall cs', Permutation cs cs' -> stop_now cs' s = stop_now cs s.
  Proof.
    intros P cs s H.
    assert (A : stop_now cs s = (existsb P cs, world s)) by (apply chain_pure; auto).
    split; auto. intros cs' Hp. rewrite A. unfold stop_now.
    rewrite (chain_pure P).
    - f_equal. apply Bool.eq_true_iff_eq. rewrite !existsb_exists.
      split; intros (c & Hin & Hc); exists c; split; auto.
      + eapply Permutation_in; [apply Permutation_sym; exact Hp|exact Hin].
      + eapply Permutation_in; eauto.
    - intros c w' Hin. apply H. eapply Permutation_in; [apply Permutation_sym; exact Hp|exact Hin].
  Qed.

  (** C07: a normal return happens right after the criteria held; otherwise an iteration follows. *)
  Theorem C07_returns_when_criteria_hold :
    forall cs fuel reset (s s' : bo W M E),
      optimize cs fuel reset s = Ret s' ->
      exists tr c, trace s' = tr ++ [EvStop (samples s') (observations s') (model s') c true].
  Proof.
    intros cs fuel reset s s' H.
    pose proof (optimize_summary sfun m_fresh m_compute m_add m_hp acq init_n init_pt hp_period
                  cs fuel reset s) as HS. cbv zeta in HS. rewrite H in HS.
    destruct HS as (k & _ & _ & _ & tr & HS). eauto.
  Qed.

  (** C08 *)
  Theorem C08_incumbent :
    forall (afun : vec -> F) (s : bo W M E),
      length (samples s) = length (observations s) ->
      observations s <> [] ->
      Forall notnan (map afun (observations s)) ->
      exists i o x,
        nth_error (observations s) i = Some o /\ nth_error (samples s) i = Some x /\
        best_observation afun s = Some o /\ best_sample afun s = Some x /\
        (forall o', In o' (observations s) -> flt (afun o) (afun o') = false) /\
        (forall j o', (j < i)%nat -> nth_error (observations s) j = Some o' -> flt (afun o') (afun o) = true).
  Proof.
    intros afun s Hl Hne Hnan.
    destruct (max_element_spec (map afun (observations s))) as (v & Hi & Hmax & Hfirst); auto.
    { destruct (observations s); simpl; congruence. }
    set (i := max_element (map afun (observations s))) in *.
    rewrite nth_error_map in Hi. destruct (nth_error (observations s) i) as [o|] eqn:Eo; [|discriminate].
    simpl in Hi. inversion Hi; subst v.
    destruct (nth_error (samples s) i) as [x|] eqn:Ex.
    - exists i, o, x. unfold best_observation, best_sample. fold i. repeat split; auto.
      + intros o' Hin. apply In_nth_error in Hin. destruct Hin as (j & Hj).
        apply (Hmax j). rewrite nth_error_map, Hj. reflexivity.
      + intros j o' Hlt Hj. apply (Hfirst j); auto. rewrite nth_error_map, Hj. reflexivity.
    - exfalso. apply nth_error_None in Ex.
      assert (i < length (observations s))%nat by (apply nth_error_Some; congruence). lia.
  Qed.

  (** C08: on an empty optimizer the call is undefined behaviour (out-of-range access). *)
  Theorem C08_empty_is_undefined :
    forall (afun : vec -> F) (s : bo W M E),
      observations s = [] -> best_observation afun s = None.
  Proof. intros afun s H. unfold best_observation. rewrite H. reflexivity. Qed.
End Props.

(** * Non-vacuity: a concrete run.
    World = number of calls so far; the objective returns its argument, except that call number 4
    returns NaN; the model is the list of pairs it was given. *)
Module Example_run.
  Definition sf (w : nat) (x : vec) : (vec + unit) * nat :=
    (inl (if (w =? 4)%nat then [fnan] else x), S w).
  Definition M := list (vec * vec).
  Definition compute (w : nat) (m : M) xs ys : M * nat := (combine xs ys, w).
  Definition add (w : nat) (m : M) x y : M * nat := (m ++ [(x, y)], w).
  Definition hp (w : nat) (m : M) : M * nat := (m, w).
  Definition aq (w : nat) (m : M) (c : Z) : vec * nat := ([fofZ (7 - 3 * c)], w).
  Definition ipt (i : nat) (w : nat) : vec * nat := ([fofZ (Z.of_nat i)], w).
  Definition opt := @optimize nat M unit sf [] compute add hp aq 2 ipt 2.
  Definition st0 : bo nat M unit := new_bo [] O.

  (* a run of 2 initial points and 1 iteration, then a resumed one aborted by the NaN at its 2nd
     evaluation, then a resumed one that completes 3 iterations *)
  Definition three := run_ops sf [] compute add hp aq 2 ipt 2
     [max_iterations 3] [OpOptimize false 10; OpOptimize false 10] st0.
  Example three_runs : exists s, three = Some s /\ length (samples s) = 7%nat /\ tot s = 5 /\
     hp_iters (trace s) = [2; 2].
  Proof. eexists. split; [vm_compute; reflexivity|]. vm_compute. auto. Qed.

  Example aborted : exists s' e, opt [max_iterations 3] 10 true st0 = Throw s' e /\
    length (samples s') = 4%nat /\ cur s' = Some 2.
  Proof. eexists _, _. split; [vm_compute; reflexivity|]. vm_compute. auto. Qed.

  Example completed : exists s', opt [max_iterations 2] 10 true st0 = Ret s' /\
    length (samples s') = 4%nat /\ best_sample (fun v => hd fnan v) s' = Some [fofZ 7].
  Proof. eexists. split; [vm_compute; reflexivity|]. vm_compute. auto. Qed.

  (* the coherence hypotheses of C05 are met by this model *)
  Example c05_hyps :
    (fun m : M => m) [] = [] /\
    (forall w m xs ys, fst (compute w m xs ys) = combine xs ys) /\
    (forall w m x y, fst (add w m x y) = m ++ [(x, y)]) /\ (forall w m, fst (hp w m) = m).
  Proof. repeat split. Qed.

  (* the hypothesis of C07_stop_is_disjunction is met by MaxIterations criteria, in a state where
     one of them holds and the other does not *)
  Definition two : list (@criterion nat M unit) := [max_iterations 3; max_iterations 1].
  Definition holds (s : bo nat M unit) (c : @criterion nat M unit) : bool :=
    fst (fst (crit_op c (crit_val c) (world s) s)).
  Example c07_hyps : exists s', opt [max_iterations 2] 10 true st0 = Ret s' /\
    (forall c w', In c two -> exists u, crit_op c (crit_val c) w' s' = (holds s' c, u, w')) /\
    map (holds s') two = [false; true].
  Proof.
    eexists. split; [vm_compute; reflexivity|]. split.
    - intros c w' [<-|[<-|[]]]; exists tt; vm_compute; reflexivity.
    - vm_compute. reflexivity.
  Qed.
End Example_run.

Print Assumptions C01_pairing.
Print Assumptions C02_rejected_evaluation.
Print Assumptions C02_add_new_sample.
Print Assumptions C02_optimize_exception.
Print Assumptions C03_exact_budget.
Print Assumptions C03_termination.
Print Assumptions C04_resume.
Print Assumptions C04_total_iterations.
Print Assumptions C05_model_in_sync.
Print Assumptions C06_hp_schedule.
Print Assumptions C07_stop_consults_in_order.
Print Assumptions C07_stop_is_disjunction.
Print Assumptions C07_returns_when_criteria_hold.
Print Assumptions C08_incumbent.
Print Assumptions C08_empty_is_undefined.
