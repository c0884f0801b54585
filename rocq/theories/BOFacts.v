(** Lemmas about the optimisation loop model. *)
From Coq Require Import ZArith List Bool Lia.
From Verif Require Import F64 BOModel BOSpec.
Import ListNotations.
Open Scope Z_scope.

Arguments upto : simpl never.
Arguments count : simpl never.

Lemma finite_num_ok x : finite_num x = negb (is_nan_or_inf1 x).
Proof. destruct x as [[]|[]| |[] ? ?]; reflexivity. Qed.

Lemma forallb_finite v : forallb finite_num v = negb (is_nan_or_inf v).
Proof.
  induction v as [|x v IH]; simpl; auto.
  rewrite finite_num_ok, IH. destruct (is_nan_or_inf1 x); reflexivity.
Qed.

Lemma combine_app {A B} (l1 l1' : list A) (l2 l2' : list B) :
  length l1 = length l2 -> combine (l1 ++ l1') (l2 ++ l2') = combine l1 l2 ++ combine l1' l2'.
Proof.
  revert l2. induction l1 as [|x l1 IH]; intros [|y l2] H; simpl in *; try discriminate; auto.
  f_equal. apply IH. lia.
Qed.

Section Facts.
  Context {W M E : Type}.
  Variable sfun : W -> vec -> (vec + E) * W.
  Variable m_fresh : M.
  Variable m_compute : W -> M -> list vec -> list vec -> M * W.
  Variable m_add : W -> M -> vec -> vec -> M * W.
  Variable m_hp : W -> M -> M * W.
  Variable acq : W -> M -> Z -> vec * W.
  Variable init_n : nat.
  Variable init_pt : nat -> W -> vec * W.
  Variable hp_period : Z.

  Notation st := (bo W M E).
  Implicit Types (s : bo W M E).
  Notation eval_and_add := (eval_and_add sfun).
  Notation run_init := (run_init sfun init_pt).
  Notation init_phase := (init_phase sfun init_n init_pt).
  Notation iteration := (iteration sfun m_add m_hp acq hp_period).
  Notation loop := (loop sfun m_add m_hp acq hp_period).
  Notation optimize := (optimize sfun m_fresh m_compute m_add m_hp acq init_n init_pt hp_period).
  Notation run_op := (run_op sfun m_fresh m_compute m_add m_hp acq init_n init_pt hp_period).
  Notation run_ops := (run_ops sfun m_fresh m_compute m_add m_hp acq init_n init_pt hp_period).

  (** characterisation of one evaluation *)
  Lemma eval_and_add_spec (s : st) x :
    exists r w,
      sfun (world s) x = (r, w) /\
      let s1 := log (set_world s w) (EvEval x r) in
      (exists v, r = inl v /\ forallb finite_num v = true /\ eval_and_add s x = Ret (push s1 x v))
      \/ (bad_result r /\ eval_and_add s x = Throw s1 (exn_of r)).
  Proof.
    unfold BOModel.eval_and_add. destruct (sfun (world s) x) as [r w].
    exists r, w. split; auto. simpl.
    destruct r as [v|e].
    - unfold add_new_sample. destruct (is_nan_or_inf v) eqn:Ev.
      + right. split; auto. simpl. rewrite forallb_finite, Ev. auto.
      + left. exists v. rewrite forallb_finite, Ev. auto.
    - right. simpl. auto.
  Qed.

  (** induction principle for the initial design *)
  Lemma run_init_ind (I : st -> Prop) (T : st -> exn E -> Prop) :
    (forall s w, I s -> I (set_world s w)) ->
    (forall s x r w, I s -> sfun (world s) x = (r, w) ->
       (forall v, r = inl v -> forallb finite_num v = true ->
          I (push (log (set_world s w) (EvEval x r)) x v)) /\
       (bad_result r -> T (log (set_world s w) (EvEval x r)) (exn_of r))) ->
    forall k i s, I s ->
      (exists s', run_init k i s = Ret s' /\ I s') \/
      (exists s' e, run_init k i s = Throw s' e /\ T s' e).
  Proof.
    intros Hw Hev. induction k as [|k IH]; intros i s Hs; simpl.
    - left; eauto.
    - destruct (init_pt i (world s)) as [x w].
      specialize (Hw s w Hs).
      destruct (eval_and_add_spec (set_world s w) x) as (r & w' & Hf & Hcase).
      destruct (Hev (set_world s w) x r w' Hw Hf) as [HI HT].
      cbv zeta in Hcase. destruct Hcase as [(v & Hr & Hfin & ->)|(Hbad & ->)].
      + apply IH. apply HI; auto.
      + right. eauto.
  Qed.

  (** induction principle for the main loop *)
  Lemma loop_ind (I : st -> Prop) (R : result W M E -> Prop) cs :
    (forall s, I s -> cur s <> None) ->
    (forall s, I s -> R (Running s)) ->
    (forall s c b w, I s -> cur s = Some c -> stop_now cs s = (b, w) ->
       let s0 := log (set_world s w) (EvStop (samples s) (observations s) (model s) c b) in
       (b = true -> R (Ret s0)) /\
       (b = false -> match iteration c s0 with Ret s' => I s' | r => R r end)) ->
    forall fuel s, I s -> R (loop cs fuel s).
  Proof.
    intros Hc Hrun Hstep. induction fuel as [|fuel IH]; intros s Hs; simpl.
    - auto.
    - destruct (cur s) as [c|] eqn:Ec; [|exfalso; eapply Hc; eauto].
      destruct (stop_now cs s) as [b w] eqn:Est.
      destruct (Hstep s c b w Hs Ec Est) as [Ht Hf].
      destruct b; auto.
      specialize (Hf eq_refl). cbv zeta in Hf.
      destruct (iteration c _) eqn:Ei; auto.
  Qed.

  (** characterisation of an iteration *)
  Lemma iteration_spec c (s0 : st) :
    exists x w1 r w2,
      acq (world s0) (model s0) c = (x, w1) /\
      sfun w1 x = (r, w2) /\
      let s1 := log (set_world s0 w1) (EvAcq (samples s0) (observations s0) (model s0) c x) in
      let s1' := log (set_world s1 w2) (EvEval x r) in
      (exists v m w3 m' w4 trhp,
         r = inl v /\ forallb finite_num v = true /\
         m_add w2 (model s0) x v = (m, w3) /\
         (if (0 <? hp_period) && ((c + 1) mod hp_period =? 0)
          then m_hp w3 m = (m', w4) /\ trhp = [EvHp c]
          else m' = m /\ w4 = w3 /\ trhp = []) /\
         iteration c s0 =
           Ret (mkBo (Some (c + 1)) (tot s0 + 1) (samples s0 ++ [x]) (observations s0 ++ [v]) m' w4
             (trace s0 ++ [EvAcq (samples s0) (observations s0) (model s0) c x; EvEval x (inl v);
                           EvStat (samples s0 ++ [x]) (observations s0 ++ [v]) (model s0) (tot s0)] ++ trhp)))
      \/ (bad_result r /\ iteration c s0 = Throw s1' (exn_of r)).
  Proof.
    destruct s0 as [cu t0 xs ys m0 w0 tr0].
    unfold BOModel.iteration. cbn [world model samples observations tot trace].
    destruct (acq w0 m0 c) as [x w1]. cbv [log set_world cur tot samples observations model world trace].
    set (s1 := mkBo _ _ _ _ _ _ _).
    destruct (eval_and_add_spec s1 x) as (r & w2 & Hf & Hcase).
    exists x, w1, r, w2. split; [reflexivity|]. split; [exact Hf|].
    cbv [log set_world cur tot samples observations model world trace push s1] in *.
    destruct Hcase as [(v & -> & Hfin & ->)|(Hbad & ->)]; [left|right; auto].
    rewrite !last_last.
    destruct (m_add w2 m0 x v) as [m w3] eqn:Em.
    destruct ((0 <? hp_period) && ((c + 1) mod hp_period =? 0)).
    - cbv [set_model]. destruct (m_hp w3 m) as [m' w4] eqn:Eh.
      exists v, m, w3, m', w4, [EvHp c]. split; [reflexivity|].
      split; [exact Hfin|]. split; [exact Em|]. split; [auto|].
      cbv [set_tot set_cur cur tot samples observations model world trace].
      rewrite Eh. cbv iota beta. rewrite <- !app_assoc. simpl. reflexivity.
    - exists v, m, w3, m, w3, []. split; [reflexivity|].
      split; [exact Hfin|]. split; [exact Em|]. split; [auto|].
      cbv [set_tot set_cur set_model cur tot samples observations model world trace].
      rewrite <- !app_assoc. simpl. reflexivity.
  Qed.

  (** ** C01: pairing *)
  Definition InvPair (s : st) : Prop :=
    length (samples s) = length (observations s) /\
    combine (samples s) (observations s) = kept (trace s) /\
    Forall (Forall is_number) (observations s).

  Lemma kept_app tr1 tr2 : @kept M E (tr1 ++ tr2) = fold_left kept_step tr2 (kept tr1).
  Proof. unfold kept. apply fold_left_app. Qed.

  Lemma InvPair_world s w : InvPair s -> InvPair (set_world s w).
  Proof. exact (fun H => H). Qed.

  Lemma InvPair_model s m : InvPair s -> InvPair (set_model s m).
  Proof. exact (fun H => H). Qed.

  Lemma InvPair_log s e :
    (forall acc, kept_step acc e = acc) -> InvPair s -> InvPair (log s e).
  Proof.
    intros He (A & B & C). split; [|split]; auto. simpl.
    rewrite kept_app. simpl. rewrite He. auto.
  Qed.

  Lemma finite_all v : forallb finite_num v = true -> Forall is_number v.
  Proof.
    rewrite forallb_finite. destruct (is_nan_or_inf v) eqn:Ev; simpl; try discriminate.
    intros _. now apply is_nan_or_inf_spec.
  Qed.

  Lemma InvPair_push s w x v :
    forallb finite_num v = true -> InvPair s ->
    InvPair (push (log (set_world s w) (EvEval x (inl v))) x v).
  Proof.
    intros Hf (A & B & C). split; [|split]; simpl.
    - rewrite !app_length. simpl. lia.
    - rewrite combine_app by auto. rewrite kept_app. simpl. rewrite Hf, B. reflexivity.
    - apply Forall_app. split; auto. constructor; auto. now apply finite_all.
  Qed.

  Lemma InvPair_bad s w x r :
    bad_result r -> InvPair s -> InvPair (log (set_world s w) (EvEval x r)).
  Proof.
    intros Hb H. apply InvPair_log; auto. intro acc. simpl.
    destruct r; simpl in *; auto. now rewrite Hb.
  Qed.

  Definition state_of (r : result W M E) : option st :=
    match r with Ret s | Running s | Throw s _ => Some s | UninitRead => None end.

  Definition RInv (P : st -> Prop) (r : result W M E) : Prop :=
    match state_of r with Some s => P s | None => False end.

  Lemma run_init_pair k i s : InvPair s -> RInv InvPair (run_init k i s).
  Proof.
    intro H.
    destruct (run_init_ind InvPair (fun s _ => InvPair s)) with (k := k) (i := i) (s := s)
      as [(s' & -> & Hs)|(s' & e & -> & Hs)]; simpl; auto.
    intros s0 x r w Hs0 Hf. split.
    - intros v -> Hfin. now apply InvPair_push.
    - intro Hb. now apply InvPair_bad.
  Qed.

  Lemma init_phase_pair reset s : InvPair s -> RInv InvPair (init_phase reset s).
  Proof.
    intros H. unfold BOModel.init_phase.
    set (s1 := set_cur (log s (EvCall reset)) 0).
    assert (H1 : InvPair s1) by (apply (InvPair_log s (EvCall reset)); auto).
    set (s2 := if reset then log (clear_data (set_tot s1 0)) EvReset else s1).
    assert (H2 : InvPair s2).
    { unfold s2. destruct reset; auto. split; [|split]; simpl; auto.
      rewrite kept_app. reflexivity. }
    destruct (tot s2 =? 0).
    - apply run_init_pair. now apply InvPair_log.
    - exact H2.
  Qed.

  Lemma iteration_pair c s : InvPair s -> RInv InvPair (iteration c s).
  Proof.
    intros H. destruct (iteration_spec c s) as (x & w1 & r & w2 & _ & _ & Hc).
    cbv zeta in Hc. destruct Hc as [(v & m & w3 & m' & w4 & trhp & -> & Hfin & _ & Hhp & ->)|(Hb & ->)].
    - assert (Hk : forall acc, fold_left kept_step trhp acc = acc).
      { destruct ((0 <? hp_period) && _); destruct Hhp as (_ & Hhp); [|destruct Hhp as [_ Hhp]];
          rewrite Hhp; reflexivity. }
      destruct H as (A & B & C). split; [|split]; simpl.
      + rewrite !app_length. simpl. lia.
      + rewrite combine_app by auto. rewrite kept_app. simpl. rewrite Hfin, Hk, B. reflexivity.
      + apply Forall_app. split; auto. constructor; auto. now apply finite_all.
    - simpl. apply InvPair_bad; auto. apply InvPair_log; auto.
  Qed.

  Lemma loop_pair cs fuel s : cur s <> None -> InvPair s -> RInv InvPair (loop cs fuel s).
  Proof.
    intros Hc H. apply (loop_ind (fun s => cur s <> None /\ InvPair s) (RInv InvPair)); try tauto.
    - intros s' c b w [_ H'] Ec Est. split.
      + intros ->. apply (InvPair_log (set_world s' w)); auto.
      + intros ->. set (s0 := log _ _).
        assert (H0 : InvPair s0) by (apply (InvPair_log (set_world s' w)); auto).
        pose proof (iteration_pair c s0 H0) as Hi.
        destruct (iteration_spec c s0) as (x & w1 & r & w2 & _ & _ & Hcase).
        cbv zeta in Hcase.
        destruct Hcase as [(v & m & w3 & m' & w4 & trhp & _ & _ & _ & _ & Eq)|(Hb & Eq)];
          rewrite Eq in *; auto.
        split; auto. simpl. discriminate.
  Qed.

  Lemma init_phase_cur reset s :
    (exists s', init_phase reset s = Ret s' /\ cur s' = Some 0 /\ model s' = model s) \/
    (exists s' e, init_phase reset s = Throw s' e /\ cur s' = Some 0 /\ model s' = model s).
  Proof.
    unfold BOModel.init_phase.
    set (s2 := if reset then _ else _).
    assert (H2 : cur s2 = Some 0 /\ model s2 = model s) by (unfold s2; destruct reset; split; reflexivity).
    destruct (tot s2 =? 0); [|left; eauto].
    apply (run_init_ind (fun s' => cur s' = Some 0 /\ model s' = model s)
             (fun s' _ => cur s' = Some 0 /\ model s' = model s)); simpl; auto.
  Qed.

  Lemma optimize_pair cs fuel reset s : InvPair s -> RInv InvPair (optimize cs fuel reset s).
  Proof.
    intro H. unfold BOModel.optimize.
    pose proof (init_phase_pair reset s H) as Hp.
    destruct (init_phase_cur reset s) as [(s1 & E1 & Hc & _)|(s1 & e & E1 & Hc & _)];
      rewrite E1 in *; [|exact Hp].
    destruct (observations s1) eqn:Eo.
    - apply loop_pair; simpl; [congruence|exact Hp].
    - destruct (m_compute _ _ _ _) as [m w]. apply loop_pair; simpl; [congruence|exact Hp].
  Qed.

  Lemma run_op_pair cs o s : InvPair s -> RInv InvPair (run_op cs o s).
  Proof.
    intro H. destruct o as [reset fuel|x|x v]; simpl.
    - now apply optimize_pair.
    - destruct (eval_and_add_spec s x) as (r & w & _ & Hc). cbv zeta in Hc.
      destruct Hc as [(v & -> & Hfin & ->)|(Hb & ->)].
      + now apply InvPair_push.
      + now apply InvPair_bad.
    - unfold add_new_sample. destruct (is_nan_or_inf v) eqn:Ev; simpl; auto.
      destruct H as (A & B & C). split; [|split]; simpl.
      + rewrite !app_length. simpl. lia.
      + rewrite combine_app by auto. rewrite kept_app. simpl. rewrite B. reflexivity.
      + apply Forall_app. split; auto. constructor; auto. now apply is_nan_or_inf_spec.
  Qed.

  Lemma run_ops_pair cs os : forall s, InvPair s -> exists s', run_ops cs os s = Some s' /\ InvPair s'.
  Proof.
    induction os as [|o os IH]; intros s H; simpl.
    - eauto.
    - pose proof (run_op_pair cs o s H) as Hr.
      destruct (run_op cs o s); unfold RInv in Hr; simpl in Hr; try contradiction; eauto.
  Qed.

  Lemma new_bo_pair m w : InvPair (new_bo m w).
  Proof. split; [|split]; simpl; auto. Qed.

  Lemma combine_removelast {A B} (l1 : list A) (l2 : list B) x y :
    combine (removelast (l1 ++ [x])) (removelast (l2 ++ [y])) = combine l1 l2.
  Proof. now rewrite !removelast_last. Qed.

  (** ** C02: exceptions *)
  Lemma loop_throw cs fuel s s' e :
    cur s <> None ->
    loop cs fuel s = Throw s' e ->
    exists tr c x r, cur s' = Some c /\ bad_result r /\ e = exn_of r /\
      trace s' = tr ++ [EvAcq (samples s') (observations s') (model s') c x; EvEval x r].
  Proof.
    intro Hc.
    pose proof (loop_ind (fun s => cur s <> None)
      (fun r => forall s' e, r = Throw s' e ->
         exists tr c x r, cur s' = Some c /\ bad_result r /\ e = exn_of r /\
         trace s' = tr ++ [EvAcq (samples s') (observations s') (model s') c x; EvEval x r]) cs) as L.
    apply L; auto; try discriminate.
    clear L. intros s0 c b w _ Ec Est s1. split; [discriminate|].
    intros ->. destruct (iteration_spec c s1) as (x & w1 & r & w2 & Ha & Hf & Hcase). cbv zeta in Hcase.
    destruct Hcase as [(v & m & w3 & m' & w4 & trhp & -> & Hfin & _ & Hhp & ->)|(Hb & ->)].
    - simpl. discriminate.
    - intros s2 e2 Heq. inversion Heq; subst. exists (trace s1), c, x, r. simpl.
      repeat split; auto. rewrite <- !app_assoc. reflexivity.
  Qed.

  Lemma init_phase_throw reset s s' e :
    init_phase reset s = Throw s' e ->
    exists tr x r, bad_result r /\ e = exn_of r /\ trace s' = tr ++ [EvEval x r].
  Proof.
    unfold BOModel.init_phase. set (s2 := if reset then _ else _).
    destruct (tot s2 =? 0); [|discriminate].
    destruct (run_init_ind (fun _ => True)
      (fun s' e => exists tr x r, bad_result r /\ e = exn_of r /\ trace s' = tr ++ [EvEval x r]))
      with (k := init_n) (i := O) (s := log s2 EvInit) as [(s1 & -> & _)|(s1 & e1 & -> & H)]; auto.
    - intros s0 x r w _ Hf. split; auto. intro Hb. exists (trace s0), x, r. simpl. auto.
    - discriminate.
    - intro Heq. inversion Heq; subst. exact H.
  Qed.

  (** ** counters *)
  Lemma count_app p (a b : list (event M E)) : count p (a ++ b) = count p a + count p b.
  Proof. unfold count. rewrite filter_app, app_length. lia. Qed.

  Lemma count_cons p e (b : list (event M E)) : count p (e :: b) = (if p e then 1 else 0) + count p b.
  Proof. unfold count. simpl. destruct (p e); simpl length; lia. Qed.

  Lemma iters_app (a b : list (event M E)) : iters (a ++ b) = fold_left iters_step b (iters a).
  Proof. unfold iters. apply fold_left_app. Qed.

  Lemma run_init_count k i s :
    (exists s' tr, run_init k i s = Ret s' /\ trace s' = trace s ++ tr /\
       count is_eval tr = Z.of_nat k /\ count is_init tr = 0 /\
       fold_left iters_step tr (iters (trace s)) = iters (trace s) /\ hp_iters tr = [] /\
       cur s' = cur s /\ tot s' = tot s /\ model s' = model s /\
       exists xs vs, length xs = k /\ length vs = k /\
         samples s' = samples s ++ xs /\ observations s' = observations s ++ vs) \/
    (exists s' e tr, run_init k i s = Throw s' e /\ trace s' = trace s ++ tr /\ count is_init tr = 0 /\
       fold_left iters_step tr (iters (trace s)) = iters (trace s) /\ hp_iters tr = [] /\
       cur s' = cur s /\ tot s' = tot s /\ model s' = model s /\
       exists xs vs, samples s' = samples s ++ xs /\ observations s' = observations s ++ vs).
  Proof.
    revert i s. induction k as [|k IH]; intros i s; simpl.
    - left. exists s, []. rewrite app_nil_r. repeat split; auto. exists [], []. rewrite !app_nil_r. auto.
    - destruct (init_pt i (world s)) as [x w].
      destruct (eval_and_add_spec (set_world s w) x) as (r & w' & Hf & Hcase). cbv zeta in Hcase.
      destruct Hcase as [(v & -> & Hfin & ->)|(Hb & ->)].
      + set (s1 := push _ _ _).
        destruct (IH (S i) s1) as [(s' & tr & H1 & H2 & H3 & H4 & H5 & H6 & H7 & H8 & H9 & xs & vs & L1 & L2 & H10 & H11)
          |(s' & e & tr & H1 & H2 & H4 & H5 & H6 & H7 & H8 & H9 & xs & vs & H10 & H11)].
        * left. exists s', (EvEval x (inl v) :: tr). rewrite H1. simpl in *.
          rewrite <- app_assoc in *. rewrite iters_app in H5. simpl in H5.
          repeat split; auto.
          -- change (EvEval x (inl v) :: tr) with ([EvEval x (inl v)] ++ tr). rewrite count_app.
             change (count is_eval [EvEval x (inl v)]) with 1. lia.
          -- exists (x :: xs), (v :: vs). simpl. rewrite H10, H11, <- ?app_assoc. auto.
        * right. exists s', e, (EvEval x (inl v) :: tr). rewrite H1. simpl in *.
          rewrite <- app_assoc in *. rewrite iters_app in H5. simpl in H5.
          repeat split; auto. exists (x :: xs), (v :: vs). rewrite H10, H11, <- ?app_assoc. auto.
      + right. eexists _, _, [EvEval x r]. repeat split; auto.
        exists [], []. simpl. rewrite !app_nil_r. auto.
  Qed.

  (** everything known about the state after the initialisation phase *)
  Lemma init_phase_spec reset s :
    let fresh_start := (reset || (tot s =? 0))%bool in
    let s0 := if reset then [] else samples s in
    let o0 := if reset then [] else observations s in
    let t0 := if reset then 0 else tot s in
    exists s' tr xs vs,
      trace s' = trace s ++ EvCall reset :: tr /\
      samples s' = s0 ++ xs /\ observations s' = o0 ++ vs /\
      cur s' = Some 0 /\ tot s' = t0 /\ model s' = model s /\
      count is_init tr = (if fresh_start then 1 else 0) /\
      hp_iters tr = [] /\
      iters (trace s') = (if reset then 0 else iters (trace s)) /\
      ((init_phase reset s = Ret s' /\
        length xs = (if fresh_start then init_n else O) /\ length vs = (if fresh_start then init_n else O) /\
        count is_eval tr = (if fresh_start then Z.of_nat init_n else 0)) \/
       (exists e, init_phase reset s = Throw s' e)).
  Proof.
    cbv zeta. unfold BOModel.init_phase.
    set (s1 := set_cur (log s (EvCall reset)) 0).
    set (s2 := if reset then log (clear_data (set_tot s1 0)) EvReset else s1).
    assert (Ht : (tot s2 =? 0) = (reset || (tot s =? 0))%bool) by (unfold s2; destruct reset; reflexivity).
    assert (Htr : trace s2 = trace s ++ EvCall reset :: (if reset then [EvReset] else [])).
    { unfold s2, s1. destruct reset; simpl; rewrite <- ?app_assoc; reflexivity. }
    rewrite Ht. destruct (reset || (tot s =? 0))%bool eqn:Ef.
    - set (tr0 := (if reset then [EvReset] else []) ++ [@EvInit M E]).
      assert (Htr' : trace (log s2 EvInit) = trace s ++ EvCall reset :: tr0).
      { simpl. rewrite Htr. unfold tr0. rewrite <- app_assoc. reflexivity. }
      destruct (run_init_count init_n 0 (log s2 EvInit))
        as [(s' & tr & H1 & H2 & H3 & H4 & H5 & H6 & H7 & H8 & H9 & xs & vs & L1 & L2 & H10 & H11)
          |(s' & e & tr & H1 & H2 & H4 & H5 & H6 & H7 & H8 & H9 & xs & vs & H10 & H11)];
        exists s', (tr0 ++ tr), xs, vs; rewrite Htr' in *;
        (split; [rewrite H2, <- app_assoc; reflexivity|]);
        (split; [rewrite H10; unfold s2; destruct reset; reflexivity|]);
        (split; [rewrite H11; unfold s2; destruct reset; reflexivity|]);
        (split; [rewrite H7; unfold s2; destruct reset; reflexivity|]);
        (split; [rewrite H8; unfold s2; destruct reset; reflexivity|]);
        (split; [rewrite H9; unfold s2; destruct reset; reflexivity|]);
        (split; [rewrite count_app, H4; unfold tr0; destruct reset; reflexivity|]);
        (split; [unfold tr0; destruct reset; simpl; auto|]);
        (split; [rewrite H2, iters_app, H5, iters_app; unfold tr0; destruct reset; reflexivity|]).
      + left. repeat split; auto. rewrite count_app, H3. unfold tr0.
        destruct reset; reflexivity.
      + right. eauto.
    - apply orb_false_iff in Ef. destruct Ef as [-> Ef].
      exists s2, [], [], []. unfold s2, s1; simpl. rewrite !app_nil_r.
      rewrite iters_app. repeat split; auto.
  Qed.

  (** counters over the loop: [k] completed iterations *)
  Definition LoopInv (s0 : st) (k : nat) (s : st) : Prop :=
    exists tr xs vs,
      trace s = trace s0 ++ tr /\
      samples s = samples s0 ++ xs /\ observations s = observations s0 ++ vs /\
      length xs = k /\ length vs = k /\
      count is_init tr = 0 /\
      tot s = tot s0 + Z.of_nat k /\
      iters (trace s) = iters (trace s0) + Z.of_nat k /\
      hp_iters tr = filter (divides hp_period) (upto k) /\
      count is_stat tr = Z.of_nat k.

  Lemma upto_S k : upto (S k) = upto k ++ [Z.of_nat k + 1].
  Proof.
    unfold upto. rewrite seq_S, map_app. simpl. do 3 f_equal. lia.
  Qed.

  Lemma hp_iters_app (a b : list (event M E)) : hp_iters (a ++ b) = hp_iters a ++ hp_iters b.
  Proof. induction a as [|[] a IH]; simpl; auto. now rewrite IH. Qed.

  Lemma loop_counts cs s0 :
    cur s0 = Some 0 ->
    forall fuel, 
    match loop cs fuel s0 with
    | Ret s => exists k, cur s = Some (Z.of_nat k) /\ LoopInv s0 k s /\
                 count is_eval (trace s) = count is_eval (trace s0) + Z.of_nat k /\
                 exists tr, trace s = tr ++ [EvStop (samples s) (observations s) (model s) (Z.of_nat k) true]
    | Running s => exists k, cur s = Some (Z.of_nat k) /\ LoopInv s0 k s /\
                 count is_eval (trace s) = count is_eval (trace s0) + Z.of_nat k
    | Throw s e => exists k, cur s = Some (Z.of_nat k) /\ LoopInv s0 k s /\
                 count is_eval (trace s) = count is_eval (trace s0) + Z.of_nat k + 1
    | UninitRead => False
    end.
  Proof.
    intros Hc fuel.
    pose (I := fun s : st => exists k, cur s = Some (Z.of_nat k) /\ LoopInv s0 k s /\
                 count is_eval (trace s) = count is_eval (trace s0) + Z.of_nat k).
    pose proof (loop_ind I
      (fun r => match r with
        | Ret s => exists k, cur s = Some (Z.of_nat k) /\ LoopInv s0 k s /\
                 count is_eval (trace s) = count is_eval (trace s0) + Z.of_nat k /\
                 exists tr, trace s = tr ++ [EvStop (samples s) (observations s) (model s) (Z.of_nat k) true]
        | Running s => I s
        | Throw s e => exists k, cur s = Some (Z.of_nat k) /\ LoopInv s0 k s /\
                 count is_eval (trace s) = count is_eval (trace s0) + Z.of_nat k + 1
        | UninitRead => False
        end) cs) as L.
    apply L; clear L; auto.
    - intros s (k & -> & _). discriminate.
    - intros s c b w (k & Ek & (tr & xs & vs & T1 & T2 & T3 & T4 & T5 & T6 & T7 & T8 & T9 & T10) & T11) Ec Est s1.
      assert (c = Z.of_nat k) by congruence. subst c.
      split.
      + intros ->. exists k. split; [exact Ek|]. split; [|split].
        * exists (tr ++ [EvStop (samples s) (observations s) (model s) (Z.of_nat k) true]), xs, vs. simpl.
          rewrite T1, <- app_assoc. repeat split; auto.
          -- rewrite count_app, T6. reflexivity.
          -- rewrite app_assoc, iters_app, <- T1, T8. reflexivity.
          -- rewrite hp_iters_app, T9. simpl. now rewrite app_nil_r.
          -- rewrite count_app, T10. simpl. change (count is_stat _) with 0. lia.
        * simpl. rewrite count_app, T11. change (count is_eval [_]) with 0. lia.
        * exists (trace s). reflexivity.
      + intros ->. destruct (iteration_spec (Z.of_nat k) s1) as (x & w1 & r & w2 & Ha & Hf & Hcase). cbv zeta in Hcase.
        destruct Hcase as [(v & m & w3 & m' & w4 & trhp & -> & Hfin & _ & Hhp & ->)|(Hb & ->)].
        * exists (S k). split; [simpl; f_equal; lia|].
          assert (Hhp' : hp_iters trhp = filter (divides hp_period) [Z.of_nat k + 1] /\
                         count is_init trhp = 0 /\ count is_eval trhp = 0 /\ count is_stat trhp = 0 /\
                         (forall n, fold_left iters_step trhp n = n)).
          { simpl. unfold divides. destruct (0 <? hp_period) eqn:Ep; simpl in *.
            - rewrite Z.rem_mod_nonneg by lia.
              destruct ((Z.of_nat k + 1) mod hp_period =? 0); simpl; destruct Hhp as [_ Hhp]; 
                [|destruct Hhp as [_ Hhp]]; rewrite Hhp; repeat split; auto.
            - destruct Hhp as (_ & _ & ->). repeat split; auto. }
          destruct Hhp' as (Q1 & Q2 & Q3 & Q4 & Q5).
          split.
          -- exists (tr ++ [EvStop (samples s) (observations s) (model s) (Z.of_nat k) false;
                        EvAcq (samples s) (observations s) (model s) (Z.of_nat k) x; EvEval x (inl v);
                           EvStat (samples s ++ [x]) (observations s ++ [v]) (model s) (tot s)] ++ trhp),
                      (xs ++ [x]), (vs ++ [v]). cbn [samples observations trace tot cur log set_world]; unfold s1; cbn [samples observations trace tot cur log set_world].
             rewrite T1, T2, T3. repeat rewrite <- app_assoc. cbn [app].
             repeat split; auto.
             ++ rewrite app_length. simpl. lia.
             ++ rewrite app_length. simpl. lia.
             ++ rewrite count_app, T6.
                change (count is_init trhp = 0) in Q2. unfold count in *. simpl. exact Q2.
             ++ lia.
             ++ rewrite app_assoc, iters_app, <- T1, T8. cbn [fold_left iters_step]. rewrite Q5. lia.
             ++ rewrite hp_iters_app, T9, upto_S, filter_app. cbn [hp_iters]. now rewrite Q1.
             ++ rewrite count_app, T10. 
                rewrite !count_cons, Q4. cbn [is_stat]. lia.
          -- simpl. rewrite <- !app_assoc, count_app, T11. simpl.
             rewrite !count_cons, Q3. cbn [is_eval]. lia.
        * exists k. split; [exact Ek|]. split.
          -- exists (tr ++ [EvStop (samples s) (observations s) (model s) (Z.of_nat k) false;
                        EvAcq (samples s) (observations s) (model s) (Z.of_nat k) x; EvEval x r]), xs, vs.
             simpl. rewrite T1, <- !app_assoc. simpl. repeat split; auto.
             ++ rewrite count_app, T6. reflexivity.
             ++ rewrite app_assoc, iters_app, <- T1, T8. reflexivity.
             ++ rewrite hp_iters_app, T9. simpl. now rewrite app_nil_r.
             ++ rewrite count_app, T10. change (count is_stat [_; _; _]) with 0. lia.
          -- simpl. rewrite <- !app_assoc, count_app, T11. simpl.
             change (count is_eval [_; _; _]) with 1. lia.
    - exists O. split; auto. split; [|simpl; lia].
      exists [], [], []. rewrite !app_nil_r. simpl. repeat split; auto; lia.
  Qed.

  (** the loop leaves after at most [n] iterations when MaxIterations n is among the criteria *)
  Lemma chain_true cs w s : fst (chain true cs w s) = true.
  Proof. revert w. induction cs as [|c cs IH]; intro w; simpl; auto. Qed.

  Lemma chain_max cs n w s c :
    In (max_iterations n) cs -> cur s = Some c -> n <= c -> fst (chain false cs w s) = true.
  Proof.
    intros Hin Hc Hn. revert w. induction cs as [|c0 cs IH]; intro w; [destruct Hin|].
    destruct Hin as [->|Hin].
    - simpl. rewrite Hc. apply Z.leb_le in Hn. rewrite Hn. apply chain_true.
    - simpl. destruct (crit_op c0 _ _ _) as [[b ?] w']. destruct b; auto. apply chain_true.
  Qed.

  Lemma loop_terminates cs n :
    In (max_iterations n) cs ->
    forall fuel s c, cur s = Some c -> (Z.to_nat (n - c) < fuel)%nat ->
      (exists s', loop cs fuel s = Ret s') \/ (exists s' e, loop cs fuel s = Throw s' e).
  Proof.
    intro Hin. induction fuel as [|fuel IH]; intros s c Hc Hlt; [lia|].
    simpl. rewrite Hc. destruct (stop_now cs s) as [b w] eqn:Est.
    destruct b; [left; eauto|].
    assert (Hcn : c < n).
    { destruct (Z_lt_le_dec c n); auto. exfalso.
      unfold stop_now in Est. pose proof (chain_max cs n (world s) s c Hin Hc l) as Hm.
      rewrite Est in Hm. discriminate. }
    set (s1 := log _ _).
    destruct (iteration_spec c s1) as (x & w1 & r & w2 & Ha & Hf & Hcase). cbv zeta in Hcase.
    destruct Hcase as [(v & m & w3 & m' & w4 & trhp & -> & Hfin & _ & Hhp & ->)|(Hb & ->)].
    - apply (IH _ (c + 1)); simpl; auto. lia.
    - right. eauto.
  Qed.

  (** number of iterations is bounded by MaxIterations *)
  Lemma loop_bound cs n :
    In (max_iterations n) cs ->
    forall fuel s c, cur s = Some c -> 0 <= c -> c <= Z.max 0 n ->
      match loop cs fuel s with
      | Ret s' | Running s' | Throw s' _ => exists c', cur s' = Some c' /\ c' <= Z.max 0 n
      | UninitRead => False
      end.
  Proof.
    intro Hin. intros fuel s c Hc H0 Hn.
    apply (loop_ind (fun s => exists c, cur s = Some c /\ 0 <= c <= Z.max 0 n)
      (fun r => match r with
      | Ret s' | Running s' | Throw s' _ => exists c', cur s' = Some c' /\ c' <= Z.max 0 n
      | UninitRead => False
      end) cs); eauto.
    - intros s1 (c1 & -> & _). discriminate.
    - intros s1 (c1 & -> & ?). exists c1. split; auto; lia.
    - intros s1 c1 b w (c1' & Hc1' & Hb1) Hc1 Est s2. assert (c1' = c1) by congruence. subst c1'.
      split; [intros ->; exists c1; split; simpl; auto; lia|].
      intros ->.
      assert (Hcn : c1 < n).
      { destruct (Z_lt_le_dec c1 n); auto. exfalso.
        unfold stop_now in Est. pose proof (chain_max cs n (world s1) s1 c1 Hin Hc1 l) as Hm.
        rewrite Est in Hm. discriminate. }
      destruct (iteration_spec c1 s2) as (x & w1 & r & w2 & Ha & Hf & Hcase). cbv zeta in Hcase.
      destruct Hcase as [(v & m & w3 & m' & w4 & trhp & -> & Hfin & _ & Hhp & ->)|(Hb & ->)].
      + simpl. exists (c1 + 1). split; auto. lia.
      + simpl. exists c1. split; auto; lia.
  Qed.

  (** with MaxIterations alone, a normal return happens exactly at max(0,n) *)
  Lemma loop_exact n :
    forall fuel s c s', cur s = Some c -> 0 <= c -> c <= Z.max 0 n ->
      loop [max_iterations n] fuel s = Ret s' -> cur s' = Some (Z.max 0 n).
  Proof.
    intros fuel s c s' Hc H0 Hn.
    pose proof (loop_ind (fun s => exists c, cur s = Some c /\ 0 <= c <= Z.max 0 n)
      (fun r => forall s', r = Ret s' -> cur s' = Some (Z.max 0 n)) [max_iterations n]) as L.
    apply L; clear L; eauto; try discriminate.
    - intros s1 (c1 & -> & _). discriminate.
    - intros s1 c1 b w (c1' & Hc1' & Hb1) Hc1 Est s2. assert (c1' = c1) by congruence. subst c1'.
      unfold stop_now in Est. simpl in Est. rewrite Hc1 in Est.
      assert (b = (n <=? c1)) by (destruct (n <=? c1); congruence).
      split.
      + intros -> s3 Heq. inversion Heq; subst s3. simpl. rewrite Hc1. f_equal.
        symmetry in H. apply Z.leb_le in H. lia.
      + intros ->. symmetry in H. apply Z.leb_gt in H.
        destruct (iteration_spec c1 s2) as (x & w1 & r & w2 & Ha & Hf & Hcase). cbv zeta in Hcase.
        destruct Hcase as [(v & m & w3 & m' & w4 & trhp & -> & Hfin & _ & Hhp & ->)|(Hb & ->)].
        * simpl. exists (c1 + 1). split; auto. lia.
        * discriminate.
  Qed.

  (** summary of a whole optimize call *)
  Definition OptInv (reset : bool) (s : st) (k : nat) (s' : st) : Prop :=
    let fresh_start := (reset || (tot s =? 0))%bool in
    exists tr xs vs,
      trace s' = trace s ++ tr /\
      samples s' = (if reset then [] else samples s) ++ xs /\
      observations s' = (if reset then [] else observations s) ++ vs /\
      count is_init tr = (if fresh_start then 1 else 0) /\
      tot s' = (if reset then 0 else tot s) + Z.of_nat k /\
      iters (trace s') = (if reset then 0 else iters (trace s)) + Z.of_nat k /\
      hp_iters tr = filter (divides hp_period) (upto k) /\
      cur s' = Some (Z.of_nat k).

  Lemma optimize_summary cs fuel reset s :
    let n0 := if (reset || (tot s =? 0))%bool then init_n else O in
    match optimize cs fuel reset s with
    | Ret s' => exists k, OptInv reset s k s' /\
                  count is_eval (trace s') = count is_eval (trace s) + Z.of_nat n0 + Z.of_nat k /\
                  length (samples s') = (length (if reset then [] else samples s) + n0 + k)%nat /\
                  exists tr, trace s' = tr ++ [EvStop (samples s') (observations s') (model s') (Z.of_nat k) true]
    | Running s' => exists k, OptInv reset s k s' /\
                  count is_eval (trace s') = count is_eval (trace s) + Z.of_nat n0 + Z.of_nat k
    | Throw s' _ => exists k, OptInv reset s k s'
    | UninitRead => False
    end.
  Proof.
    cbv zeta. unfold BOModel.optimize.
    destruct (init_phase_spec reset s) as (s1 & tr & xs & vs & H1 & H2 & H3 & H4 & H5 & H6 & H7 & H8 & H9 & Hc).
    destruct Hc as [(-> & L1 & L2 & H10)|(e & ->)].
    - set (s2 := match observations s1 with [] => _ | _ :: _ => _ end).
      assert (A : cur s2 = Some 0 /\ trace s2 = trace s1 /\ samples s2 = samples s1 /\
                  observations s2 = observations s1 /\ tot s2 = tot s1).
      { unfold s2. destruct (observations s1) eqn:Eo; [|destruct (m_compute _ _ _ _)]; simpl; repeat split; auto; congruence. }
      destruct A as (A1 & A2 & A3 & A4 & A5).
      pose proof (loop_counts cs s2 A1 fuel) as HL.
      assert (B : forall k s', cur s' = Some (Z.of_nat k) -> LoopInv s2 k s' -> OptInv reset s k s').
      { intros k s' C1 (tr' & xs' & vs' & T1 & T2 & T3 & T4 & T5 & T6 & T7 & T8 & T9 & T10).
        exists (EvCall reset :: tr ++ tr'), (xs ++ xs'), (vs ++ vs').
        rewrite T1, T2, T3, A2, A3, A4, H1, H2, H3, <- !app_assoc. simpl.
        repeat split; auto.
        - change (count is_init (EvCall reset :: tr ++ tr')) with (count is_init (tr ++ tr')).
          rewrite count_app, H7, T6. lia.
        - rewrite T7, A5, H5. lia.
        - replace (trace s ++ EvCall reset :: tr ++ tr') with (trace s').
          + rewrite T8, A2, H9. lia.
          + rewrite T1, A2, H1, <- app_assoc. reflexivity.
        - rewrite hp_iters_app, H8. exact T9. }
      assert (D : count is_eval (trace s2) = count is_eval (trace s) +
                  Z.of_nat (if (reset || (tot s =? 0))%bool then init_n else 0%nat)).
      { rewrite A2, H1, count_app.
        change (count is_eval (EvCall reset :: tr)) with (count is_eval tr). rewrite H10.
        destruct (reset || (tot s =? 0))%bool; lia. }
      destruct (loop cs fuel s2) as [s'|s' e|s'|].
      + destruct HL as (k & C1 & C2 & C3 & C4). exists k. repeat split; auto.
        * rewrite C3, D. lia.
        * destruct C2 as (tr' & xs' & vs' & T1 & T2 & T3 & T4 & T5 & _).
          rewrite T2, A3, H2, !app_length, T4, L1. lia.
      + destruct HL as (k & C1 & C2 & C3). exists k. auto.
      + destruct HL as (k & C1 & C2 & C3). exists k. split; auto. rewrite C3, D. lia.
      + exact HL.
    - exists O. exists (EvCall reset :: tr), xs, vs. simpl. rewrite H5, H9.
      repeat split; auto; destruct reset; lia.
  Qed.

  (** ** C04 invariant: [tot] counts the completed iterations since the last reset *)
  Definition InvTot (s : st) : Prop := tot s = iters (trace s).

  Lemma iters_step_keep (s : st) e : (forall n, @iters_step M E n e = n) ->
    iters (trace s ++ [e]) = iters (trace s).
  Proof. intro H. rewrite iters_app. simpl. apply H. Qed.

  Lemma run_op_tot cs o s : InvTot s -> RInv InvTot (run_op cs o s).
  Proof.
    unfold InvTot. intro H. destruct o as [reset fuel|x|x v]; simpl.
    - pose proof (optimize_summary cs fuel reset s) as Hs. cbv zeta in Hs.
      assert (A : forall k s', OptInv reset s k s' -> tot s' = iters (trace s')).
      { intros k s' (tr & xs & vs & _ & _ & _ & _ & H1 & H2 & _ & _). rewrite H1, H2, H.
        destruct reset; reflexivity. }
      destruct (optimize cs fuel reset s) as [s'|s' e|s'|]; simpl.
      + destruct Hs as (k & Hk & _). eapply A; eauto.
      + destruct Hs as (k & Hk). eapply A; eauto.
      + destruct Hs as (k & Hk & _). eapply A; eauto.
      + destruct Hs.
    - destruct (eval_and_add_spec s x) as (r & w & _ & Hc). cbv zeta in Hc.
      destruct Hc as [(v & -> & Hfin & ->)|(Hb & ->)]; unfold RInv; simpl; rewrite iters_app; exact H.
    - unfold add_new_sample, RInv. destruct (is_nan_or_inf v) eqn:Ev; simpl; auto.
      rewrite iters_app. exact H.
  Qed.

  Lemma run_ops_tot cs os : forall s s', InvTot s -> run_ops cs os s = Some s' -> InvTot s'.
  Proof.
    induction os as [|o os IH]; intros s s' H; simpl.
    - congruence.
    - pose proof (run_op_tot cs o s H) as Hr.
      destruct (run_op cs o s); unfold RInv in Hr; simpl in Hr; try contradiction; eauto.
      intro Heq. inversion Heq; subst. exact Hr.
  Qed.

  (** ** C05: coherence of the model *)
  Section Coherence.
    Variable data : M -> list (vec * vec).
    Hypothesis data_fresh : data m_fresh = [].
    Hypothesis data_compute : forall w m xs ys, data (fst (m_compute w m xs ys)) = combine xs ys.
    Hypothesis data_add : forall w m x y, data (fst (m_add w m x y)) = data m ++ [(x, y)].
    Hypothesis data_hp : forall w m, data (fst (m_hp w m)) = data m.

    Definition InvTr (s : st) : Prop := Forall (coherent_event data) (trace s).
    Definition InvData (s : st) : Prop :=
      length (samples s) = length (observations s) /\
      data (model s) = combine (samples s) (observations s).

    Lemma InvTr_log s e : coherent_event data e -> InvTr s -> InvTr (log s e).
    Proof. intros He H. unfold InvTr. simpl. apply Forall_app. auto. Qed.

    Lemma iteration_data c s : InvTr s -> InvData s ->
      match iteration c s with
      | Ret s' => InvTr s' /\ InvData s' /\ cur s' <> None
      | Throw s' _ => InvTr s' /\ InvData s'
      | _ => False
      end.
    Proof.
      intros HT (HL & HD). destruct (iteration_spec c s) as (x & w1 & r & w2 & Ha & Hf & Hcase). cbv zeta in Hcase.
      destruct Hcase as [(v & m & w3 & m' & w4 & trhp & -> & Hfin & Hadd & Hhp & ->)|(Hb & ->)].
      - split; [|split]; [| |simpl; discriminate].
        + unfold InvTr. simpl. apply Forall_app. split; auto.
          constructor; [exact HD|]. constructor; [exact I|]. constructor.
          { simpl. rewrite !removelast_last. exact HD. }
          destruct ((0 <? hp_period) && _); destruct Hhp as [_ Hhp]; [|destruct Hhp as [_ Hhp]];
            rewrite Hhp; repeat constructor.
        + split; simpl.
          * rewrite !app_length. simpl. lia.
          * assert (Hm : data m' = data m).
            { destruct ((0 <? hp_period) && _).
              - destruct Hhp as [Hhp _]. pose proof (data_hp w3 m) as Q. rewrite Hhp in Q. exact Q.
              - destruct Hhp as [-> _]. reflexivity. }
            rewrite Hm. pose proof (data_add w2 (model s) x v) as Q. rewrite Hadd in Q. simpl in Q.
            rewrite Q, HD, combine_app by auto. reflexivity.
      - split.
        + apply InvTr_log; [exact I|]. apply (InvTr_log (set_world s w1)); [exact HD|exact HT].
        + split; [exact HL|exact HD].
    Qed.

    Lemma loop_data cs fuel s : InvTr s -> InvData s -> cur s <> None ->
      match loop cs fuel s with
      | Ret s' | Throw s' _ | Running s' => InvTr s' /\ InvData s'
      | UninitRead => False
      end.
    Proof.
      intros H1 H2 H3.
      apply (loop_ind (fun s => InvTr s /\ InvData s /\ cur s <> None)
        (fun r => match r with
          | Ret s' | Throw s' _ | Running s' => InvTr s' /\ InvData s'
          | UninitRead => False end) cs); try tauto.
      clear s H1 H2 H3. intros s c b w (HT & HD & _) Ec Est s0.
      assert (H0 : InvTr s0) by (apply (InvTr_log (set_world s w)); [exact (proj2 HD)|exact HT]).
      split.
      - intros ->. split; auto.
      - intros ->. pose proof (iteration_data c s0 H0 HD) as Hi.
        destruct (iteration c s0); tauto.
    Qed.

    Lemma init_phase_tr reset s : InvTr s ->
      match init_phase reset s with
      | Ret s' | Throw s' _ | Running s' => InvTr s'
      | UninitRead => False
      end.
    Proof.
      intro H. unfold BOModel.init_phase.
      set (s2 := if reset then _ else _).
      assert (H2 : InvTr s2).
      { unfold s2. destruct reset.
        - apply InvTr_log; [exact I|]. apply (InvTr_log s); [exact I|exact H].
        - apply (InvTr_log s); [exact I|exact H]. }
      destruct (tot s2 =? 0); auto.
      destruct (run_init_ind InvTr (fun s _ => InvTr s)) with (k := init_n) (i := O) (s := log s2 EvInit)
        as [(s' & -> & Hs)|(s' & e & -> & Hs)]; auto.
      - intros s0 x r w Hs0 Hf. split.
        + intros v -> _. apply (InvTr_log (set_world s0 w)); [exact I|exact Hs0].
        + intros _. apply (InvTr_log (set_world s0 w)); [exact I|exact Hs0].
      - apply InvTr_log; [exact I|exact H2].
    Qed.

    Lemma optimize_data cs fuel reset s : InvPair s -> InvTr s ->
      match optimize cs fuel reset s with
      | Ret s' => InvTr s' /\ data (model s') = combine (samples s') (observations s')
      | Throw s' _ | Running s' => InvTr s'
      | UninitRead => False
      end.
    Proof.
      intros HP H. unfold BOModel.optimize.
      pose proof (init_phase_tr reset s H) as H1.
      pose proof (init_phase_pair reset s HP) as H2.
      destruct (init_phase_cur reset s) as [(s1 & E1 & Hc & _)|(s1 & e & E1 & Hc & _)];
        rewrite E1 in *; auto.
      assert (HL : length (samples s1) = length (observations s1)) by apply H2.
      set (s2 := match observations s1 with [] => _ | _ :: _ => _ end).
      assert (A : InvTr s2 /\ InvData s2 /\ cur s2 <> None).
      { unfold s2. destruct (observations s1) as [|o l] eqn:Eo.
        - split; [exact H1|]. split; [split|]; simpl; try congruence.
          rewrite Eo. destruct (samples s1); auto.
        - destruct (m_compute _ _ _ _) as [m w] eqn:Em. split; [exact H1|]. split; [split|]; simpl; try congruence.
          pose proof (data_compute (world s1) (model s1) (samples s1) (o :: l)) as Q.
          rewrite Em in Q. rewrite Eo. exact Q. }
      destruct A as (A1 & A2 & A3).
      pose proof (loop_data cs fuel s2 A1 A2 A3) as HH.
      destruct (loop cs fuel s2); unfold InvData in HH; tauto.
    Qed.

    Lemma run_op_tr cs o s : InvPair s -> InvTr s -> RInv InvTr (run_op cs o s).
    Proof.
      intros HP H. destruct o as [reset fuel|x|x v]; simpl.
      - pose proof (optimize_data cs fuel reset s HP H) as HH.
        unfold RInv; destruct (optimize cs fuel reset s); simpl; tauto.
      - destruct (eval_and_add_spec s x) as (r & w & _ & Hc). cbv zeta in Hc.
        destruct Hc as [(v & -> & Hfin & ->)|(Hb & ->)];
          apply (InvTr_log (set_world s w)); auto; exact I.
      - unfold add_new_sample. destruct (is_nan_or_inf v) eqn:Ev; simpl; auto.
        apply (InvTr_log (push s x v)); auto. exact I.
    Qed.

    Lemma run_ops_tr cs os : forall s s', InvPair s -> InvTr s -> run_ops cs os s = Some s' -> InvTr s'.
    Proof.
      induction os as [|o os IH]; intros s s' HP H; simpl.
      - congruence.
      - pose proof (run_op_tr cs o s HP H) as Hr. pose proof (run_op_pair cs o s HP) as Hr2.
        destruct (run_op cs o s); unfold RInv in Hr, Hr2; simpl in Hr, Hr2; try contradiction; eauto.
        intro Heq. inversion Heq; subst. exact Hr.
    Qed.
  End Coherence.

  (** ** C07 *)
  Lemma chain_true_w cs w s : chain true cs w s = (true, w).
  Proof. induction cs; simpl; auto. Qed.

  Lemma chain_consult cs w s :
    exists bs w', consult s cs w bs w' /\ chain false cs w s = (existsb (fun b => b) bs, w').
  Proof.
    revert w. induction cs as [|c cs IH]; intro w.
    - exists [], w. split; [constructor|reflexivity].
    - simpl. destruct (crit_op c (crit_val c) w s) as [[b u] w'] eqn:Ec.
      destruct b.
      + exists [true], w'. split; [econstructor; eauto|apply chain_true_w].
      + destruct (IH w') as (bs & w'' & H1 & H2). exists (false :: bs), w''.
        split; [econstructor; eauto|exact H2].
  Qed.

  Lemma chain_pure (P : @criterion W M E -> bool) cs w s :
    (forall c w', In c cs -> exists u, crit_op c (crit_val c) w' s = (P c, u, w')) ->
    chain false cs w s = (existsb P cs, w).
  Proof.
    intro H. induction cs as [|c cs IH]; auto.
    simpl. destruct (H c w) as (u & ->); [left; auto|].
    destruct (P c); simpl; [apply chain_true_w|].
    apply IH. intros c' w' Hin. apply H. now right.
  Qed.
End Facts.

(** ** C08: max_element *)
Lemma max_element_from_spec l : forall n best bestv pre,
  length pre = n -> nth_error pre best = Some bestv ->
  (forall x, In x (pre ++ l) -> notnan x) ->
  (forall j w, nth_error pre j = Some w -> flt bestv w = false) ->
  (forall j w, nth_error pre j = Some w -> (j < best)%nat -> flt w bestv = true) ->
  first_max (pre ++ l) (max_element_from l n best bestv).
Proof.
  induction l as [|x l IH]; intros n best bestv pre Hn Hb Hnan H1 H2; simpl.
  - rewrite app_nil_r. exists bestv. auto.
  - assert (Hx : notnan x) by (apply Hnan, in_or_app; right; left; auto).
    assert (Hbv : notnan bestv) by (apply Hnan, in_or_app; left; eapply nth_error_In; eauto).
    replace (pre ++ x :: l) with ((pre ++ [x]) ++ l) by (rewrite <- app_assoc; reflexivity).
    destruct (flt bestv x) eqn:Elt.
    + apply IH.
      * rewrite app_length. simpl. lia.
      * rewrite nth_error_app2 by lia. rewrite Hn, Nat.sub_diag. reflexivity.
      * intros y Hy. apply Hnan. rewrite <- app_assoc in Hy. exact Hy.
      * intros j w Hj. destruct (Nat.lt_ge_cases j (length pre)) as [Hl|Hl].
        -- rewrite nth_error_app1 in Hj by auto.
           specialize (H1 j w Hj). apply flt_asym. 
           assert (notnan w) by (apply Hnan, in_or_app; left; eapply nth_error_In; eauto).
           eapply nflt_flt_trans; eauto.
        -- rewrite nth_error_app2 in Hj by auto.
           destruct (j - length pre)%nat as [|[|?]]; simpl in Hj; try discriminate.
           inversion Hj; subst. apply flt_irrefl.
      * intros j w Hj Hlt. rewrite nth_error_app1 in Hj by lia.
        assert (notnan w) by (apply Hnan, in_or_app; left; eapply nth_error_In; eauto).
        eapply nflt_flt_trans; eauto.
    + apply IH.
      * rewrite app_length. simpl. lia.
      * rewrite nth_error_app1; auto. apply nth_error_Some. congruence.
      * intros y Hy. apply Hnan. rewrite <- app_assoc in Hy. exact Hy.
      * intros j w Hj. destruct (Nat.lt_ge_cases j (length pre)) as [Hl|Hl].
        -- rewrite nth_error_app1 in Hj by auto. eauto.
        -- rewrite nth_error_app2 in Hj by auto.
           destruct (j - length pre)%nat as [|[|?]]; simpl in Hj; try discriminate.
           inversion Hj; subst. auto.
      * intros j w Hj Hlt.
        assert (best < length pre)%nat by (apply nth_error_Some; congruence).
        rewrite nth_error_app1 in Hj by lia. eauto.
Qed.

Lemma max_element_spec l : l <> [] -> Forall notnan l -> first_max l (max_element l).
Proof.
  intros Hne Hnan. destruct l as [|x l]; [congruence|]. simpl.
  apply (max_element_from_spec l 1 0 x [x]); auto.
  - intros y Hy. rewrite Forall_forall in Hnan. apply Hnan. exact Hy.
  - intros [|[|j]] w; simpl; try discriminate. intro H. inversion H; subst. apply flt_irrefl.
  - intros j w _ H. lia.
Qed.
