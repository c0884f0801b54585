(** Property C09: the log files. *)
From Coq Require Import ZArith List Bool Lia.
From Verif Require Import F64 BOModel BOSpec BOFacts StatModel.
Import ListNotations.
Open Scope Z_scope.

(** ** Specification *)

(** rows labelled i, i+1, ... *)
Fixpoint numbered {A} (i : Z) (l : list A) : list (row A) :=
  match l with [] => [] | a :: r => Row i a :: numbered (i + 1) r end.

(** the file that lists [l], whose first [k] entries are initial points *)
Definition whole_log {A} (k : nat) (l : list A) : list (row A) :=
  if (k <? length l)%nat
  then Header :: map (Row (-1)) (firstn k l) ++ numbered 0 (skipn k l)
  else [].

(** a running log: one header, then a row per iteration *)
Definition run_log {A} (t : nat) (f : nat -> A) : list (row A) :=
  match t with O => [] | S _ => Header :: map (fun j => Row (Z.of_nat j) (f j)) (seq 0 t) end.

(** ** Proof *)
Lemma but_last_app {A} (l : list A) a : but_last (l ++ [a]) = l.
Proof.
  induction l as [|b l IH]; [reflexivity|]. simpl. rewrite IH.
  destruct (l ++ [a]) eqn:E0; [|reflexivity]. apply app_eq_nil in E0. destruct E0; discriminate.
Qed.

Lemma back_app {A} (l : list A) a : back (l ++ [a]) = Some a.
Proof.
  induction l as [|b l IH]; [reflexivity|]. simpl. rewrite IH.
  destruct (l ++ [a]) eqn:E0; [|reflexivity]. apply app_eq_nil in E0. destruct E0; discriminate.
Qed.

Lemma firstn_S_nth {A} (l : list A) n a : nth_error l n = Some a -> firstn (S n) l = firstn n l ++ [a].
Proof.
  revert n; induction l as [|b l IH]; intros [|n] H; simpl in *; try discriminate.
  - now inversion H.
  - now rewrite (IH n H).
Qed.

Lemma numbered_app {A} (l1 l2 : list A) i :
  numbered i (l1 ++ l2) = numbered i l1 ++ numbered (i + Z.of_nat (length l1)) l2.
Proof.
  revert i; induction l1 as [|a l1 IH]; intro i; cbn [app numbered length].
  - f_equal. lia.
  - f_equal. rewrite IH. f_equal. f_equal. lia.
Qed.

Definition stats_of {M E} (tr : list (event M E)) : list (list vec * list vec * Z) :=
  flat_map (fun e => match e with EvStat xs ys _ tot => [(xs, ys, tot)] | _ => [] end) tr.

Lemma log_file_stats {M E A} f (tr : list (event M E)) :
  log_file (A := A) f tr = flat_map (fun p => f (fst (fst p)) (snd (fst p)) (snd p)) (stats_of tr).
Proof.
  unfold log_file, stats_of. induction tr as [|e tr IH]; [reflexivity|].
  simpl. rewrite IH. destruct e; try reflexivity. 
Qed.

Section Props.
  Context {W M E : Type}.
  Variable sfun : W -> vec -> (vec + E) * W.
  Variable m_fresh : M.
  Variable m_compute : W -> M -> list vec -> list vec -> M * W.
  Variable m_add : W -> M -> vec -> vec -> M * W.
  Variable m_hp : W -> M -> M * W.
  Variable acq : W -> M -> Z -> vec * W.
  Variable init_n : nat.
  Variable init_pt : nat -> W -> vec * W.
  Variable hp_period : Z.

  Notation st := (bo W M E).
  Notation run_ops := (run_ops sfun m_fresh m_compute m_add m_hp acq init_n init_pt hp_period).
  Notation run_op := (run_op sfun m_fresh m_compute m_add m_hp acq init_n init_pt hp_period).
  Notation optimize := (optimize sfun m_fresh m_compute m_add m_hp acq init_n init_pt hp_period).
  Notation init_phase := (init_phase sfun init_n init_pt).
  Notation run_init := (run_init sfun init_pt).
  Notation iteration := (iteration sfun m_add m_hp acq hp_period).
  Notation loop := (loop sfun m_add m_hp acq hp_period).

  Definition snap (s : st) (k j : nat) : list vec * list vec * Z :=
    (firstn (k + S j) (samples s), firstn (k + S j) (observations s), Z.of_nat j).

  (** [t] iterations done, [k] samples before them *)
  Definition LogInv (s : st) (k t : nat) : Prop :=
    tot s = Z.of_nat t /\
    length (samples s) = (k + t)%nat /\ length (observations s) = (k + t)%nat /\
    stats_of (trace s) = map (snap s k) (seq 0 t).

  (** no statistics written yet *)
  Definition LogInv0 (s : st) : Prop :=
    tot s = 0 /\ length (samples s) = length (observations s) /\ stats_of (trace s) = [].

  Definition LInv (s : st) : Prop := exists k t, LogInv s k t.

  Lemma LogInv0_LInv s : LogInv0 s -> LInv s.
  Proof. intros (A & B & C). exists (length (samples s)), O. repeat split; simpl; auto; lia. Qed.

  Lemma LInv_tot0 s : LInv s -> tot s = 0 -> LogInv0 s.
  Proof.
    intros (k & t & A & B & C & D) H. assert (t = O) by lia. subst t.
    split; [|split]; auto. congruence.
  Qed.

  Lemma stats_of_app tr1 tr2 : @stats_of M E (tr1 ++ tr2) = stats_of tr1 ++ stats_of tr2.
  Proof. apply flat_map_app. Qed.

  Definition RL (r : result W M E) : Prop :=
    match r with Ret s | Throw s _ | Running s => LInv s | UninitRead => True end.

  Lemma LInv_log (s : st) w e :
    LInv s -> stats_of [e] = [] -> LInv (log (set_world s w) e).
  Proof.
    intros (k & t & A & B & C & D) He. exists k, t. repeat split; simpl; auto.
    rewrite stats_of_app, He, app_nil_r, D. reflexivity.
  Qed.

  Lemma iteration_log c s : LInv s -> RL (iteration c s).
  Proof.
    intros (k & t & A & B & C & D).
    destruct (iteration_spec sfun m_add m_hp acq hp_period c s) as (x & w1 & r & w2 & _ & _ & Hc).
    cbv zeta in Hc.
    destruct Hc as [(v & m & w3 & m' & w4 & trhp & -> & Hfin & _ & Hhp & ->)|(Hb & ->)].
    - assert (Hk : stats_of trhp = []).
      { destruct ((0 <? hp_period) && _); destruct Hhp as (_ & Hhp); [|destruct Hhp as [_ Hhp]];
          rewrite Hhp; reflexivity. }
      exists k, (S t). split; [|split; [|split]]; cbn [tot samples observations trace].
      + lia.
      + rewrite app_length. simpl. lia.
      + rewrite app_length. simpl. lia.
      + rewrite !stats_of_app, Hk, D, seq_S, map_app, app_nil_r.
        f_equal.
        * apply map_ext_in. intros j Hj. apply in_seq in Hj. unfold snap. simpl.
          rewrite !firstn_app.
          replace (k + S j - length (samples s))%nat with O by lia.
          replace (k + S j - length (observations s))%nat with O by lia.
          simpl. now rewrite !app_nil_r.
        * simpl. unfold snap. cbn [samples observations].
          rewrite !firstn_all2 by (rewrite app_length; simpl; lia). now rewrite A.
    - change (LInv (log (set_world (log (set_world s w1) (EvAcq (samples s) (observations s) (model s) c x)) w2)
               (EvEval x r))).
      apply LInv_log; [apply LInv_log; [exists k, t; repeat split; auto|reflexivity]|reflexivity].
  Qed.

  Lemma loop_log cs fuel s : cur s <> None -> LInv s -> RL (loop cs fuel s).
  Proof.
    intros Hc H. apply (loop_ind sfun m_add m_hp acq hp_period
      (fun s => cur s <> None /\ LInv s) RL); try tauto.
    - intros s' c b w [_ H'] Ec Est. split.
      + intros ->. apply (LInv_log s' w); auto.
      + intros ->. set (s0 := log _ _).
        assert (H0 : LInv s0) by (apply (LInv_log s' w); auto).
        pose proof (iteration_log c s0 H0) as Hi.
        destruct (iteration_spec sfun m_add m_hp acq hp_period c s0) as (x & w1 & r & w2 & _ & _ & Hcase).
        cbv zeta in Hcase.
        destruct Hcase as [(v & m & w3 & m' & w4 & trhp & _ & _ & _ & _ & Eq)|(Hb & Eq)];
          rewrite Eq in *; auto.
        split; auto. simpl. discriminate.
  Qed.

  Lemma run_init_log k i s : LogInv0 s -> RL (run_init k i s).
  Proof.
    intro H.
    assert (Q : forall (s0 : st) x r w, LogInv0 s0 -> LogInv0 (log (set_world s0 w) (EvEval x r))).
    { intros s0 x r w (A & B & C). split; [|split]; simpl; auto.
      rewrite stats_of_app, C. reflexivity. }
    destruct (run_init_ind sfun init_pt LogInv0 (fun s _ => LogInv0 s)) with (k := k) (i := i) (s := s)
      as [(s' & -> & Hs)|(s' & e & -> & Hs)]; cbn [RL]; auto using LogInv0_LInv.
    intros s0 x r w Hs0 Hf. split; auto.
    intros v -> Hfin. destruct (Q s0 x (inl v) w Hs0) as (A & B & C). split; [|split]; simpl; auto.
    rewrite !app_length. simpl in *. lia.
  Qed.

  (** the call may reset only when no iteration has been done yet *)
  Lemma init_phase_log reset s :
    LInv s -> (reset = true -> tot s = 0) -> RL (init_phase reset s).
  Proof.
    intros H Hr. unfold BOModel.init_phase.
    set (s1 := set_cur (log s (EvCall reset)) 0).
    assert (H1 : LInv s1).
    { assert (LInv (log (set_world s (world s)) (EvCall reset))) as Hx by (apply LInv_log; auto).
      exact Hx. }
    set (s2 := if reset then log (clear_data (set_tot s1 0)) EvReset else s1).
    assert (H2 : LInv s2).
    { unfold s2. destruct reset; auto. apply LogInv0_LInv.
      destruct (LInv_tot0 s H (Hr eq_refl)) as (A & B & C).
      split; [|split]; simpl; auto. rewrite !stats_of_app, C. reflexivity. }
    destruct (tot s2 =? 0) eqn:E0; [|exact H2].
    apply run_init_log. apply Z.eqb_eq in E0.
    assert (H3 : LInv (log (set_world s2 (world s2)) EvInit)) by (apply LInv_log; auto).
    apply LInv_tot0 in H3; auto.
  Qed.

  Lemma optimize_log cs fuel reset s :
    LInv s -> (reset = true -> tot s = 0) -> RL (optimize cs fuel reset s).
  Proof.
    intros H Hr. unfold BOModel.optimize.
    pose proof (init_phase_log reset s H Hr) as Hp.
    destruct (init_phase_cur sfun init_n init_pt reset s) as [(s1 & E1 & Hc & _)|(s1 & e & E1 & Hc & _)];
      rewrite E1 in *; [|exact Hp].
    destruct (observations s1) eqn:Eo.
    - apply loop_log; simpl; [congruence|exact Hp].
    - destruct (m_compute _ _ _ _) as [m w]. apply loop_log; simpl; [congruence|exact Hp].
  Qed.

  (** one call (resetting or not) on a fresh optimizer, then calls with reset = false *)
  Definition history (os : list op) : Prop :=
    exists reset fuel os', os = OpOptimize reset fuel :: os' /\
      Forall (fun o => exists n, o = OpOptimize false n) os'.

  Lemma run_ops_log cs os s s' :
    LInv s -> Forall (fun o => exists n, o = OpOptimize false n) os ->
    run_ops cs os s = Some s' -> LInv s'.
  Proof.
    intros H Ho. revert s H. induction Ho as [|o os [n ->] Ho IH]; intros s H Hr; simpl in Hr.
    - now inversion Hr; subst.
    - pose proof (optimize_log cs n false s H) as Q.
      assert (Q' : RL (optimize cs n false s)) by (apply Q; discriminate).
      destruct (optimize cs n false s); simpl in Q'; try discriminate; eauto.
      now inversion Hr; subst.
  Qed.

  Lemma history_log cs os m w s' :
    history os -> run_ops cs os (new_bo m w) = Some s' -> LInv s'.
  Proof.
    intros (reset & fuel & os' & -> & Ho) Hr. simpl in Hr.
    assert (H0 : LInv (new_bo m w)).
    { exists O, O. repeat split; reflexivity. }
    pose proof (optimize_log cs fuel reset (new_bo m w) H0 (fun _ => eq_refl)) as Q.
    destruct (optimize cs fuel reset (new_bo m w)); simpl in Q; try discriminate.
    - eapply run_ops_log; eauto.
    - eapply run_ops_log; eauto.
    - now inversion Hr; subst.
  Qed.

  (** *** from the snapshots to the files *)
  Lemma list_log {A} (l : list A) k t :
    length l = (k + t)%nat ->
    flat_map (fun j => stat_list (firstn (k + S j) l) (Z.of_nat j)) (seq 0 t)
    = map (fun r => match r with Header => Header | Row i a => Row i (Some a) end) (whole_log k l).
  Proof.
    intro Hl.
    assert (Hp : forall j, (j <= t)%nat ->
      flat_map (fun j => stat_list (firstn (k + S j) l) (Z.of_nat j)) (seq 0 j)
      = map (fun r => match r with Header => Header | Row i a => Row i (Some a) end)
          (whole_log k (firstn (k + j) l))).
    { induction j as [|j IH]; intro Hj.
      - simpl. unfold whole_log. rewrite firstn_length.
        destruct (Nat.ltb_spec k (Nat.min (k + 0) (length l))); [lia|reflexivity].
      - rewrite seq_S, flat_map_app, IH by lia. simpl. rewrite app_nil_r.
        destruct (nth_error l (k + j)) as [a|] eqn:Ea;
          [|apply nth_error_None in Ea; lia].
        replace (k + S j)%nat with (S (k + j)) by lia.
        rewrite (firstn_S_nth l (k + j) a Ea).
        assert (Hlen : length (firstn (k + j) l) = (k + j)%nat) by (rewrite firstn_length; lia).
        unfold stat_list. destruct (firstn (k + j) l ++ [a]) eqn:E0.
        { apply app_eq_nil in E0. destruct E0; discriminate. }
        rewrite <- E0. rewrite but_last_app, back_app. clear E0 l0 a0.
        unfold whole_log. rewrite app_length, Hlen. simpl length.
        destruct (Nat.ltb_spec k (k + j + 1)); [|lia].
        destruct (Nat.ltb_spec k (k + j)).
        + destruct (Z.eqb_spec (Z.of_nat j) 0); [lia|].
          rewrite firstn_app, skipn_app, Hlen.
          replace (k - (k + j))%nat with O by lia.
          simpl (firstn 0 [a]). simpl (skipn 0 [a]). rewrite app_nil_r.
          rewrite numbered_app, skipn_length, Hlen.
          replace (k + j - k)%nat with j by lia.
          cbn [map app numbered]. f_equal. rewrite !map_app, <- app_assoc. cbn [map]. reflexivity.
        + assert (j = O) by lia. subst j. rewrite Nat.add_0_r in *.
          destruct (Z.eqb_spec (Z.of_nat 0) 0); [|lia].
          rewrite firstn_app, skipn_app, Hlen, Nat.sub_diag.
          rewrite firstn_firstn, Nat.min_id.
          rewrite (skipn_all2 (firstn k l)) by lia. simpl. rewrite app_nil_r, map_app.
          rewrite (map_map (Row (-1))). reflexivity. }
    rewrite Hp by lia. rewrite <- Hl, firstn_all. reflexivity.
  Qed.

  Lemma flat_map_map {A B C} (f : B -> list C) (g : A -> B) l : flat_map f (map g l) = flat_map (fun a => f (g a)) l.
  Proof. induction l; simpl; congruence. Qed.

  Lemma map_whole_log {A B} (f : A -> B) k l :
    map (fun r => match r with Header => Header | Row i a => Row i (f a) end) (whole_log k l)
    = whole_log k (map f l).
  Proof.
    unfold whole_log. rewrite map_length. destruct (k <? length l)%nat; [|reflexivity].
    cbn [map]. f_equal. rewrite map_app. f_equal.
    - rewrite firstn_map. rewrite (map_map (Row (-1))), (map_map f). reflexivity.
    - rewrite skipn_map. generalize 0. induction (skipn k l) as [|a r IH]; intro i; simpl; congruence.
  Qed.

  (** C09: after any history of calls on one fresh optimizer in which only the first call may
      reset — including calls that end in an exception or are still running — the three files
      list all samples / observations / aggregated observations exactly once and in order; the
      [k] points before the first iteration are labelled -1, the others 0, 1, 2, ...  The file
      is empty when no iteration has been completed. *)
  Theorem C09_logs_list_every_sample :
    forall cs os (m : M) (w : W) (afun : vec -> F) (s : st),
      history os ->
      run_ops cs os (new_bo m w) = Some s ->
      let k := (length (samples s) - Z.to_nat (tot s))%nat in
      length (samples s) = (k + Z.to_nat (tot s))%nat /\
      samples_dat (trace s) = whole_log k (map Some (samples s)) /\
      observations_dat (trace s) = whole_log k (map Some (observations s)) /\
      aggregated_observations_dat afun (trace s) = whole_log k (map Some (map afun (observations s))).
  Proof.
    intros cs os m w afun s Hh Hr k.
    destruct (history_log cs os m w s Hh Hr) as (k' & t & A & B & C & D).
    assert (Hk : k = k') by (unfold k; lia). clearbody k. subst k'.
    split; [lia|].
    assert (Q : forall T (f : list vec -> list vec -> Z -> list (row T)),
      log_file f (trace s) =
      flat_map (fun j => f (firstn (k + S j) (samples s)) (firstn (k + S j) (observations s)) (Z.of_nat j)) (seq 0 t)).
    { intros T f. rewrite log_file_stats, D, flat_map_map. reflexivity. }
    unfold samples_dat, observations_dat, aggregated_observations_dat. rewrite !Q.
    split; [|split].
    - rewrite list_log, map_whole_log by auto. reflexivity.
    - rewrite list_log, map_whole_log by auto. reflexivity.
    - rewrite <- map_whole_log.
      rewrite <- list_log with (t := t) by (rewrite map_length; auto).
      apply flat_map_ext. intro j. now rewrite firstn_map.
  Qed.

  (** the incumbent after [n] observations *)
  Definition incumbent (afun : vec -> F) (ys : list vec) (n i : nat) : Prop :=
    first_max (map afun (firstn n ys)) i.

  (** C09: the best_* files have one header and one row per iteration, labelled 0, 1, ...; the
      row labelled [j] shows the incumbent among the first [k + j + 1] observations, and the
      aggregated values never decrease down the file. *)
  Theorem C09_best_logs_are_running_maxima :
    forall cs os (m : M) (w : W) (afun : vec -> F) (s : st),
      history os ->
      run_ops cs os (new_bo m w) = Some s ->
      Forall notnan (map afun (observations s)) ->
      let t := Z.to_nat (tot s) in
      let k := (length (samples s) - t)%nat in
      exists best : nat -> nat,
        (forall j, (j < t)%nat -> incumbent afun (observations s) (k + j + 1) (best j)) /\
        best_observations_dat afun (trace s) = run_log t (fun j => nth_error (observations s) (best j)) /\
        best_samples_dat afun (trace s) = run_log t (fun j => nth_error (samples s) (best j)) /\
        best_aggregated_observations_dat afun (trace s)
          = run_log t (fun j => nth_error (map afun (observations s)) (best j)) /\
        (forall i j v v', (i <= j < t)%nat ->
           nth_error (map afun (observations s)) (best i) = Some v ->
           nth_error (map afun (observations s)) (best j) = Some v' -> flt v' v = false).
  Proof.
    intros cs os m w afun s Hh Hr Hn t k.
    destruct (history_log cs os m w s Hh Hr) as (k' & t' & A & B & C & D).
    assert (t = t') by (unfold t; lia). clearbody t. subst t'.
    assert (Hk : k = k') by (unfold k; lia). clearbody k. subst k'.
    set (best := fun j => max_element (map afun (firstn (k + S j) (observations s)))).
    assert (Hlen : forall j, (j < t)%nat -> length (firstn (k + S j) (observations s)) = (k + S j)%nat).
    { intros j Hj. rewrite firstn_length. lia. }
    assert (Hspec : forall j, (j < t)%nat ->
      exists v, nth_error (map afun (firstn (k + S j) (observations s))) (best j) = Some v /\
        (forall i v', nth_error (map afun (firstn (k + S j) (observations s))) i = Some v' -> flt v v' = false) /\
        (forall i v', nth_error (map afun (firstn (k + S j) (observations s))) i = Some v' ->
           (i < best j)%nat -> flt v' v = true)).
    { intros j Hj. apply max_element_spec.
      - intro E0. apply (f_equal (@length _)) in E0. rewrite map_length, Hlen in E0 by auto. simpl in E0. lia.
      - rewrite <- firstn_map. apply Forall_forall. intros v Hv.
        rewrite Forall_forall in Hn. apply Hn. rewrite <- (firstn_skipn (k + S j)). apply in_or_app; auto. }
    assert (Hb : forall j, (j < t)%nat -> (best j < k + S j)%nat).
    { intros j Hj. destruct (Hspec j Hj) as (v & Hv & _).
      rewrite <- (Hlen j Hj), <- (map_length afun). apply nth_error_Some. congruence. }
    assert (Hnth : forall T (l : list T) n i, (i < n)%nat -> nth_error (firstn n l) i = nth_error l i).
    { intros T l; induction l as [|a l IH]; intros [|n] [|i] Hi; simpl; auto; try lia. apply IH. lia. }
    assert (Q : forall T (f : list vec -> list vec -> Z -> list (row T)) g,
      (forall j, (j < t)%nat ->
        f (firstn (k + S j) (samples s)) (firstn (k + S j) (observations s)) (Z.of_nat j)
        = (if Z.of_nat j =? 0 then [Header] else []) ++ [Row (Z.of_nat j) (g j)]) ->
      log_file f (trace s) = run_log t g).
    { intros T f g Hf. rewrite log_file_stats, D, flat_map_map. unfold snap; cbn [fst snd].
      assert (P : forall n, (n <= t)%nat ->
        flat_map (fun j => f (firstn (k + S j) (samples s)) (firstn (k + S j) (observations s)) (Z.of_nat j)) (seq 0 n)
        = run_log n g).
      { induction n as [|n IH]; intro Hn0; [reflexivity|].
        rewrite seq_S, flat_map_app, IH by lia. cbn [flat_map Nat.add]. rewrite app_nil_r, Hf by lia.
        destruct n as [|n]; [reflexivity|]. unfold run_log.
        rewrite (seq_S (S n)), map_app. reflexivity. }
      apply P. lia. }
    exists best. split; [|split; [|split; [|split]]].
    - intros j Hj. unfold incumbent. replace (k + j + 1)%nat with (k + S j)%nat by lia.
      destruct (Hspec j Hj) as (v & H1 & H2 & H3). exists v. auto.
    - apply Q. intros j Hj. unfold stat_best_observation.
      destruct (firstn (k + S j) (observations s)) eqn:E0.
      { apply (f_equal (@length _)) in E0. rewrite Hlen in E0 by auto. simpl in E0. lia. }
      rewrite <- E0. f_equal. f_equal. f_equal. apply Hnth. apply Hb; auto.
    - apply Q. intros j Hj. unfold stat_best_sample.
      destruct (firstn (k + S j) (samples s)) eqn:E0.
      { apply (f_equal (@length _)) in E0. rewrite firstn_length in E0 by auto. simpl in E0. lia. }
      rewrite <- E0. f_equal. f_equal. f_equal. apply Hnth. apply Hb; auto.
    - apply Q. intros j Hj. unfold stat_best_aggregated.
      destruct (firstn (k + S j) (observations s)) eqn:E0.
      { apply (f_equal (@length _)) in E0. rewrite Hlen in E0 by auto. simpl in E0. lia. }
      rewrite <- E0. f_equal. f_equal. f_equal. rewrite nth_error_map. f_equal. apply Hnth. apply Hb; auto.
    - intros i j v v' Hij Hi Hj.
      destruct (Hspec j) as (u & Hu & Hmax & _); [lia|].
      rewrite <- firstn_map in Hu, Hmax. rewrite Hnth in Hu by (apply Hb; lia).
      rewrite Hj in Hu. inversion Hu; subst u.
      apply (Hmax (best i)). rewrite Hnth; auto.
      pose proof (Hb i). lia.
  Qed.
End Props.

(** a concrete history: 2 initial points and 2 iterations, then a resumed call with one more
    iteration; and the content of the files *)
Module Example_logs.
  Definition sf (w : nat) (x : vec) : (vec + unit) * nat := (inl x, S w).
  Definition M := list (vec * vec).
  Definition compute (w : nat) (m : M) xs ys : M * nat := (combine xs ys, w).
  Definition add (w : nat) (m : M) x y : M * nat := (m ++ [(x, y)], w).
  Definition hp (w : nat) (m : M) : M * nat := (m, w).
  Definition aq (w : nat) (m : M) (c : Z) : vec * nat := ([fofZ (7 - 3 * c)], w).
  Definition ipt (i : nat) (w : nat) : vec * nat := ([fofZ (Z.of_nat i)], w).
  Definition run os := @run_ops nat M unit sf [] compute add hp aq 2 ipt 0 [max_iterations 2] os (new_bo [] O).
  Definition os := [OpOptimize true 5; OpOptimize false 5].
  Definition afun (v : vec) : F := hd fnan v.
  Definition one (z : Z) : option vec := Some [fofZ z].

  Example logs_history : history os.
  Proof. exists true, 5%nat, [OpOptimize false 5]. split; [reflexivity|]. repeat constructor. eauto. Qed.

  Example logs_content : exists s, run os = Some s /\
    samples_dat (trace s) =
      [Header; Row (-1) (one 0); Row (-1) (one 1); Row 0 (one 7); Row 1 (one 4); Row 2 (one 7); Row 3 (one 4)] /\
    best_observations_dat afun (trace s) =
      [Header; Row 0 (one 7); Row 1 (one 7); Row 2 (one 7); Row 3 (one 7)] /\
    forallb (fun v => negb (isnan v)) (map afun (observations s)) = true.
  Proof. eexists. split; [vm_compute; reflexivity|]. vm_compute. auto. Qed.

  Definition headers {A} (l : list (row A)) : nat :=
    length (filter (fun r => match r with Header => true | _ => false end) l).
End Example_logs.

(** the condition that only the first call may reset is needed: with two calls of
    optimize(reset = true) the file holds two headers, restarts its labels and still lists the
    samples the optimizer has discarded *)
Theorem C09_logs_after_a_reset_refuted :
  exists ops s, Example_logs.run ops = Some s /\ Forall (fun o => exists r n, o = OpOptimize r n) ops /\
    Example_logs.headers (samples_dat (trace s)) = 2%nat /\
    (length (samples s) < length (samples_dat (trace s)) - 2)%nat.
Proof.
  exists [OpOptimize true 5; OpOptimize true 5]. eexists.
  split; [vm_compute; reflexivity|]. split; [repeat constructor; eauto|].
  vm_compute. split; [reflexivity|]. repeat constructor.
Qed.


Print Assumptions C09_logs_list_every_sample.
Print Assumptions C09_best_logs_are_running_maxima.
Print Assumptions C09_logs_after_a_reset_refuted.
