(** C62: the log files about the model. *)
From Coq Require Import ZArith List Bool Lia.
From Coq Require Import Reals.
From Verif Require Import LinAlgModel LinAlg KernelModel GPModel GPSpec HpOptModel KernelSpec MeanSpec BoGpModel Prop_BoGp Prop_BoGp2.
From Verif Require Import F64 BOModel BOSpec BOFacts BORel StatModel InitModel InitFacts OptSpec Prop_Init Prop_Stat GpStatModel.
Import ListNotations.
Open Scope Z_scope.

(** ** Shape of traces: statistics are refreshed right after the evaluation of the point proposed by the acquisition
    function, with the model and the iteration number the acquisition function was given *)
Definition no_stat {M E} (e : event M E) : Prop := match e with EvStat _ _ _ _ => False | _ => True end.
Inductive chunks {M E : Type} : list (event M E) -> Prop :=
| ch_nil : chunks []
| ch_one tr e : chunks tr -> no_stat e -> chunks (tr ++ [e])
| ch_iter tr xs ys m c x v t : chunks tr ->
    chunks (tr ++ [EvAcq xs ys m c x; EvEval x (inl v); EvStat (xs ++ [x]) (ys ++ [v]) m t]).

Fixpoint cur_after {M E} (c : Z) (tr : list (event M E)) : Z :=
  match tr with [] => c | EvAcq _ _ _ c' _ :: r => cur_after c' r | _ :: r => cur_after c r end.
Lemma stat_calls_app {M E} (tr1 tr2 : list (event M E)) : forall c, stat_calls c (tr1 ++ tr2) = stat_calls c tr1 ++ stat_calls (cur_after c tr1) tr2.
Proof. induction tr1 as [|e tr1 IH]; intro c; [reflexivity|]. destruct e; cbn [app stat_calls cur_after]; rewrite IH; reflexivity. Qed.
Lemma stats_calls {M E} (tr : list (event M E)) : forall c, stats_of tr = map (fun q => (c_xs q, c_ys q, c_tot q)) (stat_calls c tr).
Proof. induction tr as [|e tr IH]; intro c; [reflexivity|]. destruct e; cbn [stats_of flat_map stat_calls app map c_xs c_ys c_tot]; try apply IH. f_equal. apply IH. Qed.

(** the call of the functors belongs to the iteration in which the acquisition function proposed [x] *)
Definition proposed {M E} (tr : list (event M E)) (q : call M) : Prop :=
  exists xs ys x v, In (EvAcq xs ys (c_m q) (c_cur q) x) tr /\ In (EvEval x (inl v)) tr /\ c_xs q = xs ++ [x] /\ c_ys q = ys ++ [v].
Lemma chunks_proposed {M E} (tr : list (event M E)) : chunks tr -> Forall (proposed tr) (stat_calls 0 tr).
Proof.
  assert (K : forall (tr tr' : list (event M E)) l, Forall (proposed tr) l -> Forall (proposed (tr ++ tr')) l).
  { intros tr0 tr' l H. eapply Forall_impl; [|exact H]. intros q (xs & ys & x & v & A & B & C). exists xs, ys, x, v. rewrite !in_app_iff. tauto. }
  induction 1 as [|tr e H IH Hn|tr xs ys m c x v t H IH]; [constructor| |]; rewrite stat_calls_app; apply Forall_app.
  - split; [now apply K|]. destruct e; cbn [stat_calls]; try exact (Forall_nil _). destruct Hn.
  - split; [now apply K|]. cbn [stat_calls]. constructor; [|constructor]. exists xs, ys, x, v. cbn [c_m c_cur c_xs c_ys]. rewrite !in_app_iff. cbn [In]. tauto.
Qed.

Section Runs.
  Context {W M E : Type}.
  Variable sfun : W -> vec -> (vec + E) * W.
  Variable m_fresh : M.
  Variable m_compute : W -> M -> list vec -> list vec -> M * W.
  Variable m_add : W -> M -> vec -> vec -> M * W.
  Variable m_hp : W -> M -> M * W.
  Variable acq : W -> M -> Z -> vec * W.
  Variable init_n : nat.
  Variable init_pt : nat -> W -> vec * W.
  Variable hp_period : Z.
  Notation st := (bo W M E).
  Notation run_ops := (run_ops sfun m_fresh m_compute m_add m_hp acq init_n init_pt hp_period).
  Notation run_op := (run_op sfun m_fresh m_compute m_add m_hp acq init_n init_pt hp_period).
  Notation optimize := (optimize sfun m_fresh m_compute m_add m_hp acq init_n init_pt hp_period).
  Notation iteration := (iteration sfun m_add m_hp acq hp_period).
  Notation loop := (loop sfun m_add m_hp acq hp_period).
  Let C (s : st) : Prop := chunks (trace s).

  Lemma eval_ch s x : C s -> all_states C (eval_and_add sfun s x).
  Proof.
    intro H. unfold eval_and_add. destruct (sfun (world s) x) as [[v|e] w]; [|exact (ch_one _ (EvEval x (inr e)) H I)].
    unfold add_new_sample. destruct (is_nan_or_inf v); exact (ch_one _ (EvEval x (inl v)) H I).
  Qed.
  Lemma run_init_ch : forall k i s, C s -> all_states C (run_init sfun init_pt k i s).
  Proof.
    induction k as [|k IH]; intros i s H; cbn [run_init]; [exact H|]. destruct (init_pt i (world s)) as [x w].
    pose proof (eval_ch (set_world s w) x H) as He. destruct (eval_and_add sfun (set_world s w) x); cbn [all_states] in *; auto.
  Qed.
  Lemma iter_ch c s : C s -> all_states C (iteration c s).
  Proof.
    intro H. destruct (iteration_spec sfun m_add m_hp acq hp_period c s) as (x & w1 & r & w2 & _ & _ & Hc). cbv zeta in Hc.
    destruct Hc as [(v & m & w3 & m' & w4 & trhp & -> & Hfin & _ & Hhp & ->)|(Hb & ->)]; cbn [all_states].
    - unfold C. cbn [trace]. rewrite app_assoc. pose proof (ch_iter (trace s) (samples s) (observations s) (model s) c x v (tot s) H) as Q.
      destruct ((0 <? hp_period) && _); [destruct Hhp as (_ & ->)|destruct Hhp as (_ & _ & ->); rewrite app_nil_r; exact Q]. exact (ch_one _ (EvHp c) Q I).
    - unfold C. cbn [trace log set_world]. apply ch_one; [|exact I]. apply ch_one; [exact H|exact I].
  Qed.
  Lemma loop_ch cs : forall fuel s, C s -> all_states C (loop cs fuel s).
  Proof.
    induction fuel as [|fuel IH]; intros s H; cbn [BOModel.loop]; [exact H|]. destruct (cur s) as [c|]; [|exact I].
    destruct (stop_now cs s) as [b w]. set (s0 := log _ _). assert (H0 : C s0) by exact (ch_one _ (EvStop (samples s) (observations s) (model s) c b) H I).
    destruct b; [exact H0|]. pose proof (iter_ch c s0 H0) as Hi. destruct (iteration c s0); auto.
  Qed.
  Lemma optimize_ch cs fuel reset s : C s -> all_states C (optimize cs fuel reset s).
  Proof.
    intro H. unfold BOModel.optimize.
    assert (Hi : all_states C (init_phase sfun init_n init_pt reset s)).
    { unfold init_phase. set (s2 := if reset then _ else _).
      assert (H2 : C s2). { unfold s2. destruct reset; [|exact (ch_one _ (EvCall false) H I)]. exact (ch_one _ EvReset (ch_one _ (EvCall true) H I) I). }
      destruct (tot s2 =? 0); [|exact H2]. apply run_init_ch. exact (ch_one _ EvInit H2 I). }
    destruct (init_phase sfun init_n init_pt reset s) as [s1| | |]; auto. apply loop_ch.
    destruct (observations s1); [exact Hi|]. destruct (m_compute _ _ _ _). exact Hi.
  Qed.
  Lemma run_chunks cs : forall os m w s, run_ops cs os (new_bo m w) = Some s -> chunks (trace s).
  Proof.
    intros os m w. assert (H : C (new_bo m w)) by constructor. revert H. generalize (new_bo m w : st). clear m w.
    induction os as [|o os IH]; intros s0 H s Hr; cbn [BOModel.run_ops] in Hr; [injection Hr as <-; exact H|].
    assert (Hs : all_states C (run_op cs o s0)).
    { destruct o as [reset fuel|x|x y]; cbn [BOModel.run_op]; [now apply optimize_ch|now apply eval_ch|].
      unfold add_new_sample. destruct (is_nan_or_inf y); [exact H|]. exact (ch_one _ (EvAdd x y) H I). }
    destruct (run_op cs o s0); cbn [all_states] in Hs; [exact (IH _ Hs _ Hr)|exact (IH _ Hs _ Hr)| |discriminate]. injection Hr as <-. exact Hs.
  Qed.

  (** *** Specification: the iterations that were completed.  [it j] is the model and the iteration number with which the
      acquisition function was maximised when it proposed the sample number [k + j]; at that time there were the
      [k + j] earlier samples *)
  Definition chosen_with (s : st) (k j : nat) (it : M * Z) : Prop :=
    exists x v, nth_error (samples s) (k + j) = Some x /\ nth_error (observations s) (k + j) = Some v /\
      In (EvAcq (firstn (k + j) (samples s)) (firstn (k + j) (observations s)) (fst it) (snd it) x) (trace s) /\
      In (EvEval x (inl v)) (trace s).

  (** the log files of a history in which only the first call may reset *)
  Lemma calls_of_history cs os m w s : history os -> run_ops cs os (new_bo m w) = Some s ->
    exists k t (it : nat -> M * Z), tot s = Z.of_nat t /\ length (samples s) = (k + t)%nat /\ length (observations s) = (k + t)%nat /\
      (forall j, (j < t)%nat -> chosen_with s k j (it j)) /\
      stat_calls 0 (trace s) = map (fun j => mkCall (firstn (k + S j) (samples s)) (firstn (k + S j) (observations s)) (fst (it j)) (Z.of_nat j) (snd (it j))) (seq 0 t).
  Proof.
    intros Hh Hr. destruct (history_log sfun m_fresh m_compute m_add m_hp acq init_n init_pt hp_period cs os m w s Hh Hr) as (k & t & A & B & D & F).
    pose proof (chunks_proposed _ (run_chunks cs os m w s Hr)) as P. rewrite (stats_calls (trace s) 0) in F.
    set (cs' := stat_calls 0 (trace s)) in *. set (d := mkCall [] [] m 0 0).
    assert (L : length cs' = t) by (apply (f_equal (@length _)) in F; rewrite !map_length, seq_length in F; exact F).
    assert (N : forall j, (j < t)%nat -> c_xs (nth j cs' d) = firstn (k + S j) (samples s) /\ c_ys (nth j cs' d) = firstn (k + S j) (observations s) /\ c_tot (nth j cs' d) = Z.of_nat j).
    { intros j Hj. apply (f_equal (fun l => nth j l (c_xs d, c_ys d, c_tot d))) in F.
      rewrite (map_nth (fun q : call M => (c_xs q, c_ys q, c_tot q))) in F.
      rewrite (nth_indep _ _ (snap s k 0)) in F by (rewrite map_length, seq_length; lia). rewrite map_nth, seq_nth in F by lia. cbn [Nat.add] in F. unfold snap in F. injection F as -> -> ->. auto. }
    exists k, t, (fun j => (c_m (nth j cs' d), c_cur (nth j cs' d))). split; [exact A|]. split; [exact B|]. split; [exact D|]. split.
    - intros j Hj. destruct (N j Hj) as (Nx & Ny & _). rewrite Forall_forall in P.
      destruct (P (nth j cs' d)) as (xs & ys & x & v & I1 & I2 & E1 & E2); [apply nth_In; lia|]. cbn [fst snd].
      assert (G : forall T (l : list T) p a, length l = (k + t)%nat -> firstn (k + S j) l = p ++ [a] -> nth_error l (k + j) = Some a /\ p = firstn (k + j) l).
      { intros T l p a Hl Hp. destruct (nth_error l (k + j)) as [b|] eqn:Eb; [|apply nth_error_None in Eb; lia].
        replace (k + S j)%nat with (S (k + j)) in Hp by lia. rewrite (firstn_S_nth l (k + j) b Eb) in Hp. apply app_inj_tail in Hp. destruct Hp as [-> ->]. auto. }
      rewrite Nx in E1. rewrite Ny in E2. destruct (G _ _ _ _ B E1) as [G1 ->]. destruct (G _ _ _ _ D E2) as [G2 ->].
      exists x, v. auto.
    - apply nth_ext with (d := d) (d' := mkCall (firstn (k + 1) (samples s)) (firstn (k + 1) (observations s)) (c_m (nth 0 cs' d)) (Z.of_nat 0) (c_cur (nth 0 cs' d)));
        [rewrite map_length, seq_length; exact L|].
      intros j Hj. rewrite L in Hj.
      pose proof (map_nth (fun j => mkCall (firstn (k + S j) (samples s)) (firstn (k + S j) (observations s)) (c_m (nth j cs' d)) (Z.of_nat j) (c_cur (nth j cs' d))) (seq 0 t) 0%nat j) as Q.
      cbn [fst snd]. rewrite Q. rewrite seq_nth by lia. cbn [Nat.add]. destruct (N j Hj) as (Nx & Ny & Nt). rewrite <- Nx, <- Ny, <- Nt. destruct (nth j cs' d); reflexivity.
  Qed.

  (** *** The files *)
  Context {V A P : Type}.
  Variable mu : M -> vec -> V.
  Variable sigma : M -> vec -> A.
  Variable acqui : M -> Z -> vec -> A.
  Variables (k_params m_params : M -> P).
  Variable afun_mu : V -> A.
  Variable afun : vec -> A.
  Variable abs_diff : A -> A -> A.

  Lemma run_log_calls {T} (f : call M -> list (row T)) (g : nat -> T) (cl : nat -> call M) t :
    (forall j, (j < t)%nat -> f (cl j) = header (Z.of_nat j) ++ [Row (Z.of_nat j) (g j)]) ->
    flat_map f (map cl (seq 0 t)) = run_log t g.
  Proof.
    intro H. rewrite flat_map_map.
    assert (Q : forall n, (n <= t)%nat -> flat_map (fun j => f (cl j)) (seq 0 n) = run_log n g).
    { induction n as [|n IH]; intro Hn; [reflexivity|]. rewrite seq_S, flat_map_app, IH by lia. cbn [flat_map Nat.add]. rewrite app_nil_r, H by lia.
      destruct n as [|n]; [reflexivity|]. unfold run_log, header. rewrite (seq_S (S n)), map_app.
      destruct (Z.eqb_spec (Z.of_nat (S n)) 0); [lia|reflexivity]. }
    apply Q. lia.
  Qed.
  Lemma firstn_back {T} (l : list T) n a : nth_error l n = Some a -> back (firstn (S n) l) = Some a /\ exists b r, firstn (S n) l = b :: r.
  Proof.
    intro H. rewrite (firstn_S_nth l n a H). split; [apply back_app|]. destruct (firstn n l) as [|b r]; [exists a, []|exists b, (r ++ [a])]; reflexivity.
  Qed.

  (** C62: with [x j], [y j] the sample and observation of iteration [j], and [it j] the model and iteration number the
      acquisition function had when it proposed [x j]: every file has one header and one line per iteration, labelled
      0, 1, ...;
      - gp_prediction_differences.dat: the prediction at [x j] of that model (which has not seen [y j]), the value of
        [y j], and their distance;
      - gp_acquisitions.dat: mean and variance predicted there, and the value of the very acquisition function that
        was maximised;
      - gp_kernel_hparams.dat, gp_mean_hparams.dat: the parameters of that model *)
  Theorem C62_model_logs : forall cs os m w s, history os -> run_ops cs os (new_bo m w) = Some s ->
    let t := Z.to_nat (tot s) in
    let k := (length (samples s) - t)%nat in
    let x := fun j => nth (k + j) (samples s) [] in
    let y := fun j => nth (k + j) (observations s) [] in
    exists it : nat -> M * Z,
      (forall j, (j < t)%nat -> chosen_with s k j (it j)) /\
      model_log (stat_pred_diff mu afun_mu afun abs_diff) (trace s) =
        run_log t (fun j => let p := afun_mu (mu (fst (it j)) (x j)) in Some (p, afun (y j), abs_diff p (afun (y j)))) /\
      model_log (stat_acquisitions mu sigma acqui afun_mu) (trace s) =
        run_log t (fun j => (afun_mu (mu (fst (it j)) (x j)), sigma (fst (it j)) (x j), acqui (fst (it j)) (snd (it j)) (x j))) /\
      model_log (stat_params k_params) (trace s) = run_log t (fun j => k_params (fst (it j))) /\
      model_log (stat_params m_params) (trace s) = run_log t (fun j => m_params (fst (it j))).
  Proof.
    intros cs os m w s Hh Hr t k x y. destruct (calls_of_history cs os m w s Hh Hr) as (k' & t' & it & Et & Lx & Ly & Hc & Ec).
    assert (t = t') by (unfold t; lia). subst t'. assert (k = k') by (unfold k; lia). subst k'.
    exists it. split; [exact Hc|].
    assert (Hb : forall j, (j < t)%nat -> back (firstn (k + S j) (samples s)) = Some (x j) /\ back (firstn (k + S j) (observations s)) = Some (y j) /\
        exists b r, firstn (k + S j) (observations s) = b :: r).
    { intros j Hj. destruct (Hc j Hj) as (a & v & Ha & Hv & _). replace (k + S j)%nat with (S (k + j)) by lia.
      destruct (firstn_back _ _ _ Ha) as [-> _]. destruct (firstn_back _ _ _ Hv) as [-> Q].
      assert (x j = a) as -> by (apply nth_error_nth; exact Ha). assert (y j = v) as -> by (apply nth_error_nth; exact Hv). auto. }
    unfold model_log. rewrite Ec. repeat split; apply run_log_calls; intros j Hj; destruct (Hb j Hj) as (B1 & B2 & b & r & B3).
    - unfold stat_pred_diff. cbn [c_xs c_ys c_m c_tot]. rewrite B3, <- B3, B1, B2. reflexivity.
    - unfold stat_acquisitions. cbn [c_xs c_ys c_m c_tot c_cur]. rewrite B1. reflexivity.
    - unfold stat_params. cbn [c_xs c_ys c_m c_tot]. rewrite B3. reflexivity.
    - unfold stat_params. cbn [c_xs c_ys c_m c_tot]. rewrite B3. reflexivity.
  Qed.

  (** C62: the console shows every iteration: its sample, the value of its observation and the incumbent's value *)
  Theorem C62_console : forall cs os m w s (af : vec -> F), history os -> run_ops cs os (new_bo m w) = Some s ->
    Forall notnan (map af (observations s)) ->
    let t := Z.to_nat (tot s) in
    let k := (length (samples s) - t)%nat in
    exists best : nat -> nat, (forall j, (j < t)%nat -> incumbent af (observations s) (k + j + 1) (best j)) /\
      model_log (stat_console af) (trace s) =
        map (fun j => (Z.of_nat j, Some (nth (k + j) (samples s) [], af (nth (k + j) (observations s) []), af (nth (best j) (observations s) [])))) (seq 0 t).
  Proof.
    intros cs os m w s af Hh Hr Hn t k. destruct (calls_of_history cs os m w s Hh Hr) as (k' & t' & it & Et & Lx & Ly & Hc & Ec).
    assert (t = t') by (unfold t; lia). subst t'. assert (k = k') by (unfold k; lia). subst k'.
    set (best := fun j => max_element (map af (firstn (k + S j) (observations s)))).
    assert (Hi : forall j, (j < t)%nat -> incumbent af (observations s) (k + j + 1) (best j)).
    { intros j Hj. unfold incumbent. replace (k + j + 1)%nat with (k + S j)%nat by lia. apply max_element_spec.
      - intro E0. apply (f_equal (@length _)) in E0. rewrite map_length, firstn_length in E0. cbn in E0. lia.
      - rewrite <- firstn_map. apply Forall_forall. intros v Hv. rewrite Forall_forall in Hn. apply Hn. rewrite <- (firstn_skipn (k + S j)). apply in_or_app; auto. }
    exists best. split; [exact Hi|]. unfold model_log. rewrite Ec, flat_map_map.
    assert (Q : forall (T : Type) (l : list nat) (f : nat -> list T) g, (forall j, In j l -> f j = [g j]) -> flat_map f l = map g l).
    { clear. intros T l f g H. induction l as [|a l IH]; [reflexivity|]. cbn. rewrite (H a (or_introl eq_refl)), IH; [reflexivity|]. intros b Hb. apply H. now right. }
    apply Q. intros j Hj. apply in_seq in Hj. destruct (Hc j ltac:(lia)) as (a & v & Ha & Hv & _).
    destruct (Hi j ltac:(lia)) as (u & Hu & _). rewrite nth_error_map in Hu. replace (k + j + 1)%nat with (k + S j)%nat in Hu by lia.
    destruct (nth_error (firstn (k + S j) (observations s)) (best j)) as [b|] eqn:Eb; [|discriminate].
    assert (Eb' : nth_error (observations s) (best j) = Some b).
    { rewrite <- (firstn_skipn (k + S j) (observations s)). rewrite nth_error_app1; [exact Eb|]. apply nth_error_Some. congruence. }
    unfold stat_console. cbn [c_xs c_ys c_m c_tot]. fold (best j). rewrite Eb. clear Eb.
    replace (k + S j)%nat with (S (k + j)) by lia.
    destruct (firstn_back _ _ _ Ha) as [-> _]. destruct (firstn_back _ _ _ Hv) as [-> (b' & r & Er)]. rewrite Er.
    assert (Q1 := nth_error_nth _ _ ([] : vec) Ha). assert (Q2 := nth_error_nth _ _ ([] : vec) Hv). assert (Q3 := nth_error_nth _ _ ([] : vec) Eb'). rewrite Q1, Q2, Q3. reflexivity.
  Qed.

  (** C62: in any run, the file gp_<n>.dat written in an iteration shows, for every point of the grid and for no other,
      the predictions of the model the acquisition function had in this iteration, and the values of that function *)
  Theorem C62_gp_files : forall cs os m w s xs dim q, run_ops cs os (new_bo m w) = Some s -> In q (stat_calls 0 (trace s)) -> (0 < dim)%nat ->
    exists rows, stat_gp mu sigma acqui xs dim q = Some (c_tot q, rows) /\ length rows = (length xs ^ dim)%nat /\
      (forall p, on_grid xs dim p <-> exists r, In r rows /\ fst (fst (fst r)) = p) /\
      (forall p a b c, In (p, a, b, c) rows -> a = mu (c_m q) p /\ b = sigma (c_m q) p /\ c = acqui (c_m q) (c_cur q) p) /\
      exists X Y x v, In (EvAcq X Y (c_m q) (c_cur q) x) (trace s) /\ c_xs q = X ++ [x] /\ c_ys q = Y ++ [v].
  Proof.
    intros cs os m w s xs dim q Hr Hq Hd. pose proof (chunks_proposed _ (run_chunks cs os m w s Hr)) as Pr. rewrite Forall_forall in Pr.
    destruct (Pr q Hq) as (X & Y & x & v & I1 & _ & E1 & E2).
    unfold stat_gp. destruct (grid_sampling xs dim) as [pts|] eqn:Eg; [|destruct dim; [lia|discriminate]].
    destruct (C11_grid_points xs dim pts Eg) as (G1 & _ & G3).
    eexists. split; [reflexivity|]. split; [rewrite map_length; exact G3|]. split; [|split].
    - intro p. rewrite <- G1. split.
      + intro Hp. eexists. split; [apply (in_map (fun p => (p, mu (c_m q) p, sigma (c_m q) p, acqui (c_m q) (c_cur q) p))), Hp|reflexivity].
      + intros (r & Hin & <-). apply in_map_iff in Hin. destruct Hin as (p & <- & Hp). exact Hp.
    - intros p a b c Hin. apply in_map_iff in Hin. destruct Hin as (p' & Ep & _). injection Ep as <- <- <- <-. auto.
    - exists X, Y, x, v. auto.
  Qed.
End Runs.

(** ** With the Gaussian process: what is logged is a prediction *)
Section Gp.
Variables (sf2 l noise0 : R) (kk : nat) (opt : bool) (C : CKern) (M : Mean).
Hypotheses (Hs : (0 < sf2)%R) (Hl : (0 < l)%R) (HC : In C (kernels sf2 l kk)) (Hn : (0 <= noise0)%R) (Ho : opt = true -> (0 < noise0)%R) (HM : means M).
Notation K := (BaseKernel C noise0 opt).
Context {W E : Type}.
Variables (din dout : nat).
Hypotheses (Din : (0 < din)%nat) (Dout : (0 < dout)%nat).
Variables (hpo : hp_opt) (hp_period : Z).
Variable eps : R.
Variable iterations : Z.
Hypothesis Heps : (0 <= eps)%R.
Hypothesis Hhp : (0 < hp_period)%Z -> hpo <> NoLFOpt /\ (hpo = MeanLFOpt \/ hpo = KernelMeanLFOpt -> (0 < m_hsize M (m_new M dout))%nat).
Variables junk1 junk2 : W -> nat -> nat -> R.
Variable tick : W -> W.
Variable sfun : W -> F64.vec -> (F64.vec + E) * W.
Variable acq : W -> outcome (gp K M) -> Z -> F64.vec * W.
Variable init_n : nat.
Variable init_pt : nat -> W -> F64.vec * W.
Hypothesis H_sfun : forall w x v w', length x = din -> sfun w x = (inl v, w') -> length v = dout.
Hypothesis H_acq : forall w m c, point din (fst (acq w m c)).
Hypothesis H_init : forall i w, point din (fst (init_pt i w)).
(** const member functions of the GP at a point of doubles; any aggregator *)
Definition gp_predict (m : outcome (gp K M)) (x : F64.vec) : outcome (KernelModel.vec * R) := bind m (fun g => query K M g (map F64R.fval x)).
Context {A : Type}.
Variable afun_mu : outcome (KernelModel.vec * R) -> A.
Variable afun : F64.vec -> A.
Variable abs_diff : A -> A -> A.

(** C62: line [j] of gp_prediction_differences.dat compares the observation of iteration [j] with the prediction, at its
    sample, of the exact posterior of the [k + j] earlier samples: the observation itself was not used *)
Theorem C62_predictions_precede_observations : forall cs os w s, history os ->
  run_ops sfun (gm_fresh K M din dout) (gm_compute K M) (gm_add K M junk1 junk2 tick)
    (gm_hp K M hpo (fun _ f init => rprop_R f eps iterations init) tick) acq init_n init_pt hp_period
    cs os (new_bo (Done (gp_default K M)) w) = Some s ->
  let t := Z.to_nat (tot s) in
  let k := (length (samples s) - t)%nat in
  exists ms : nat -> outcome (gp K M),
    (forall j, (j < t)%nat -> exact K M din dout (0 <? hp_period) (firstn (k + j) (samples s)) (firstn (k + j) (observations s)) (ms j)) /\
    model_log (stat_pred_diff gp_predict afun_mu afun abs_diff) (trace s) =
      run_log t (fun j => let p := afun_mu (gp_predict (ms j) (nth (k + j) (samples s) [])) in
                          let o := afun (nth (k + j) (observations s) []) in Some (p, o, abs_diff p o)).
Proof.
  intros cs os w s Hh Hr t k.
  destruct (C62_model_logs sfun (gm_fresh K M din dout) (gm_compute K M) (gm_add K M junk1 junk2 tick)
    (gm_hp K M hpo (fun _ f init => rprop_R f eps iterations init) tick) acq init_n init_pt hp_period gp_predict (fun _ _ => afun []) (fun _ _ _ => afun []) (fun _ => tt) (fun _ => tt)
    afun_mu afun abs_diff cs os _ w s Hh Hr) as (it & Hc & Hp & _).
  exists (fun j => fst (it j)). split; [|exact Hp].
  assert (Hf : Forall (fine_op din dout) os).
  { destruct Hh as (r & f & os' & -> & Ho'). constructor; [exact I|]. eapply Forall_impl; [|exact Ho']. intros o (n & ->). exact I. }
  pose proof (C61_limbo sf2 l noise0 kk opt C M Hs Hl HC Hn Ho HM din dout Din Dout hpo hp_period eps iterations Heps Hhp junk1 junk2 tick sfun acq init_n init_pt
    H_sfun H_acq H_init cs os w s Hf Hr) as Q.
  intros j Hj. destruct (Hc j Hj) as (x & v & _ & _ & I1 & _). rewrite Forall_forall in Q. exact (Q _ I1).
Qed.
End Gp.

(** a history with a resumed call; the "model" is the list of its data, and predicts their number *)
Example C62_ex : exists s, Example_logs.run Example_logs.os = Some s /\ history Example_logs.os /\
  model_log (stat_pred_diff (fun (m : Example_logs.M) _ => Z.of_nat (length m)) (fun z => z) (fun y => if flt (fofZ 5) (hd fnan y) then 7 else 4) (fun a b => Z.abs (a - b))) (trace s) =
    [Header; Row 0 (Some (2, 7, 5)); Row 1 (Some (3, 4, 1)); Row 2 (Some (4, 7, 3)); Row 3 (Some (5, 4, 1))] /\
  model_log (stat_acquisitions (fun (m : Example_logs.M) _ => Z.of_nat (length m)) (fun _ _ => 0) (fun _ c _ => c) (fun z => z)) (trace s) =
    [Header; Row 0 (2, 0, 0); Row 1 (3, 0, 1); Row 2 (4, 0, 0); Row 3 (5, 0, 1)].
Proof. eexists. split; [vm_compute; reflexivity|]. split; [exact Example_logs.logs_history|]. split; vm_compute; reflexivity. Qed.
