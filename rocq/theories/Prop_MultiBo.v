(** C58: the multi-objective optimizers (BoMulti, Ehvi, Nsbo) and the Pareto front statistic. *)
From Coq Require Import ZArith List Bool Permutation Lia.
From Verif Require Import F64 OptModel OptFacts ParetoModel Prop_Pareto BOModel BOSpec BOFacts MultiBoModel.
Import ListNotations.
Open Scope Z_scope.

(** ** Specification *)
(** [front] holds exactly the pairs (sample, observation) whose observation no other observation dominates, each as often as
    it occurs, and every other pair is dominated by one of [front] *)
Definition front_of (xs ys : list vec) (front : list (vec * vec)) : Prop :=
  exists left_out, Permutation (front ++ left_out) (combine xs ys) /\
    (forall a b, In a front -> In b (combine xs ys) -> ~ dominates (snd b) (snd a)) /\
    (forall b, In b left_out -> exists a, In a front /\ dominates (snd a) (snd b)).

(** iterations completed since the last call of [optimize] *)
Definition since_call {M E} (tr : list (event M E)) : Z :=
  fold_left (fun n e => match e with EvCall _ => 0 | EvStat _ _ _ _ => n + 1 | _ => n end) tr 0.

(** the traces of correct optimizers: [right xs ys m x] tells that [x] is a right choice given the samples [xs], the
    observations [ys] and the state [m] of the models *)
Inductive good_trace {G E : Type} (right : list vec -> list vec -> multi G -> vec -> Prop) : list (event (multi G) E) -> Prop :=
| gt_nil : good_trace right []
| gt_call tr b : good_trace right tr -> good_trace right (tr ++ [EvCall b])
| gt_reset tr : good_trace right tr -> good_trace right (tr ++ [EvReset])
| gt_init tr evs : good_trace right tr -> forallb is_eval evs = true -> good_trace right (tr ++ EvInit :: evs)
| gt_stop tr xs ys m b : good_trace right tr -> kept tr = combine xs ys -> good_trace right (tr ++ [EvStop xs ys m (since_call tr) b])
  (* a complete iteration: the point chosen on the current data is evaluated, stored and shown to the statistics *)
| gt_iter tr xs ys m x v : good_trace right tr -> kept tr = combine xs ys -> right xs ys m x -> forallb finite_num v = true ->
    good_trace right (tr ++ [EvAcq xs ys m (since_call tr) x; EvEval x (inl v); EvStat (xs ++ [x]) (ys ++ [v]) m (iters tr)])
  (* an iteration ended by an exception *)
| gt_fail tr xs ys m x r : good_trace right tr -> kept tr = combine xs ys -> right xs ys m x -> bad_result r ->
    good_trace right (tr ++ [EvAcq xs ys m (since_call tr) x; EvEval x r]).

Local Arguments iters : simpl never.
Local Arguments since_call : simpl never.
Local Arguments kept : simpl never.

Section Base.
  Context {W G E : Type}.
  Variable sfun : W -> vec -> (vec + E) * W.
  Variable init_n : nat.
  Variable init_pt : nat -> W -> vec * W.
  Variable d : nat.
  Variable right : list vec -> list vec -> multi G -> vec -> Prop.
  Notation st := (bo W (multi G) E).

  (** the state of the object: what is stored is what was evaluated, all observations have [d] objectives, every iteration so
      far was right, and they are counted *)
  Definition regular (s : st) : Prop :=
    InvPair s /\ Forall (fun o => length o = d) (observations s) /\ good_trace right (trace s) /\ tot s = iters (trace s).
  (** the end of a call: [optimize] returns when the criteria say so, after as many iterations as [cur] tells *)
  Definition ended (r : result W (multi G) E) : Prop :=
    match r with
    | Ret s => regular s /\ cur s = Some (since_call (trace s)) /\
               exists tr xs ys m c, trace s = tr ++ [EvStop xs ys m c true]
    | Throw s _ | Running s => regular s
    | UninitRead => False
    end.

  Hypothesis sfun_dim : forall w x v w', sfun w x = (inl v, w') -> length v = d.

  Lemma since_app (a b : list (event (multi G) E)) : since_call (a ++ b) =
    fold_left (fun n e => match e with EvCall _ => 0 | EvStat _ _ _ _ => n + 1 | _ => n end) b (since_call a).
  Proof. apply fold_left_app. Qed.
  Lemma evals_iters (evs : list (event (multi G) E)) : forallb is_eval evs = true -> forall n, fold_left iters_step evs n = n.
  Proof. induction evs as [|e l IH]; intros H n; [reflexivity|]. cbn in H. apply andb_prop in H. destruct H as [H1 H2]. destruct e; try discriminate. cbn. now apply IH. Qed.
  Lemma evals_since (evs : list (event (multi G) E)) : forallb is_eval evs = true -> forall n,
    fold_left (fun n e => match e with EvCall _ => 0 | EvStat _ _ _ _ => n + 1 | _ => n end) evs n = n.
  Proof. induction evs as [|e l IH]; intros H n; [reflexivity|]. cbn in H. apply andb_prop in H. destruct H as [H1 H2]. destruct e; try discriminate. cbn. now apply IH. Qed.

  Lemma run_init_ok k : forall i (s : st), InvPair s -> Forall (fun o => length o = d) (observations s) ->
    exists evs s', (run_init sfun init_pt k i s = Ret s' /\ length (samples s') = (length (samples s) + k)%nat \/ exists e, run_init sfun init_pt k i s = Throw s' e) /\
      InvPair s' /\ Forall (fun o => length o = d) (observations s') /\ trace s' = trace s ++ evs /\ forallb is_eval evs = true /\
      tot s' = tot s /\ cur s' = cur s.
  Proof.
    induction k as [|k IH]; intros i s HP HD; cbn [run_init].
    - exists [], s. split; [left; split; [reflexivity|lia]|]. repeat (split; [assumption || reflexivity || now rewrite app_nil_r|]). reflexivity.
    - destruct (init_pt i (world s)) as [x w]. destruct (eval_and_add_spec sfun (set_world s w) x) as (r & w' & Hf & Hc). cbv zeta in Hc.
      destruct Hc as [(v & -> & Hfin & ->)|(Hb & ->)].
      + set (s1 := push (log (set_world (set_world s w) w') (EvEval x (inl v))) x v).
        assert (HP1 : InvPair s1) by (apply (InvPair_push (set_world s w)); assumption).
        assert (HD1 : Forall (fun o => length o = d) (observations s1)) by (cbn; apply Forall_app; split; [exact HD|]; constructor; [eapply sfun_dim; exact Hf|constructor]).
        destruct (IH (S i) s1 HP1 HD1) as (evs & s' & Hr & A & B & C & D & F0 & F1). exists (EvEval x (inl v) :: evs), s'.
        split; [destruct Hr as [[Hr Hl]|Hr]; [left; split; [exact Hr|]; rewrite Hl; cbn; rewrite app_length; cbn; lia|right; exact Hr]|].
        split; [exact A|]. split; [exact B|]. split; [rewrite C; cbn; now rewrite <- app_assoc|]. split; [exact D|]. split; [exact F0|exact F1].
      + exists [EvEval x r], (log (set_world (set_world s w) w') (EvEval x r)). split; [right; eexists; reflexivity|].
        split; [apply (InvPair_bad (set_world s w)); assumption|]. split; [exact HD|]. repeat split.
  Qed.

  Definition iter_ok (r : result W (multi G) E) : Prop :=
    match r with
    | Ret s' => regular s' /\ samples s' <> [] /\ cur s' = Some (since_call (trace s'))
    | Throw s' _ => regular s'
    | _ => False
    end.
  Lemma finish_ok x (s : st) m w : regular s -> right (samples s) (observations s) m x ->
    iter_ok (finish sfun (since_call (trace s)) x (log (set_world (set_model s m) w) (EvAcq (samples s) (observations s) m (since_call (trace s)) x))).
  Proof.
    intros ((Hl & Hk & Hn) & HD & HT & HI) HR. unfold finish. set (c := since_call (trace s)). set (s1 := log _ _).
    assert (HP1 : InvPair s1) by (apply InvPair_log; [reflexivity|]; split; [exact Hl|split; [exact Hk|exact Hn]]).
    destruct (eval_and_add_spec sfun s1 x) as (r & w' & Hf & Hc). cbv zeta in Hc. destruct Hc as [(v & -> & Hfin & ->)|(Hb & ->)].
    - cbn [samples observations model tot push log set_world set_model].
      assert (Hg : good_trace right (((trace s ++ [EvAcq (samples s) (observations s) m c x]) ++ [EvEval x (inl v)]) ++ [EvStat (samples s ++ [x]) (observations s ++ [v]) m (tot s)])).
      { rewrite <- !app_assoc. cbn [app]. rewrite HI. apply gt_iter; try assumption. now symmetry. }
      split; [split; [|split; [|split]]|split].
      + apply InvPair_log; [reflexivity|]. now apply (InvPair_push s1).
      + cbn. apply Forall_app. split; [exact HD|]. constructor; [eapply sfun_dim; exact Hf|constructor].
      + exact Hg.
      + cbn. rewrite !iters_app. cbn. rewrite HI. reflexivity.
      + cbn. intro E0. apply app_eq_nil in E0. destruct E0 as [_ E0]. discriminate.
      + cbn. rewrite !since_app. reflexivity.
    - split; [now apply (InvPair_bad s1)|]. split; [exact HD|]. split.
      + cbn. rewrite <- app_assoc. cbn. apply gt_fail; try assumption. now symmetry.
      + cbn. rewrite !iters_app. exact HI.
  Qed.

  Variable iteration : Z -> st -> result W (multi G) E -> Prop.
  Hypothesis iteration_ok : forall s, regular s -> cur s = Some (since_call (trace s)) -> samples s <> [] ->
    (exists r, iteration (since_call (trace s)) s r) /\ forall r, iteration (since_call (trace s)) s r -> iter_ok r.

  Lemma mloop_ok cs : forall fuel s, regular s -> cur s = Some (since_call (trace s)) -> samples s <> [] ->
    (exists r, mloop iteration cs fuel s r) /\ forall r, mloop iteration cs fuel s r -> ended r.
  Proof.
    induction fuel as [|fuel IH]; intros s HJ Hc Hne.
    - split; [eexists; reflexivity|]. intros r ->. exact HJ.
    - cbn [mloop]. rewrite Hc. destruct (samples s) as [|x0 xs0] eqn:Es; [congruence|]. rewrite <- Es in *.
      destruct (stop_now cs s) as [b w]. set (s0 := log (set_world s w) _).
      assert (HJ0 : regular s0).
      { destruct HJ as (A & B & C & D). split; [now apply InvPair_log|]. split; [exact B|]. split; [|cbn; rewrite iters_app; exact D].
        apply gt_stop; [exact C|]. destruct A as (_ & A & _). now symmetry. }
      assert (Hc0 : since_call (trace s0) = since_call (trace s)) by (cbn; now rewrite since_app).
      destruct b.
      { split; [eexists; reflexivity|]. intros r ->. split; [exact HJ0|]. split; [rewrite Hc0; exact Hc|]. repeat eexists. }
      rewrite <- Hc0. destruct (iteration_ok s0 HJ0 ltac:(rewrite Hc0; exact Hc) Hne) as ((r0 & Hr0) & Hall). split.
      + specialize (Hall r0 Hr0). destruct r0 as [s'|s' e|s'|]; try contradiction.
        * destruct Hall as (HJ' & Hne' & Hc'). destruct (IH s' HJ' Hc' Hne') as ((r & Hr) & _). exists r, (Ret s'). split; [exact Hr0|exact Hr].
        * exists (Throw s' e), (Throw s' e). split; [exact Hr0|reflexivity].
      + intros r (r1 & Hr1 & Hr). specialize (Hall r1 Hr1). destruct r1 as [s'|s' e|s'|]; try contradiction.
        * destruct Hall as (HJ' & Hne' & Hc'). destruct (IH s' HJ' Hc' Hne') as (_ & Hs). now apply Hs.
        * rewrite Hr. exact Hall.
  Qed.
  Lemma moptimize_ok cs fuel reset s : regular s -> (reset = true \/ tot s = 0 -> (1 <= init_n)%nat) -> (reset = false -> tot s <> 0 -> samples s <> []) ->
    (exists r, moptimize sfun init_n init_pt iteration cs fuel reset s r) /\ forall r, moptimize sfun init_n init_pt iteration cs fuel reset s r -> ended r.
  Proof.
    intros HJ Hn Hs. unfold moptimize, init_phase. set (s1 := set_cur (log s (EvCall reset)) 0).
    assert (HJ1 : regular s1).
    { destruct HJ as (A & B & C & D). split; [apply (InvPair_log s (EvCall reset)); [reflexivity|exact A]|]. split; [exact B|].
      split; [cbn; now constructor|cbn; rewrite iters_app; exact D]. }
    set (s2 := if reset then log (clear_data (set_tot s1 0)) EvReset else s1).
    assert (HJ2 : regular s2).
    { unfold s2. destruct reset; [|exact HJ1]. destruct HJ1 as (A & B & C & D). split; [|split; [|split]].
      - split; [reflexivity|]. split; [simpl; rewrite kept_app; reflexivity|constructor].
      - constructor.
      - apply gt_reset. exact C.
      - cbn. rewrite !iters_app. reflexivity. }
    assert (Hc2 : cur s2 = Some (since_call (trace s2))) by (unfold s2; destruct reset; cbn; rewrite !since_app; reflexivity).
    destruct (Z.eqb_spec (tot s2) 0) as [Ht|Ht].
    - destruct HJ2 as (A & B & C & D).
      destruct (run_init_ok init_n 0 (log s2 EvInit) ltac:(now apply InvPair_log) B) as (evs & s' & Hr & HP & HD & HT & HE & HC & HCc).
      assert (HJ' : regular s').
      { split; [exact HP|]. split; [exact HD|]. rewrite HT, HC. cbn. rewrite <- app_assoc. cbn. split; [now constructor|].
        rewrite iters_app. cbn. rewrite evals_iters by exact HE. exact D. }
      destruct Hr as [[-> Hl]|(e & ->)]; [|split; [eexists; reflexivity|]; intros r ->; exact HJ'].
      apply mloop_ok; [exact HJ'| |].
      + rewrite HCc, HT. cbn. rewrite <- app_assoc. cbn. rewrite since_app. cbn. rewrite evals_since by exact HE. exact Hc2.
      + intro E0. rewrite E0 in Hl. cbn in Hl. assert ((1 <= init_n)%nat); [|lia]. apply Hn. unfold s2 in Ht. destruct reset; [now left|right; exact Ht].
    - apply mloop_ok; [exact HJ2|exact Hc2|]. unfold s2 in *. destruct reset; [exfalso; apply Ht; reflexivity|]. apply Hs; [reflexivity|exact Ht].
  Qed.
  Lemma new_regular m w : regular (new_bo m w).
  Proof. split; [apply new_bo_pair|]. split; [constructor|]. split; [constructor|reflexivity]. Qed.
End Base.

Section C58.
  Context {W G E : Type}.
  Variable sfun : W -> vec -> (vec + E) * W.
  Variable g_new : nat -> G.
  Variable g_compute : G -> list vec -> list vec -> G.
  Variable acqui : list G -> list (F * F) -> vec -> F.
  Variable inner : W -> (vec -> F) -> list vec -> list vec * W.
  Variable nsga : option (W -> list G -> list ppoint * W).
  Variable rand_mod : nat -> W -> nat * W.
  Variable init_n : nat.
  Variable init_pt : nat -> W -> vec * W.
  Variable d : nat.

  (** model [j] was computed afresh from all samples and the [j]-th components of all observations *)
  Definition trained (xs ys : list vec) (ms : list G) : Prop :=
    length ms = d /\ forall j, (j < d)%nat ->
      nth_error ms j = Some (g_compute (g_new (length (hd [] xs))) xs (map (fun y => [nth j y f0]) ys)).
  (** [x] is the best of the results of the inner optimizer started once from every point of the front, or the fallback
      [(0)] when no result has a value above the lowest float *)
  Definition chosen (acq : vec -> F) (starts : list vec) (x : vec) : Prop :=
    exists w props w', inner w acq starts = (props, w') /\
      ((In x props /\ flt f_float_lowest (acq x) = true /\ forall y, In y props -> flt (acq x) (acq y) = false) \/
       (x = [f0] /\ forall y, In y props -> flt f_float_lowest (acq y) = false)).
  Definition ehvi_right (xs ys : list vec) (m : multi G) (x : vec) : Prop :=
    trained xs ys (models m) /\ front_of xs ys (map fst (pdata m)) /\
    chosen (acqui (models m) (map (fun p => (nth 0 (p_objs p) f0, nth 1 (p_objs p) f0)) (pdata m))) (map p_point (pdata m)) x.
  (** Nsbo: a point of the Pareto model whose predicted variances no other point of the Pareto model dominates, and the Pareto
      model was computed by NSGA-II on the models trained on the current data *)
  Definition nsbo_right (xs ys : list vec) (m : multi G) (x : vec) : Prop :=
    trained xs ys (models m) /\
    (exists ea w, nsga = Some ea /\ pmodel m = fst (ea w (models m))) /\
    exists p, In p (pmodel m) /\ x = p_point p /\ forall q, In q (pmodel m) -> ~ dominates (p_sigma q) (p_sigma p).

  Notation st := (bo W (multi G) E).
  Notation ehvi_iteration := (ehvi_iteration sfun g_new g_compute acqui inner nsga).
  Notation ehvi_optimize := (ehvi_optimize sfun g_new g_compute acqui inner nsga init_n init_pt).
  Notation nsbo_iteration := (nsbo_iteration sfun g_new g_compute nsga rand_mod).
  Notation nsbo_optimize := (nsbo_optimize sfun g_new g_compute nsga rand_mod init_n init_pt).

  Hypothesis sfun_dim : forall w x v w', sfun w x = (inl v, w') -> length v = d.
  Hypothesis d2 : (2 <= d)%nat.

  (** ** the models *)
  Lemma column ys j : Forall (fun o => length o = d) ys -> (j < d)%nat -> uni_obs ys j = map (fun y => [nth j y f0]) ys.
  Proof.
    intros H Hj. induction H as [|o ys Ho H IH]; [reflexivity|]. cbn. destruct (nth_error o j) as [v|] eqn:En.
    - cbn. f_equal; [|exact IH]. f_equal. symmetry. now apply nth_error_nth.
    - apply nth_error_None in En. lia.
  Qed.
  Lemma update_models_ok xs ys : xs <> [] -> length xs = length ys -> Forall (fun o => length o = d) ys ->
    exists ms, update_models g_new g_compute xs ys = Some ms /\ trained xs ys ms.
  Proof.
    intros Hx Hl Hy. destruct xs as [|x xs]; [congruence|]. destruct ys as [|y0 ys]; [discriminate|].
    assert (H0 : length y0 = d) by (inversion Hy; assumption). unfold update_models. rewrite H0.
    replace (existsb (fun o => (d <? length o)%nat) (y0 :: ys)) with false.
    2:{ symmetry. apply not_true_iff_false. rewrite existsb_exists. intros (o & Ho & Hlt). rewrite Forall_forall in Hy. apply Nat.ltb_lt in Hlt. specialize (Hy o Ho). lia. }
    cbv zeta. replace (forallb _ _) with true.
    2:{ symmetry. apply forallb_forall. intros u Hu. apply in_map_iff in Hu. destruct Hu as (j & <- & Hj). apply in_seq in Hj.
        rewrite column by (assumption || lia). rewrite map_length. apply Nat.eqb_eq. lia. }
    eexists. split; [reflexivity|]. split; [now rewrite !map_length, seq_length|]. intros j Hj.
    rewrite map_map. rewrite nth_error_map. rewrite (nth_error_nth' (seq 0 d) 0%nat) by (rewrite seq_length; exact Hj).
    rewrite seq_nth by exact Hj. cbn [option_map Nat.add hd]. now rewrite column.
  Qed.

  (** ** the Pareto set of the data *)
  Lemma map_fst_combine {A B} (l : list A) (l' : list B) : length l = length l' -> map fst (combine l l') = l.
  Proof. revert l'. induction l as [|a l IH]; intros [|b l'] H; try discriminate; [reflexivity|]. cbn. f_equal. apply IH. now injection H. Qed.
  Lemma packed_front n (xs ys : list vec) (p : list ppoint) : xs <> [] -> length xs = length ys -> Forall (fun o => length o = d) ys -> Forall (Forall is_number) ys ->
    packed n xs ys = Some p ->
    (exists r, pareto_set p_objs p (Val r)) /\ forall q, pareto_set p_objs p q -> exists front, q = Val front /\ front_of xs ys (map fst front).
  Proof.
    intros Hx Hl Hd Hn Hp. unfold packed, pack_data in Hp. rewrite repeat_length, Hl, Nat.eqb_refl in Hp. cbn [andb] in Hp. injection Hp as <-.
    set (z := repeat (repeat f0 n) (length ys)). set (p := combine (combine xs ys) z).
    assert (Hlz : length z = length ys) by apply repeat_length.
    assert (Hlc : length (combine xs ys) = length ys) by (rewrite combine_length; lia).
    assert (Hmf : map fst p = combine xs ys) by (apply map_fst_combine; lia).
    assert (Hgood : Forall (fun q => good d (p_objs q)) p).
    { apply Forall_forall. intros q Hq. assert (Hin : In (p_objs q) ys).
      { unfold p_objs. assert (In (fst q) (combine xs ys)) by (rewrite <- Hmf; now apply in_map). destruct (fst q) as [a b] eqn:Eq. eapply in_combine_r. exact H. }
      rewrite Forall_forall in Hd, Hn. split; [now apply Hd|]. eapply Forall_impl; [|apply Hn, Hin]. intros a Ha. intros ->. exact Ha. }
    assert (Hne : p <> []). { intro E0. rewrite E0 in Hmf. cbn in Hmf. rewrite <- Hmf in Hlc. destruct ys; [|discriminate]. destruct xs; [congruence|discriminate]. }
    destruct (C44_pareto_set p_objs d d2 p Hne Hgood) as (Hex & Hub & Hres). split; [exact Hex|].
    intros [front|] Hq; [|contradiction]. exists front. split; [reflexivity|]. destruct (Hres front Hq) as (lo & HP & HN & HL & _).
    exists (map fst lo). split; [|split].
    - pose proof (Permutation_map fst HP) as HP'. rewrite map_app in HP'. refine (Permutation_trans HP' _). apply Permutation_refl'. exact Hmf.
    - intros a b Ha Hb. assert (Hb' : In b (map fst p)) by (apply (eq_ind_r (In b) Hb Hmf)). clear Hb. rename Hb' into Hb. apply in_map_iff in Ha, Hb. destruct Ha as (a' & <- & Ha), Hb as (b' & <- & Hb). now apply HN.
    - intros b Hb. apply in_map_iff in Hb. destruct Hb as (b' & <- & Hb). destruct (HL b' Hb) as (a & Ha & Hd'). exists (fst a). split; [now apply in_map|exact Hd'].
  Qed.
  Lemma packed_ok n (xs ys : list vec) : length xs = length ys -> exists p, packed n xs ys = Some p.
  Proof. intro Hl. unfold packed, pack_data. rewrite repeat_length, Hl, Nat.eqb_refl. eexists. reflexivity. Qed.
  Lemma pareto_data_ok xs ys : xs <> [] -> length xs = length ys -> Forall (fun o => length o = d) ys -> Forall (Forall is_number) ys ->
    (exists r, pareto_data_of xs ys (Val r)) /\ forall q, pareto_data_of xs ys q -> exists front, q = Val front /\ front_of xs ys (map fst front).
  Proof.
    intros Hx Hl Hd Hn. unfold pareto_data_of. destruct ys as [|y ys0] eqn:Ey; [destruct xs; [congruence|discriminate]|]. rewrite <- Ey in *.
    destruct (packed_ok (length y) xs ys Hl) as (p & Hp). rewrite Hp. now apply (packed_front (length y)).
  Qed.
  Lemma front_objs xs ys front : Forall (fun o => length o = d) ys -> front_of xs ys (map fst front) -> Forall (fun p => length (p_objs p) = d) front.
  Proof.
    intros Hd (lo & HP & _). apply Forall_forall. intros p Hp. rewrite Forall_forall in Hd. apply Hd.
    assert (In (fst p) (combine xs ys)). { eapply Permutation_in; [exact HP|]. apply in_or_app. left. now apply in_map. }
    unfold p_objs. destruct (fst p) as [a b]. eapply in_combine_r; eassumption.
  Qed.
  Lemma pop_ok front : Forall (fun p => length (p_objs p) = d) front -> pop_of front = Some (map (fun p => (nth 0 (p_objs p) f0, nth 1 (p_objs p) f0)) front).
  Proof.
    induction 1 as [|p front Hp H IH]; [reflexivity|]. cbn [pop_of map]. rewrite IH. destruct (p_objs p) as [|a [|b l]]; cbn in Hp; try lia. reflexivity.
  Qed.

  (** the inner optimizer returns one point per start *)
  Definition inner_len : Prop := forall w f l, length (fst (inner w f l)) = length l.
  Lemma ehvi_iteration_ok s : inner_len -> regular d ehvi_right s -> cur s = Some (since_call (trace s)) -> samples s <> [] ->
    (exists r, ehvi_iteration (since_call (trace s)) s r) /\ forall r, ehvi_iteration (since_call (trace s)) s r -> iter_ok d ehvi_right r.
  Proof.
    intros Hil HJ Hc Hne. pose proof HJ as ((Hlen & Hkept & Hnum) & Hdim & Htr & Htot). set (c := since_call (trace s)) in *.
    unfold MultiBoModel.ehvi_iteration, update_pareto_model.
    destruct (update_models_ok (samples s) (observations s) Hne Hlen Hdim) as (ms & Hms & Htrain). rewrite Hms.
    set (s1o := match nsga with None => _ | Some _ => _ end).
    assert (Hs1 : exists s1, s1o = Some s1 /\ (exists m1 w1, s1 = set_world (set_model s m1) w1) /\ samples s1 = samples s /\ observations s1 = observations s /\ cur s1 = cur s /\ models (model s1) = ms).
    { unfold s1o. destruct nsga as [ea|].
      - destruct (ea (world s) ms) as [fr w]. eexists. split; [reflexivity|]. split; [eexists; eexists; reflexivity|]. repeat split.
      - eexists. split; [reflexivity|]. split; [exists (mkMulti ms (pmodel (model s)) (pdata (model s))), (world s); destruct s; reflexivity|]. repeat split. }
    destruct Hs1 as (s1 & -> & (m1 & w1 & Es1) & Es & Eo & Ec & Em). rewrite Es, Eo, Em.
    destruct (pareto_data_ok (samples s) (observations s) Hne Hlen Hdim Hnum) as ((fr0 & Hfr0) & Hall).
    assert (Hcase : forall front, front_of (samples s) (observations s) (map fst front) ->
      let m := mkMulti ms (pmodel (model s1)) front in let s2 := set_model s1 m in
      exists pop, pop_of front = Some pop /\
      let acq := acqui ms pop in
      let '(props, w) := inner (world s2) acq (map p_point front) in
      forall best, par_max_tbb ehvi_comp (ehvi_body acq props) ehvi_init (length front) best ->
        iter_ok d ehvi_right (finish sfun c (fst best) (log (set_world s2 w) (EvAcq (samples s2) (observations s2) m c (fst best))))).
    { intros front Hf m s2. exists (map (fun p => (nth 0 (p_objs p) f0, nth 1 (p_objs p) f0)) front).
      split; [apply pop_ok; eapply front_objs; eassumption|]. intro acq.
      destruct (inner (world s2) acq (map p_point front)) as [props w] eqn:Ei. intros best Hb.
      replace (log (set_world s2 w) _) with (log (set_world (set_model s m) w) (EvAcq (samples s) (observations s) m c (fst best))) by (subst s1; reflexivity).
      apply (finish_ok sfun d ehvi_right sfun_dim (fst best) s m w HJ).
      split; [exact Htrain|]. split; [exact Hf|]. cbn [pdata models]. fold acq. exists (world s2), props, w. split; [exact Ei|].
      assert (Hlp : length props = length front). { pose proof (Hil (world s2) acq (map p_point front)) as Hl. rewrite Ei in Hl. cbn in Hl. now rewrite map_length in Hl. }
      destruct (par_max_best snd ehvi_comp (fun a b => eq_refl) (ehvi_body acq props) ehvi_init (ltac:(cbn; discriminate) : notnan (snd ehvi_init)) (length front) best Hb)
        as (Hwho & Hnn & Hinit & Hmax).
      assert (Hmax' : forall y, In y props -> flt (snd best) (acq y) = false).
      { intros y Hy. destruct (In_nth props y [] Hy) as (i & Hi & <-). apply (Hmax i). lia. }
      destruct (par_max_strict snd ehvi_comp (fun a b => eq_refl) (ehvi_body acq props) ehvi_init (length front) best Hb) as [->|Hstrict].
      - right. split; [reflexivity|exact Hmax'].
      - destruct Hwho as [->|(i & Hi & ->)]; [exfalso; rewrite flt_irrefl in Hstrict; discriminate|].
        cbn [fst snd ehvi_body ehvi_init] in *. left. split; [apply nth_In; lia|]. split; [exact Hstrict|exact Hmax']. }
    split.
    - destruct (Hall _ Hfr0) as (front & Hv & Hf). injection Hv as <-. specialize (Hcase fr0 Hf). cbv zeta in Hcase. destruct Hcase as (pop & Hpop & Hrun).
      cbn [set_model world] in Hrun. destruct (inner (world s1) (acqui ms pop) (map p_point fr0)) as [props w] eqn:Ei.
      eexists. exists (Val fr0). split; [exact Hfr0|]. cbv zeta. cbn [models set_model world]. rewrite Hpop, Ei.
      exists (par_max_seq ehvi_comp (ehvi_body (acqui ms pop) props) ehvi_init (length fr0)). split; [apply par_max_seq_tbb|reflexivity].
    - intros r (q & Hq & Hr). destruct (Hall q Hq) as (front & -> & Hf). specialize (Hcase front Hf). cbv zeta in Hcase, Hr. destruct Hcase as (pop & Hpop & Hrun).
      rewrite Hpop in Hr. cbn [models set_model world] in Hr, Hrun. destruct (inner (world s1) (acqui ms pop) (map p_point front)) as [props w] eqn:Ei.
      destruct Hr as (best & Hb & ->). apply (Hrun best Hb).
  Qed.


  (** C58: a call of Ehvi::optimize on an object in a regular state (a new one, for instance) that has or gets at least one
      sample: some execution exists, no execution is undefined, and in every execution (any schedule, any inner optimizer,
      any stopping criteria, also one that throws) the state is regular again: data as evaluated, and each iteration used
      models trained on all current data, the Pareto set of all current data, and evaluated the best proposal *)
  Theorem C58_ehvi_partial : inner_len -> forall cs fuel reset s,
    regular d ehvi_right s -> (reset = true \/ tot s = 0 -> (1 <= init_n)%nat) -> (reset = false -> tot s <> 0 -> samples s <> []) ->
    (exists r, ehvi_optimize cs fuel reset s r) /\ forall r, ehvi_optimize cs fuel reset s r -> ended d ehvi_right r.
  Proof.
    intros Hil cs fuel reset s HJ Hn Hs. unfold MultiBoModel.ehvi_optimize. apply (moptimize_ok sfun init_n init_pt d ehvi_right sfun_dim); try assumption.
    intros s0 H0 H1 H2. now apply ehvi_iteration_ok.
  Qed.

  (** NSGA-II returns a non-empty list of points with [d] variances that are numbers *)
  Definition nsga_ok : Prop := exists ea, nsga = Some ea /\ forall w ms, fst (ea w ms) <> [] /\ Forall (fun p => good d (p_sigma p)) (fst (ea w ms)).
  Definition rand_ok : Prop := forall n w, (0 < n)%nat -> (fst (rand_mod n w) < n)%nat.
  Lemma nsbo_iteration_ok s : nsga_ok -> rand_ok -> regular d nsbo_right s -> cur s = Some (since_call (trace s)) -> samples s <> [] ->
    (exists r, nsbo_iteration (since_call (trace s)) s r) /\ forall r, nsbo_iteration (since_call (trace s)) s r -> iter_ok d nsbo_right r.
  Proof.
    intros (ea & Hea & Hfr) Hrand HJ Hc Hne. pose proof HJ as ((Hlen & Hkept & Hnum) & Hdim & Htr & Htot). set (c := since_call (trace s)) in *.
    unfold MultiBoModel.nsbo_iteration, update_pareto_model.
    destruct (update_models_ok (samples s) (observations s) Hne Hlen Hdim) as (ms & Hms & Htrain). rewrite Hms, Hea.
    destruct (ea (world s) ms) as [front w1] eqn:Ee. cbv zeta. cbn [model set_model pmodel samples observations models world].
    destruct (Hfr (world s) ms) as [Hn Hg]. rewrite Ee in Hn, Hg. cbn [fst] in Hn, Hg.
    destruct (C44_pareto_set p_sigma d d2 front Hn Hg) as ((r0 & Hr0) & Hub & Hall).
    set (m := mkMulti ms front (pdata (model s))).
    assert (Hcase : forall fv, pareto_set p_sigma front (Val fv) -> let '(k, w) := rand_mod (length fv) w1 in
       exists best, nth_error fv k = Some best /\ 
         iter_ok d nsbo_right (match finish sfun c (p_point best) (log (set_world (set_model (set_world s w1) m) w) (EvAcq (samples s) (observations s) m c (p_point best))) with
                    | Ret s' => match ms with _ :: _ :: _ => Ret s' | _ => UninitRead end | r' => r' end)).
    { intros fv Hfv. destruct (rand_mod (length fv) w1) as [k w] eqn:Er.
      destruct (Hall fv Hfv) as (lo & HP & HN & HL & _).
      assert (Hfn : fv <> []). { intros ->. destruct lo as [|y lo]; [apply Permutation_nil in HP; congruence|]. destruct (HL y (or_introl eq_refl)) as (? & [] & _). }
      assert (Hk : (k < length fv)%nat). { pose proof (Hrand (length fv) w1 ltac:(destruct fv; [congruence|cbn; lia])) as H. rewrite Er in H. exact H. }
      destruct (nth_error fv k) as [best|] eqn:En; [|apply nth_error_None in En; lia]. exists best. split; [reflexivity|].
      assert (Hm2 : exists a b l, ms = a :: b :: l). { destruct Htrain as [Hl _]. destruct ms as [|a [|b l]]; cbn in Hl; try lia. eauto. }
      destruct Hm2 as (ma & mb & ml & Hm2).
      assert (Hfin : iter_ok d nsbo_right (finish sfun c (p_point best) (log (set_world (set_model s m) w) (EvAcq (samples s) (observations s) m c (p_point best))))).
      { apply (finish_ok sfun d nsbo_right sfun_dim (p_point best) s m w HJ). split; [exact Htrain|]. split; [exists ea, (world s); split; [exact Hea|cbn; now rewrite Ee]|].
        exists best. assert (Hin : In best fv) by (eapply nth_error_In; exact En). split; [|split; [reflexivity|]].
        - cbn. eapply Permutation_in; [exact HP|]. apply in_or_app. now left.
        - cbn. intros q Hq. now apply HN. }
      revert Hfin. rewrite Hm2. cbv iota.
      change (log (set_world (set_model (set_world s w1) m) w)) with (log (set_world (set_model s m) w)).
      destruct (finish _ _ _ _); exact (fun H => H). }
    split.
    - specialize (Hcase r0 Hr0). destruct (rand_mod (length r0) w1) as [k w] eqn:Er. destruct Hcase as (best & Hb & _).
      eexists. exists (Val r0). split; [exact Hr0|]. cbv zeta. cbn [world set_model set_world]. rewrite Er, Hb. reflexivity.
    - intros r (q & Hq & Hr). destruct q as [fv|]; [|contradiction]. specialize (Hcase fv Hq). destruct (rand_mod (length fv) w1) as [k w] eqn:Er.
      destruct Hcase as (best & Hb & Hok). cbn [world set_model set_world] in Hr. rewrite Er, Hb in Hr. rewrite Hr. exact Hok.
  Qed.
  (** C58: the same for Nsbo::optimize, for every NSGA-II that returns at least one point *)
  Theorem C58_nsbo_partial : nsga_ok -> rand_ok -> forall cs fuel reset s,
    regular d nsbo_right s -> (reset = true \/ tot s = 0 -> (1 <= init_n)%nat) -> (reset = false -> tot s <> 0 -> samples s <> []) ->
    (exists r, nsbo_optimize cs fuel reset s r) /\ forall r, nsbo_optimize cs fuel reset s r -> ended d nsbo_right r.
  Proof.
    intros Hns Hr cs fuel reset s HJ Hn Hs. unfold MultiBoModel.nsbo_optimize. apply (moptimize_ok sfun init_n init_pt d nsbo_right sfun_dim); try assumption.
    intros s0 H0 H1 H2. now apply nsbo_iteration_ok.
  Qed.

  (** the statistic ParetoFront writes the Pareto set of all current data *)
  Theorem C58_pareto_front_stat (xs ys : list vec) : xs <> [] -> length xs = length ys -> Forall (fun o => length o = d) ys -> Forall (Forall is_number) ys ->
    (exists r, pareto_front_stat true xs ys r) /\ forall r, pareto_front_stat true xs ys r -> exists rows, r = Val rows /\ front_of xs ys rows.
  Proof.
    intros Hx Hl Hd Hn. unfold pareto_front_stat. destruct ys as [|y ys0] eqn:Ey; [destruct xs; [congruence|discriminate]|]. cbn [negb orb]. rewrite <- Ey in *.
    destruct (packed_ok (length ys) xs ys Hl) as (p & Hp). rewrite Hp.
    destruct (packed_front (length ys) xs ys p Hx Hl Hd Hn Hp) as ((r0 & Hr0) & Hall). split.
    - eexists. exists (Val r0). split; [exact Hr0|reflexivity].
    - intros r (q & Hq & ->). destruct (Hall q Hq) as (front & -> & Hf). eexists. split; [reflexivity|].
      replace (map (fun x => (p_point x, p_objs x)) front) with (map fst front); [exact Hf|]. apply map_ext. intros [[a b] z]. reflexivity.
  Qed.
End C58.

(** ** Where it is wrong *)
(** without initial samples the first iteration reads [_samples[0]] *)
Theorem C58_no_samples_refuted {W G E : Type} (sfun : W -> vec -> (vec + E) * W) g_new g_compute acqui inner nsga init_pt (m : multi G) (w : W) :
  forall cs fuel reset r, ehvi_optimize sfun g_new g_compute acqui inner nsga 0 init_pt cs (S fuel) reset (new_bo m w) r -> r = UninitRead.
Proof.
  intros cs fuel reset r H. unfold ehvi_optimize, moptimize, init_phase in H. destruct reset; cbn in H; destruct H as (r1 & -> & H); exact H.
Qed.
(** Nsbo compiled without the sferes library: the Pareto model is always empty, the first iteration is undefined *)
Theorem C58_nsbo_without_sferes_refuted {W G E : Type} (sfun : W -> vec -> (vec + E) * W) (g_new : nat -> G) g_compute rand_mod c (s : bo W (multi G) E) r :
  pmodel (model s) = [] -> nsbo_iteration sfun g_new g_compute None rand_mod c s r -> r = UninitRead.
Proof.
  intros Hp H. unfold nsbo_iteration, update_pareto_model in H. destruct (update_models g_new g_compute (samples s) (observations s)) as [ms|]; [|exact H].
  cbn [set_model model pmodel] in H. rewrite Hp in H. destruct H as (q & Hq & H). cbn in Hq. subst q. exact H.
Qed.

(** two objectives; the objective is (1,1) at the point 1 and (0,0) elsewhere; one initial point 0; the inner optimizer proposes 1 *)
Definition d_one (x : vec) : bool := match x with a :: _ => feq a f1 | [] => false end.
Definition d_sfun (w : unit) (x : vec) : (vec + unit) * unit := (inl (if d_one x then [f1; f1] else [f0; f0]), tt).
Definition d_new (_ : nat) : nat := O.
Definition d_compute (_ : nat) (xs _ : list vec) : nat := length xs.
Definition d_inner (w : unit) (_ : vec -> F) (l : list vec) : list vec * unit := (map (fun _ => [f1]) l, tt).
Definition d_init (_ : nat) (w : unit) : vec * unit := ([f0], tt).
Definition d_crits : list (@criterion unit (multi nat) unit) := [max_iterations 1].
Definition d_fresh : bo unit (multi nat) unit := new_bo (mkMulti [] [] []) tt.
Definition d_acq (v : F) (_ : list nat) (_ : list (F * F)) (_ : vec) : F := v.

Example C58_ehvi_nonvacuous :
  (forall w x v w', d_sfun w x = (inl v, w') -> length v = 2%nat) /\ inner_len d_inner /\
  regular 2 (ehvi_right d_new d_compute (d_acq f1) d_inner 2) d_fresh.
Proof.
  split; [|split].
  - intros w x v w' H. unfold d_sfun in H. injection H as <- _. destruct (d_one x); reflexivity.
  - intros w f l. apply map_length.
  - apply new_regular.
Qed.
(** an NSGA-II with two results, neither of which dominates the other *)
Definition d_ea (w : unit) (_ : list nat) : list ppoint * unit := ([(([f0], [f0; f0]), [f1; f0]); (([f1], [f1; f1]), [f0; f1])], tt).
Definition d_rand (n : nat) (w : unit) : nat * unit := (Nat.modulo 7 n, tt).
Example C58_nsbo_nonvacuous : nsga_ok (Some d_ea) 2 /\ rand_ok d_rand /\
  regular 2 (nsbo_right d_new d_compute (Some d_ea) 2) d_fresh.
Proof.
  split; [|split].
  - exists d_ea. split; [reflexivity|]. intros w ms. split; [discriminate|]. repeat constructor; discriminate.
  - intros n w Hn. cbn [d_rand fst]. apply Nat.mod_upper_bound. lia.
  - apply new_regular.
Qed.

Lemma single_front (p : ppoint) : length (p_objs p) = 2%nat -> Forall is_number (p_objs p) -> pareto_set p_objs [p] (Val [p]).
Proof.
  intros Hl Hn. assert (Hg : Forall (fun q => good 2 (p_objs q)) [p]).
  { constructor; [|constructor]. split; [exact Hl|]. eapply Forall_impl; [|exact Hn]. intros a Ha ->. exact Ha. }
  destruct (C44_pareto_set p_objs 2 (le_n _) [p] ltac:(discriminate) Hg) as ((r & Hr) & _ & Hall).
  destruct (Hall r Hr) as (lo & HP & HN & HL & _). destruct lo as [|y lo].
  - rewrite app_nil_r in HP. apply Permutation_sym, Permutation_length_1_inv in HP. now subst r.
  - exfalso. destruct (HL y (or_introl eq_refl)) as (z & Hz & _). apply Permutation_length in HP. rewrite app_length in HP. destruct r; [destruct Hz|]. cbn in HP. lia.
Qed.

Lemma demo_run (a : F) (x : vec) (v : F) (b : bool) : d_one x = b ->
  par_max_tbb ehvi_comp (ehvi_body (fun _ => a) [[f1]]) ehvi_init 1 (x, v) ->
  exists s', ehvi_optimize d_sfun d_new d_compute (d_acq a) d_inner None 1 d_init d_crits 2 true d_fresh (Ret s') /\
    samples s' = [[f0]; x] /\ observations s' = [[f0; f0]; if b then [f1; f1] else [f0; f0]] /\
    pdata (model s') = [([f0], [f0; f0], [f0; f0])].
Proof.
  intros Hb Hmax. unfold ehvi_optimize, moptimize. 
  match goal with |- context [init_phase ?a ?b ?c ?d ?e] => let q := eval vm_compute in (init_phase a b c d e) in
    replace (init_phase a b c d e) with q by (vm_compute; reflexivity) end. cbv iota.
  destruct b.
  all: eexists; split; [|split; [|split]].
  1, 5: cbn [mloop cur samples]; cbv beta zeta;
    match goal with |- context [stop_now ?cs ?s] => let q := eval vm_compute in (stop_now cs s) in replace (stop_now cs s) with q by (vm_compute; reflexivity); cbv iota beta zeta end;
    eexists; split;
    [ unfold ehvi_iteration; cbn [update_pareto_model log set_world samples observations model world];
      exists (Val [([f0], [f0; f0], [f0; f0])]); split; [exact (single_front ([f0], [f0; f0], [f0; f0]) eq_refl ltac:(repeat constructor))|];
      exists (x, v); split; [exact Hmax|]; unfold finish, eval_and_add, d_sfun; cbn [fst]; rewrite Hb; cbn; reflexivity
    | cbn; reflexivity ].
  all: reflexivity.
Qed.

(** after [optimize] returns, [pareto_data()] is not the Pareto set of the observations: the last sample is missing *)
Theorem C58_final_front_refuted : exists s',
  ehvi_optimize d_sfun d_new d_compute (d_acq f1) d_inner None 1 d_init d_crits 2 true d_fresh (Ret s') /\
  ~ front_of (samples s') (observations s') (map fst (pdata (model s'))).
Proof.
  destruct (demo_run f1 [f1] f1 true eq_refl) as (s' & Hr & Hs & Ho & Hp).
  { exact (red_scan _ _ _ 0 1 _). }
  exists s'. split; [exact Hr|]. rewrite Hs, Ho, Hp. intros (lo & _ & HN & _).
  apply (HN ([f0], [f0; f0]) ([f1], [f1; f1])); [now left|right; now left|]. split.
  - intros [|[|[|i]]] a b Ha Hb; cbn in Ha, Hb; try discriminate; injection Ha as <-; injection Hb as <-; reflexivity.
  - exists 0%nat, f1, f0. repeat split.
Qed.
(** an acquisition value that is not a number: the sample evaluated is the vector (0) of dimension 1, whatever the proposals *)
Theorem C58_fallback_refuted : exists s',
  ehvi_optimize d_sfun d_new d_compute (d_acq SpecFloat.S754_nan) d_inner None 1 d_init d_crits 2 true d_fresh (Ret s') /\
  nth_error (samples s') 1 = Some [f0] /\ forall w f l, ~ In [f0] (fst (d_inner w f l)).
Proof.
  destruct (demo_run SpecFloat.S754_nan [f0] f_float_lowest false eq_refl) as (s' & Hr & Hs & _).
  { exact (red_scan _ _ _ 0 1 _). }
  exists s'. split; [exact Hr|]. rewrite Hs. split; [reflexivity|]. intros w f l H. apply in_map_iff in H. destruct H as (y & Hy & _). discriminate.
Qed.
