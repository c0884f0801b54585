(** The iterations of optimize() after the first one of each call: their number, their sample lists and the
    iteration number given to the acquisition function, in every run of the optimizer. *)
From Coq Require Import ZArith List Bool Lia.
From Coq Require Import Floats.SpecFloat.
From Verif Require Import F64 BOModel BOSpec BOFacts BOCount.
Import ListNotations.
Local Open Scope nat_scope.

(** the samples after each iteration completed since the last reset whose iteration number was at least 1;
    the first component is the number given to the last acquisition function *)
Definition later_step {M E} (acc : Z * list (list vec)) (e : event M E) : Z * list (list vec) :=
  match e with
  | EvReset => (fst acc, [])
  | EvAcq _ _ _ c _ => (c, snd acc)
  | EvStat xs _ _ _ => (fst acc, if Z.leb 1 (fst acc) then snd acc ++ [xs] else snd acc)
  | _ => acc
  end.
Definition later_of {M E} (tr : list (event M E)) : Z * list (list vec) := fold_left later_step tr (0%Z, []).
Definition later {M E} (tr : list (event M E)) : list (list vec) := snd (later_of tr).
(** the calls of optimize() since the last reset, the resetting one included *)
Definition calls_step {M E} (n : Z) (e : event M E) : Z := match e with EvReset => 1%Z | EvCall _ => (n + 1)%Z | _ => n end.
Definition calls {M E} (tr : list (event M E)) : Z := fold_left calls_step tr 0%Z.

Section Later.
  Context {W M E : Type}.
  Variable sfun : W -> vec -> (vec + E) * W.
  Variable m_fresh : M.
  Variable m_compute : W -> M -> list vec -> list vec -> M * W.
  Variable m_add : W -> M -> vec -> vec -> M * W.
  Variable m_hp : W -> M -> M * W.
  Variable acq : W -> M -> Z -> vec * W.
  Variable init_n : nat.
  Variable init_pt : nat -> W -> vec * W.
  Variable hp_period : Z.
  Notation st := (bo W M E).
  Notation run_init := (run_init sfun init_pt).
  Notation init_phase := (init_phase sfun init_n init_pt).
  Notation iteration := (iteration sfun m_add m_hp acq hp_period).
  Notation loop := (loop sfun m_add m_hp acq hp_period).
  Notation optimize := (optimize sfun m_fresh m_compute m_add m_hp acq init_n init_pt hp_period).
  Notation run_op := (run_op sfun m_fresh m_compute m_add m_hp acq init_n init_pt hp_period).
  Notation run_ops := (run_ops sfun m_fresh m_compute m_add m_hp acq init_n init_pt hp_period).

  Definition ginv (tr : list (event M E)) (S : list vec) : Prop :=
    (forall xs, In xs (later tr) -> exists r, S = xs ++ r) /\
    (forall p, occ (map (fun xs => last xs []) (later tr)) p <= occ S p) /\
    (forall l1 xs l2, later tr = l1 ++ xs :: l2 -> forall p, occ (map (fun xs => last xs []) l1) p <= occ (removelast xs) p) /\
    (forall xs, In xs (later tr) -> exists X Y g c q, xs = X ++ [q] /\ In (EvAcq X Y g c q) tr /\ (1 <= c <= Z.of_nat (length X))%Z).
  (** all states; the states of the loop, where the number of the iteration is [c] *)
  Definition GInv (s : st) : Prop := ginv (trace s) (samples s) /\ (iters (trace s) <= Z.of_nat (length (later (trace s))) + calls (trace s))%Z.
  Definition GInvL (s : st) : Prop := ginv (trace s) (samples s) /\ exists c, cur s = Some c /\ (0 <= c <= Z.of_nat (length (samples s)))%Z /\
    (iters (trace s) + (if Z.eqb c 0 then 1 else 0) <= Z.of_nat (length (later (trace s))) + calls (trace s))%Z.
  Definition g_states (r : result W M E) : Prop := match r with Ret s | Running s | Throw s _ => GInv s | UninitRead => True end.
  Lemma loop_ginv s : GInvL s -> GInv s.
  Proof. intros (A & c & _ & _ & B). split; auto. destruct (Z.eqb c 0); lia. Qed.

  Definition quiet (e : event M E) : Prop := match e with EvStat _ _ _ _ | EvReset | EvCall _ => False | _ => True end.
  Lemma quiet_facts es : Forall quiet es -> forall tr, later (tr ++ es) = later tr /\ iters (tr ++ es) = iters tr /\ calls (tr ++ es) = calls tr.
  Proof.
    intros Hq. induction es as [|e es IH] using rev_ind; intros tr; [now rewrite app_nil_r|].
    apply Forall_app in Hq. destruct Hq as (H1 & H2). destruct (IH H1 tr) as (I1 & I2 & I3). inversion H2 as [|? ? He _]; subst.
    rewrite app_assoc. unfold later, later_of, iters, calls in *. rewrite !(fold_left_app _ (tr ++ es)). cbn [fold_left]. rewrite I2, I3.
    destruct e; cbn in *; try tauto; rewrite I1; auto.
  Qed.
  Lemma g_quiet tr S es T : Forall quiet es -> ginv tr S -> ginv (tr ++ es) (S ++ T).
  Proof.
    intros Hq (A & B & C & D). destruct (quiet_facts es Hq tr) as (E0 & _). unfold ginv. rewrite E0. split; [|split; [|split]].
    - intros xs Hx. destruct (A xs Hx) as (r & ->). exists (r ++ T). now rewrite app_assoc.
    - intros p. rewrite count_occ_app. specialize (B p). lia.
    - exact C.
    - intros xs Hx. destruct (D xs Hx) as (X & Y & g & c & q & H1 & H2 & H3). exists X, Y, g, c, q. split; auto. split; auto. apply in_or_app. now left.
  Qed.
  Lemma G_quiet s s' es T : trace s' = trace s ++ es -> samples s' = samples s ++ T -> Forall quiet es -> GInv s -> GInv s'.
  Proof.
    intros Et Es Hq (A & B). unfold GInv. rewrite Et, Es. destruct (quiet_facts es Hq (trace s)) as (E1 & E2 & E3). rewrite E1, E2, E3. split; auto. now apply g_quiet.
  Qed.
  Lemma L_quiet s s' es T : trace s' = trace s ++ es -> samples s' = samples s ++ T -> cur s' = cur s -> Forall quiet es -> GInvL s -> GInvL s'.
  Proof.
    intros Et Es Ec Hq (A & c & B1 & B2 & B3). unfold GInvL. rewrite Et, Es, Ec. destruct (quiet_facts es Hq (trace s)) as (E1 & E2 & E3). rewrite E1, E2, E3.
    split; [now apply g_quiet|]. exists c. split; auto. split; auto. rewrite app_length. lia.
  Qed.
  Lemma g_eval s x : match eval_and_add sfun s x with Ret s' => (GInv s -> GInv s') /\ (GInvL s -> GInvL s') | Throw s' _ => GInv s -> GInv s' | _ => False end.
  Proof.
    unfold eval_and_add. destruct (sfun (world s) x) as [[v|e] w] eqn:Es.
    - unfold add_new_sample. destruct (is_nan_or_inf v) eqn:Ev.
      + apply G_quiet with [EvEval x (inl v)] []; [reflexivity|cbn; now rewrite app_nil_r|repeat constructor].
      + split; [apply G_quiet with [EvEval x (inl v)] [x]|apply L_quiet with [EvEval x (inl v)] [x]]; try reflexivity; repeat constructor.
    - apply G_quiet with [EvEval x (inr e)] []; [reflexivity|cbn; now rewrite app_nil_r|repeat constructor].
  Qed.
  Lemma g_init_run : forall k i s, GInvL s -> match run_init k i s with Ret s' => GInvL s' | Throw s' _ | Running s' => GInv s' | UninitRead => True end.
  Proof.
    induction k as [|k IH]; intros i s H; cbn [BOModel.run_init]; [exact H|].
    destruct (init_pt i (world s)) as [x w]. pose proof (g_eval (set_world s w) x) as He.
    assert (H' : GInvL (set_world s w)) by exact H.
    destruct (eval_and_add sfun (set_world s w) x); cbn in *; try tauto. apply IH. tauto. apply He. now apply loop_ginv.
  Qed.
  Lemma g_init reset s : GInv s -> match init_phase reset s with Ret s' => GInvL s' | Throw s' _ | Running s' => GInv s' | UninitRead => True end.
  Proof.
    intros (A & B). unfold BOModel.init_phase. set (s2 := if reset then _ else _).
    assert (H2 : GInvL s2).
    { assert (E1 : forall l, later (trace s ++ EvCall reset :: l) = snd (fold_left later_step l (later_of (trace s)))) by (intros l; unfold later, later_of; rewrite fold_left_app; reflexivity).
      assert (E2 : forall l, iters (trace s ++ EvCall reset :: l) = fold_left iters_step l (iters (trace s))) by (intros l; unfold iters; rewrite fold_left_app; reflexivity).
      assert (E3 : forall l, calls (trace s ++ EvCall reset :: l) = fold_left calls_step l (calls (trace s) + 1)%Z) by (intros l; unfold calls; rewrite fold_left_app; reflexivity).
      unfold s2, GInvL. destruct reset; cbn [log clear_data set_tot set_cur trace samples cur].
      - rewrite <- app_assoc. cbn [app]. split.
        + unfold ginv. rewrite E1. cbn. split; [tauto|]. split; [auto|]. split; [|tauto]. intros l1 xs l2 Hl. exfalso. destruct l1; discriminate.
        + exists 0%Z. split; auto. split; [cbn; lia|]. rewrite E1, E2, E3. cbn. lia.
      - split.
        + destruct A as (A1 & A2 & A3 & A4). unfold ginv. rewrite E1. cbn [fold_left]. change (snd (later_of (trace s))) with (later (trace s)). split; auto. split; auto. split; auto.
          intros xs Hx. destruct (A4 xs Hx) as (X & Y & g & c & q & H1 & H2 & H3). exists X, Y, g, c, q. split; auto. split; auto. apply in_or_app. now left.
        + exists 0%Z. split; auto. split; [lia|]. rewrite E1, E2, E3. cbn [fold_left]. change (snd (later_of (trace s))) with (later (trace s)). cbn. lia. }
    destruct (Z.eqb (tot s2) 0); [|exact H2]. apply g_init_run. apply L_quiet with s2 [EvInit] []; try reflexivity; auto; [cbn; now rewrite app_nil_r|repeat constructor].
  Qed.
  Lemma g_iter c s : GInvL s -> cur s = Some c -> match iteration c s with Ret s' => GInvL s' | Throw s' _ | Running s' => GInv s' | UninitRead => True end.
  Proof.
    intros HL Ec. destruct (iteration_spec sfun m_add m_hp acq hp_period c s) as (x & w1 & r & w2 & Ea & Es & H). cbv zeta in H.
    destruct H as [(v & m & w3 & m' & w4 & trhp & -> & Hfin & Em & Eh & ->)|(_ & ->)].
    - destruct HL as (G0 & c' & Ec' & Rc & Cn). assert (c' = c) as -> by congruence.
      assert (Ht : Forall quiet trhp) by (destruct (_ && _); [destruct Eh as [_ ->]; repeat constructor|destruct Eh as (_ & _ & ->); constructor]).
      unfold GInvL. cbn [trace samples cur].
      match goal with |- ginv (trace s ++ [?a; ?b; ?c] ++ trhp) ?S' /\ _ => replace (trace s ++ [a; b; c] ++ trhp) with (((trace s ++ [a; b]) ++ [c]) ++ trhp) by (now rewrite <- !app_assoc);
        set (ea := a); set (eb := b); set (ec := c) end.
      assert (Q2 : Forall quiet [ea; eb]) by repeat constructor. set (tr := trace s ++ [ea; eb]).
      destruct (quiet_facts trhp Ht (tr ++ [ec])) as (E1 & E2 & E3). rewrite E1, E2, E3.
      destruct (quiet_facts [ea; eb] Q2 (trace s)) as (F1 & F2 & F3). fold tr in F1, F2, F3.
      assert (C2 : ginv tr (samples s)) by (rewrite <- (app_nil_r (samples s)); apply g_quiet; auto).
      assert (Ef : fst (later_of tr) = c) by (unfold tr, later_of; rewrite fold_left_app; reflexivity).
      assert (Est : later (tr ++ [ec]) = if Z.leb 1 c then later tr ++ [samples s ++ [x]] else later tr).
      { unfold later, later_of. rewrite fold_left_app. cbn [fold_left]. unfold ec at 1. cbn [later_step snd]. change (fold_left later_step tr (0%Z, [])) with (later_of tr). rewrite Ef. reflexivity. }
      assert (Eit : iters (tr ++ [ec]) = (iters (trace s) + 1)%Z) by (rewrite <- F2; unfold iters; rewrite fold_left_app; reflexivity).
      assert (Eca : calls (tr ++ [ec]) = calls (trace s)) by (rewrite <- F3; unfold calls; rewrite fold_left_app; reflexivity).
      rewrite Est, Eit, Eca. split.
      + rewrite <- (app_nil_r (samples s ++ [x])). apply g_quiet; auto. destruct C2 as (A2 & B2 & D2 & G2). unfold ginv. rewrite Est.
        destruct (Z.leb_spec 1 c) as [Hc|Hc].
        * split; [|split; [|split]].
          -- intros xs Hx. apply in_app_or in Hx. destruct Hx as [Hx|[<-|[]]]; [|exists []; now rewrite app_nil_r]. destruct (A2 xs Hx) as (rr & ->). exists (rr ++ [x]). now rewrite app_assoc.
          -- intros p. rewrite map_app, !count_occ_app. cbn [map]. rewrite last_last. specialize (B2 p). now apply Nat.add_le_mono_r.
          -- intros l1 xs l2 Hl p. destruct l2 as [|y l2 _] using rev_ind.
             ++ apply app_inj_tail in Hl. destruct Hl as (<- & <-). rewrite removelast_last. apply B2.
             ++ rewrite app_comm_cons, app_assoc in Hl. apply app_inj_tail in Hl. destruct Hl as (Hl & _). now apply D2 with l2.
          -- intros xs Hx. apply in_app_or in Hx. destruct Hx as [Hx|[<-|[]]].
             ++ destruct (G2 xs Hx) as (X & Y & g & c' & q & H1 & H2 & H3). exists X, Y, g, c', q. split; auto. split; auto. apply in_or_app. now left.
             ++ exists (samples s), (observations s), (model s), c, x. split; auto. split; [|lia]. unfold tr. rewrite !in_app_iff. cbn [In]. left. right. left. reflexivity.
        * split; [|split; [|split]]; auto.
          -- intros xs Hx. destruct (A2 xs Hx) as (rr & ->). exists (rr ++ [x]). now rewrite app_assoc.
          -- intros p. rewrite count_occ_app. specialize (B2 p). lia.
          -- intros xs Hx. destruct (G2 xs Hx) as (X & Y & g & c' & q & H1 & H2 & H3). exists X, Y, g, c', q. split; auto. split; auto. apply in_or_app. now left.
      + exists (c + 1)%Z. split; auto. rewrite app_length. cbn [length]. split; [lia|].
        destruct (Z.eqb_spec (c + 1) 0); [lia|]. destruct (Z.leb_spec 1 c) as [Hc|Hc].
        * rewrite app_length, F1. cbn [length]. destruct (Z.eqb_spec c 0); lia.
        * rewrite F1. destruct (Z.eqb_spec c 0); lia.
    - apply G_quiet with s [EvAcq (samples s) (observations s) (model s) c x; EvEval x r] []; [cbn; now rewrite <- app_assoc|cbn; now rewrite app_nil_r|repeat constructor|now apply loop_ginv].
  Qed.
  Lemma g_loop cs : forall fuel s, GInvL s -> g_states (loop cs fuel s).
  Proof.
    induction fuel as [|fuel IH]; intros s H; cbn [BOModel.loop]; [now apply loop_ginv|].
    destruct (cur s) as [c|] eqn:Ec; [|exact I]. destruct (stop_now cs s) as [b w]. set (s0 := log _ _).
    assert (H0 : GInvL s0) by (apply L_quiet with s [EvStop (samples s) (observations s) (model s) c b] []; try reflexivity; auto; [cbn; now rewrite app_nil_r|repeat constructor]).
    destruct b; [now apply loop_ginv|]. pose proof (g_iter c s0 H0 Ec) as Hi. destruct (iteration c s0); auto.
  Qed.
  Lemma g_optimize cs fuel reset s : GInv s -> g_states (optimize cs fuel reset s).
  Proof.
    intro H. unfold BOModel.optimize. pose proof (g_init reset s H) as Hi. destruct (init_phase reset s) as [s1| | |]; auto.
    apply g_loop. destruct (observations s1) as [|o os] eqn:Eo; [exact Hi|].
    destruct (m_compute (world s1) (model s1) (samples s1) _) as [m w]. exact Hi.
  Qed.
  Theorem run_later cs os m w s : run_ops cs os (new_bo m w) = Some s -> GInv s.
  Proof.
    intros Hr. assert (H : GInv (new_bo m w)).
    { split; [|cbn; lia]. unfold ginv. cbn. split; [tauto|]. split; [auto|]. split; [|tauto]. intros l1 xs l2 Hl. exfalso. destruct l1; discriminate. }
    revert Hr. generalize (new_bo m w : st), H. clear H. induction os as [|o os IH]; intros s0 H; cbn [BOModel.run_ops].
    - intro Hr. injection Hr as <-. exact H.
    - assert (Hs : g_states (run_op cs o s0)).
      { destruct o as [reset fuel|x|x y]; cbn [BOModel.run_op] in *; [now apply g_optimize| |].
        - pose proof (g_eval s0 x) as He. destruct (eval_and_add sfun s0 x); cbn; tauto.
        - unfold add_new_sample. destruct (is_nan_or_inf y); [exact H|]. apply G_quiet with s0 [EvAdd x y] [x]; try reflexivity; auto. repeat constructor. }
      destruct (run_op cs o s0); cbn [g_states] in Hs; try (now apply IH); intro Hr; [|discriminate]. injection Hr as <-. exact Hs.
  Qed.
End Later.
