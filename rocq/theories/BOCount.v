(** Completed iterations and stored samples: the sample lists of the iterations since the last reset, in every
    run of the optimizer. *)
From Coq Require Import ZArith List Bool Lia.
From Coq Require Import Floats.SpecFloat.
From Verif Require Import F64 BOModel BOSpec BOFacts.
Import ListNotations.
Local Open Scope nat_scope.

Definition f_dec : forall a b : F, {a = b} + {a <> b}.
Proof. decide equality; try apply Bool.bool_dec; try apply Pos.eq_dec; apply Z.eq_dec. Defined.
Definition vec_dec : forall a b : vec, {a = b} + {a <> b} := list_eq_dec f_dec.
Notation occ := (count_occ vec_dec).

(** the samples after each iteration completed since the last reset (the statistics are refreshed once in
    each iteration, after the new sample was stored) *)
Definition stats_step {M E} (acc : list (list vec)) (e : event M E) : list (list vec) :=
  match e with EvReset => [] | EvStat xs _ _ _ => acc ++ [xs] | _ => acc end.
Definition stats {M E} (tr : list (event M E)) : list (list vec) := fold_left stats_step tr [].
(** the samples chosen by them *)
Definition picks {M E} (tr : list (event M E)) : list vec := map (fun xs => last xs []) (stats tr).

Lemma stats_iters {M E} (tr : list (event M E)) : Z.of_nat (length (stats tr)) = iters tr.
Proof.
  unfold stats, iters. assert (H : forall (tr : list (event M E)) acc n, Z.of_nat (length acc) = n -> Z.of_nat (length (fold_left stats_step tr acc)) = fold_left iters_step tr n).
  { clear. induction tr as [|e tr IH]; intros acc n H; cbn [fold_left]; auto. apply IH. destruct e; cbn; auto. rewrite app_length. cbn. lia. }
  now apply H.
Qed.
Lemma stats_app {M E} (a b : list (event M E)) : stats (a ++ b) = fold_left stats_step b (stats a).
Proof. apply fold_left_app. Qed.

Section Count.
  Context {W M E : Type}.
  Variable sfun : W -> vec -> (vec + E) * W.
  Variable m_fresh : M.
  Variable m_compute : W -> M -> list vec -> list vec -> M * W.
  Variable m_add : W -> M -> vec -> vec -> M * W.
  Variable m_hp : W -> M -> M * W.
  Variable acq : W -> M -> Z -> vec * W.
  Variable init_n : nat.
  Variable init_pt : nat -> W -> vec * W.
  Variable hp_period : Z.
  Notation st := (bo W M E).
  Notation run_init := (run_init sfun init_pt).
  Notation init_phase := (init_phase sfun init_n init_pt).
  Notation iteration := (iteration sfun m_add m_hp acq hp_period).
  Notation loop := (loop sfun m_add m_hp acq hp_period).
  Notation optimize := (optimize sfun m_fresh m_compute m_add m_hp acq init_n init_pt hp_period).
  Notation run_op := (run_op sfun m_fresh m_compute m_add m_hp acq init_n init_pt hp_period).
  Notation run_ops := (run_ops sfun m_fresh m_compute m_add m_hp acq init_n init_pt hp_period).

  Definition cinv (tr : list (event M E)) (S : list vec) : Prop :=
    (forall xs, In xs (stats tr) -> exists r, S = xs ++ r) /\
    (forall p, occ (picks tr) p <= occ S p) /\
    (forall l1 xs l2, stats tr = l1 ++ xs :: l2 -> forall p, occ (map (fun xs => last xs []) l1) p <= occ (removelast xs) p) /\
    (forall xs, In xs (stats tr) -> exists X Y g c q, xs = X ++ [q] /\ In (EvAcq X Y g c q) tr).
  Definition CInv (s : st) : Prop := cinv (trace s) (samples s).
  Definition c_states (r : result W M E) : Prop := match r with Ret s | Running s | Throw s _ => CInv s | UninitRead => True end.

  (** events other than the statistics, more samples *)
  Lemma c_quiet tr S es T : Forall (fun e => match e with EvStat _ _ _ _ | EvReset => False | _ => True end) es -> cinv tr S -> cinv (tr ++ es) (S ++ T).
  Proof.
    intros Hq (A & B & C & D). assert (E0 : stats (tr ++ es) = stats tr).
    { rewrite stats_app. generalize (stats tr). induction Hq as [|e es He _ IH]; intros acc; cbn [fold_left]; auto. rewrite IH. destruct e; cbn in *; tauto. }
    unfold cinv, picks. rewrite E0. split; [|split; [|split]].
    - intros xs Hx. destruct (A xs Hx) as (r & ->). exists (r ++ T). now rewrite app_assoc.
    - intros p. rewrite count_occ_app. specialize (B p). unfold picks in B. lia.
    - exact C.
    - intros xs Hx. destruct (D xs Hx) as (X & Y & g & c & q & H1 & H2). exists X, Y, g, c, q. split; auto. apply in_or_app. now left.
  Qed.
  Lemma c_quiet0 tr S e : match e with EvStat _ _ _ _ | EvReset => False | _ => True end -> cinv tr S -> cinv (tr ++ [e]) S.
  Proof. intros He H. rewrite <- (app_nil_r S). apply c_quiet; auto. Qed.
  Lemma c_empty tr : stats tr = [] -> cinv tr [].
  Proof.
    intros H. unfold cinv, picks. rewrite H. split; [|split; [|split]]; cbn; try tauto; auto.
    - intros l1 xs l2 Hl. exfalso. destruct l1; discriminate.
  Qed.
  Lemma c_eval s x : CInv s -> c_states (eval_and_add sfun s x).
  Proof.
    intros C. unfold eval_and_add. destruct (sfun (world s) x) as [[v|e] w] eqn:Es; [|now apply c_quiet0].
    unfold add_new_sample. destruct (is_nan_or_inf v) eqn:Ev; cbn; [now apply c_quiet0|]. apply c_quiet; auto.
  Qed.
  Lemma c_init_run : forall k i s, CInv s -> c_states (run_init k i s).
  Proof.
    induction k as [|k IH]; intros i s H; cbn [BOModel.run_init]; [exact H|].
    destruct (init_pt i (world s)) as [x w]. pose proof (c_eval (set_world s w) x H) as He.
    destruct (eval_and_add _ _ x); cbn [c_states] in *; auto.
  Qed.
  Lemma c_init reset s : CInv s -> c_states (init_phase reset s).
  Proof.
    intros C. unfold BOModel.init_phase. set (s2 := if reset then _ else _).
    assert (H2 : CInv s2).
    { unfold s2, CInv. destruct reset; cbn.
      - apply c_empty. rewrite stats_app. reflexivity.
      - now apply c_quiet0. }
    destruct (Z.eqb (tot s2) 0); [|exact H2]. apply c_init_run. unfold CInv. cbn. now apply c_quiet0.
  Qed.
  Lemma c_iter c s : CInv s -> c_states (iteration c s).
  Proof.
    intros C. destruct (iteration_spec sfun m_add m_hp acq hp_period c s) as (x & w1 & r & w2 & Ea & Es & H). cbv zeta in H.
    destruct H as [(v & m & w3 & m' & w4 & trhp & -> & Hfin & Em & Eh & ->)|(_ & ->)].
    - cbn [c_states]. unfold CInv. cbn [trace samples].
      assert (Ht : Forall (fun e : event M E => match e with EvStat _ _ _ _ | EvReset => False | _ => True end) trhp).
      { destruct (_ && _); [destruct Eh as [_ ->]; repeat constructor|destruct Eh as (_ & _ & ->); constructor]. }
      match goal with |- cinv (trace s ++ [?a; ?b; ?c] ++ trhp) ?S' => replace (trace s ++ [a; b; c] ++ trhp) with ((((trace s ++ [a]) ++ [b]) ++ [c]) ++ trhp) by (now rewrite <- !app_assoc);
        set (ea := a); set (eb := b); set (ec := c) end.
      rewrite <- (app_nil_r (samples s ++ [x])). apply c_quiet; auto.
      assert (C2 : cinv ((trace s ++ [ea]) ++ [eb]) (samples s)) by (apply c_quiet0; [exact I|]; apply c_quiet0; [exact I|]; exact C).
      destruct C2 as (A2 & B2 & D2 & F2). set (tr := (trace s ++ [ea]) ++ [eb]) in *.
      assert (Est : stats (tr ++ [ec]) = stats tr ++ [samples s ++ [x]]) by (rewrite stats_app; reflexivity).
      unfold cinv, picks. rewrite Est. split; [|split; [|split]].
      + intros xs Hx. apply in_app_or in Hx. destruct Hx as [Hx|[<-|[]]]; [|exists []; now rewrite app_nil_r]. destruct (A2 xs Hx) as (rr & ->). exists (rr ++ [x]). now rewrite app_assoc.
      + intros p. rewrite map_app, !count_occ_app. cbn [map]. rewrite last_last. specialize (B2 p). unfold picks in B2. now apply Nat.add_le_mono_r.
      + intros l1 xs l2 Hl p. destruct l2 as [|y l2 _] using rev_ind.
        * apply app_inj_tail in Hl. destruct Hl as (<- & <-). rewrite removelast_last. apply B2.
        * rewrite app_comm_cons, app_assoc in Hl. apply app_inj_tail in Hl. destruct Hl as (Hl & _). now apply D2 with l2.
      + intros xs Hx. apply in_app_or in Hx. destruct Hx as [Hx|[<-|[]]].
        * destruct (F2 xs Hx) as (X & Y & g & c' & q & H1 & H2). exists X, Y, g, c', q. split; auto. apply in_or_app. now left.
        * exists (samples s), (observations s), (model s), c, x. split; auto. unfold tr. rewrite !in_app_iff. cbn [In]. left. left. right. left. reflexivity.
    - cbn [c_states]. unfold CInv. cbn [trace samples log]. repeat (apply c_quiet0; [exact I|]). exact C.
  Qed.
  Lemma c_loop cs : forall fuel s, CInv s -> c_states (loop cs fuel s).
  Proof.
    induction fuel as [|fuel IH]; intros s H; cbn [BOModel.loop]; [exact H|].
    destruct (cur s) as [c|]; [|exact I]. destruct (stop_now cs s) as [b w]. set (s0 := log _ _).
    assert (H0 : CInv s0) by (unfold CInv; cbn; now apply c_quiet0).
    destruct b; [exact H0|]. pose proof (c_iter c s0 H0) as Hi. destruct (iteration c s0); auto.
  Qed.
  Lemma c_optimize cs fuel reset s : CInv s -> c_states (optimize cs fuel reset s).
  Proof.
    intro H. unfold BOModel.optimize. pose proof (c_init reset s H) as Hi. destruct (init_phase reset s) as [s1| | |]; auto.
    apply c_loop. destruct (observations s1) as [|o os] eqn:Eo; [exact Hi|].
    destruct (m_compute (world s1) (model s1) (samples s1) _) as [m w]. exact Hi.
  Qed.
  Theorem run_counted cs os m w s : run_ops cs os (new_bo m w) = Some s -> CInv s.
  Proof.
    intros Hr. assert (H : CInv (new_bo m w)) by (apply c_empty; reflexivity).
    revert Hr. generalize (new_bo m w : st), H. clear H. induction os as [|o os IH]; intros s0 H; cbn [BOModel.run_ops].
    - intro Hr. injection Hr as <-. exact H.
    - assert (Hs : c_states (run_op cs o s0)).
      { destruct o as [reset fuel|x|x y]; cbn [BOModel.run_op] in *; [now apply c_optimize|now apply c_eval|].
        unfold add_new_sample. destruct (is_nan_or_inf y); [exact H|]. cbn. unfold CInv. cbn. apply c_quiet; auto. }
      destruct (run_op cs o s0); cbn [c_states] in Hs; try (now apply IH); intro Hr; [|discriminate]. injection Hr as <-. exact Hs.
  Qed.
End Count.

(** pigeonhole: a list of elements of a set of [length P], longer than [k * length P], takes some element
    after having taken it [k] times *)
Lemma occ_sum (l P : list vec) : incl l P -> exists p, In p P /\ length l <= length P * occ l p \/ l = [].
Proof.
  assert (G : forall P l, incl l P -> forall K, (forall p, In p P -> occ l p <= K) -> length l <= length P * K).
  { clear. induction P as [|p P IH]; intros l Hl K HK.
    - assert (l = []) as -> by (destruct l as [|a l]; auto; exfalso; apply (Hl a); now left). cbn. lia.
    - assert (Hr : length (remove vec_dec p l) <= length P * K).
      { apply IH.
        - intros a Ha. apply in_remove in Ha. destruct Ha as (Ha & Hn). destruct (Hl a Ha) as [->|]; tauto.
        - intros q Hq. apply Nat.le_trans with (occ l q); [|apply HK; now right]. clear. induction l as [|a l IH]; cbn; auto.
          destruct (vec_dec p a); cbn; destruct (vec_dec a q); lia. }
      assert (El : length l = occ l p + length (remove vec_dec p l)).
      { clear. induction l as [|a l IH]; cbn; auto. destruct (vec_dec p a) as [->|N]; [destruct (vec_dec a a); [cbn; lia|congruence]|]. destruct (vec_dec a p); [congruence|]. cbn. lia. }
      specialize (HK p (or_introl eq_refl)). cbn. lia. }
  intros Hl. destruct l as [|a l]; [exists []; now right|]. set (L := a :: l) in *.
  assert (M : exists p, In p P /\ forall q, In q P -> occ L q <= occ L p).
  { assert (Hn : P <> []) by (intros ->; apply (Hl a); now left). clear - Hn. induction P as [|p P IH]; [congruence|]. destruct P as [|p' P].
    - exists p. split; [now left|]. intros q [<-|[]]; apply le_n.
    - destruct IH as (b & Ib & Hb); [discriminate|]. destruct (Nat.le_ge_cases (occ L b) (occ L p)) as [H|H].
      + exists p. split; [now left|]. intros q [<-|Hq]; [apply le_n|]. specialize (Hb q Hq). lia.
      + exists b. split; [now right|]. intros q [<-|Hq]; auto. }
  destruct M as (p & Ip & Hp). exists p. left. split; [exact Ip|]. now apply (G P L Hl).
Qed.
Lemma split_last (l : list vec) p : 0 < occ l p -> exists l1 l2, l = l1 ++ p :: l2 /\ occ l1 p = occ l p - 1.
Proof.
  induction l as [|a l IH] using rev_ind; cbn; [lia|]. rewrite count_occ_app. cbn. destruct (vec_dec a p) as [->|N].
  - intros _. exists l, []. split; auto. lia.
  - intros H. destruct IH as (l1 & l2 & -> & E); [lia|]. exists l1, (l2 ++ [a]). split; [now rewrite <- app_assoc|]. lia.
Qed.
Lemma revisit (l P : list vec) k : incl l P -> k * length P < length l -> exists l1 p l2, l = l1 ++ p :: l2 /\ k <= occ l1 p.
Proof.
  intros Hl Hk. destruct (occ_sum l P Hl) as (p & [(Ip & Hp)| ->]); [|cbn in Hk; lia].
  assert (k < occ l p). { apply Nat.nle_gt. intros C. assert (length P * occ l p <= length P * k) by now apply Nat.mul_le_mono_l. lia. }
  destruct (split_last l p ltac:(lia)) as (l1 & l2 & -> & E). exists l1, p, l2. split; auto. lia.
Qed.
