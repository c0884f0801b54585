(** Runs of the optimizer with a condition on the data and a relation between data and model, where the
    answers of the acquisition optimizer are only known for the models that the run produces: what is true
    of data, model and answer whenever the next sample is chosen. *)
From Coq Require Import ZArith List Bool Lia.
From Verif Require Import F64 BOModel BOSpec BOFacts.
Import ListNotations.
Open Scope Z_scope.

Section Run.
  Context {W M E : Type}.
  Variable sfun : W -> vec -> (vec + E) * W.
  Variable m_fresh : M.
  Variable m_compute : W -> M -> list vec -> list vec -> M * W.
  Variable m_add : W -> M -> vec -> vec -> M * W.
  Variable m_hp : W -> M -> M * W.
  Variable acq : W -> M -> Z -> vec * W.
  Variable init_n : nat.
  Variable init_pt : nat -> W -> vec * W.
  Variable hp_period : Z.
  Notation st := (bo W M E).
  Notation run_init := (run_init sfun init_pt).
  Notation init_phase := (init_phase sfun init_n init_pt).
  Notation iteration := (iteration sfun m_add m_hp acq hp_period).
  Notation loop := (loop sfun m_add m_hp acq hp_period).
  Notation optimize := (optimize sfun m_fresh m_compute m_add m_hp acq init_n init_pt hp_period).
  Notation run_op := (run_op sfun m_fresh m_compute m_add m_hp acq init_n init_pt hp_period).
  Notation run_ops := (run_ops sfun m_fresh m_compute m_add m_hp acq init_n init_pt hp_period).

  Variable D : list vec -> list vec -> Prop.
  Variable R : list vec -> list vec -> M -> Prop.
  (** evaluating the objective at [x] keeps the data in order *)
  Definition fits (xs ys : list vec) (x : vec) : Prop :=
    forall w v w', sfun w x = (inl v, w') -> is_nan_or_inf v = false -> D (xs ++ [x]) (ys ++ [v]).
  Hypothesis D_nil : D [] [].
  Hypothesis D_len : forall xs ys, D xs ys -> length xs = length ys.
  Hypothesis R_fresh : R [] [] m_fresh.
  Hypothesis R_comp : forall w m xs ys, xs <> [] -> D xs ys -> R xs ys (fst (m_compute w m xs ys)).
  Hypothesis R_add : forall w m xs ys x y, R xs ys m -> D xs ys -> D (xs ++ [x]) (ys ++ [y]) -> R (xs ++ [x]) (ys ++ [y]) (fst (m_add w m x y)).
  Hypothesis R_hp : forall w m xs ys, 0 < hp_period -> R xs ys m -> xs <> [] -> R xs ys (fst (m_hp w m)).
  Hypothesis H_acq : forall w m c xs ys, D xs ys -> R xs ys m -> fits xs ys (fst (acq w m c)).
  Hypothesis H_init : forall i w xs ys, D xs ys -> fits xs ys (fst (init_pt i w)).

  Definition chosen (e : event M E) : Prop :=
    match e with EvAcq xs ys m c x => D xs ys /\ R xs ys m /\ exists w, x = fst (acq w m c) | _ => True end.
  Definition fit_op (o : op) : Prop :=
    match o with
    | OpOptimize _ _ => True | OpEvalAdd x => forall xs ys, D xs ys -> fits xs ys x
    | OpAddSample x y => is_nan_or_inf y = false -> forall xs ys, D xs ys -> D (xs ++ [x]) (ys ++ [y])
    end.
  Definition RInv (s : st) : Prop := D (samples s) (observations s) /\ Forall chosen (trace s).
  Definition RInvL (s : st) : Prop := RInv s /\ R (samples s) (observations s) (model s).
  Definition r_states (P : st -> Prop) (r : result W M E) : Prop :=
    match r with Ret s | Running s | Throw s _ => P s | UninitRead => True end.

  Lemma r_snoc (tr : list (event M E)) e : Forall chosen tr -> chosen e -> Forall chosen (tr ++ [e]).
  Proof. intros H He. apply Forall_app. split; auto. Qed.
  Lemma r_eval s x : fits (samples s) (observations s) x -> RInv s -> r_states RInv (eval_and_add sfun s x).
  Proof.
    intros Hg (A & C). unfold eval_and_add. destruct (sfun (world s) x) as [[v|e] w] eqn:Es; [|split; [exact A|]; cbn; now apply r_snoc].
    unfold add_new_sample. destruct (is_nan_or_inf v) eqn:Ev; cbn; (split; [|now apply r_snoc]); [exact A|]. cbn. eapply Hg; eauto.
  Qed.
  Lemma r_init_run : forall k i s, RInv s -> r_states RInv (run_init k i s).
  Proof.
    induction k as [|k IH]; intros i s H; cbn [BOModel.run_init]; [exact H|]. pose proof (H_init i (world s) _ _ (proj1 H)) as Hg.
    destruct (init_pt i (world s)) as [x w]. cbn [fst] in Hg. pose proof (r_eval (set_world s w) x Hg H) as He.
    destruct (eval_and_add _ _ x); cbn [r_states] in *; auto.
  Qed.
  Lemma r_init reset s : RInv s -> r_states RInv (init_phase reset s).
  Proof.
    intros (A & C). unfold BOModel.init_phase. set (s2 := if reset then _ else _).
    assert (H2 : RInv s2). { unfold s2. destruct reset; split; cbn; auto; repeat (apply r_snoc; [|exact I]); exact C. }
    destruct (tot s2 =? 0); [|exact H2]. apply r_init_run. destruct H2 as (A2 & C2). split; [exact A2|]. cbn. now apply r_snoc.
  Qed.
  Lemma r_iter c s : RInvL s -> match iteration c s with Ret s' => RInvL s' | r => r_states RInv r end.
  Proof.
    intros ((A & C) & B). destruct (iteration_spec sfun m_add m_hp acq hp_period c s) as (x & w1 & r & w2 & Ea & Es & H).
    cbv zeta in H. pose proof (H_acq (world s) (model s) c _ _ A B) as Hg. rewrite Ea in Hg. cbn [fst] in Hg.
    assert (X : chosen (EvAcq (samples s) (observations s) (model s) c x)) by (split; [exact A|]; split; [exact B|]; exists (world s); now rewrite Ea).
    destruct H as [(v & m & w3 & m' & w4 & trhp & -> & Hfin & Em & Eh & ->)|(_ & ->)].
    - assert (A' : D (samples s ++ [x]) (observations s ++ [v])).
      { eapply Hg; eauto. rewrite forallb_finite in Hfin. destruct (is_nan_or_inf v); [discriminate|reflexivity]. }
      assert (Dm : R (samples s ++ [x]) (observations s ++ [v]) m). { pose proof (R_add w2 (model s) _ _ x v B A A') as H. rewrite Em in H. exact H. }
      assert (Dm' : R (samples s ++ [x]) (observations s ++ [v]) m' /\ Forall chosen trhp).
      { destruct ((0 <? hp_period) && ((c + 1) mod hp_period =? 0)) eqn:Ehp.
        - destruct Eh as [Eh ->]. split; [|repeat constructor]. apply andb_prop in Ehp. destruct Ehp as [Ehp _]. apply Z.ltb_lt in Ehp.
          pose proof (R_hp w3 m _ _ Ehp Dm) as H. rewrite Eh in H. apply H. destruct (samples s); discriminate.
        - destruct Eh as (-> & _ & ->). split; [exact Dm|constructor]. }
      destruct Dm' as [Dm' Ht]. split; [|exact Dm']. split; [exact A'|]. cbn [trace].
      apply Forall_app. split; [exact C|]. constructor; [exact X|]. constructor; [exact I|]. constructor; [exact I|]. exact Ht.
    - split; [exact A|]. cbn. apply r_snoc; [|exact I]. now apply r_snoc.
  Qed.
  Lemma r_loop cs : forall fuel s, RInvL s -> r_states RInv (loop cs fuel s).
  Proof.
    induction fuel as [|fuel IH]; intros s H; cbn [BOModel.loop]; [exact (proj1 H)|].
    destruct (cur s) as [c|]; [|exact I]. destruct (stop_now cs s) as [b w]. set (s0 := log _ _).
    assert (H0 : RInvL s0). { destruct H as ((A & C) & B). split; [|exact B]. split; [exact A|]. cbn. now apply r_snoc. }
    destruct b; [exact (proj1 H0)|]. pose proof (r_iter c s0 H0) as Hi. destruct (iteration c s0); auto.
  Qed.
  Lemma r_optimize cs fuel reset s : RInv s -> r_states RInv (optimize cs fuel reset s).
  Proof.
    intro H. unfold BOModel.optimize. pose proof (r_init reset s H) as Hi. destruct (init_phase reset s) as [s1| | |]; auto.
    destruct Hi as (A & C). pose proof (D_len _ _ A) as Ln. apply r_loop. destruct (observations s1) as [|o os] eqn:Eo.
    - assert (Ex : samples s1 = []) by (destruct (samples s1); [reflexivity|discriminate]).
      split; [|cbn; rewrite Eo, Ex; exact R_fresh]. split; [cbn; rewrite Eo, Ex; exact D_nil|exact C].
    - rewrite <- Eo in *. pose proof (R_comp (world s1) (model s1) (samples s1) (observations s1)) as Hr.
      destruct (m_compute (world s1) (model s1) (samples s1) (observations s1)) as [m w]. cbn [fst] in Hr.
      assert (Hm : R (samples s1) (observations s1) m). { apply Hr; [|exact A]. intro Ex. rewrite Ex, Eo in Ln. discriminate. }
      split; [|exact Hm]. split; [exact A|exact C].
  Qed.
  Theorem run_inv cs os m w s : Forall fit_op os -> run_ops cs os (new_bo m w) = Some s -> D (samples s) (observations s) /\ Forall chosen (trace s).
  Proof.
    intros Ho Hr. assert (H : RInv (new_bo m w)) by (split; [exact D_nil|constructor]). change (RInv s).
    revert Hr. generalize (new_bo m w : st), H. clear H. induction Ho as [|o os Hg _ IH]; intros s0 H; cbn [BOModel.run_ops].
    - intro Hr. injection Hr as <-. exact H.
    - assert (Hs : r_states RInv (run_op cs o s0)).
      { destruct o as [reset fuel|x|x y]; cbn [BOModel.run_op fit_op] in *; [now apply r_optimize|apply r_eval; auto; apply Hg, H|].
        destruct H as (A & C). unfold add_new_sample. destruct (is_nan_or_inf y) eqn:Ey; [exact (conj A C)|].
        split; [cbn; auto|]. cbn. now apply r_snoc. }
      destruct (run_op cs o s0); cbn [r_states] in Hs; try (now apply IH); intro Hr; [|discriminate]. injection Hr as <-. exact Hs.
  Qed.
End Run.
