(** Runs of the optimizer with a relation between data and model: what is true of the model whenever it is
    consulted. *)
From Coq Require Import ZArith List Bool Lia.
From Verif Require Import F64 BOModel BOSpec BOFacts.
Import ListNotations.
Open Scope Z_scope.

(** stopping criteria and acquisition function see the model of all samples; the statistics, that are updated
    before the model, the model of all samples but the last one *)
Definition consulted {M E : Type} (R : list vec -> list vec -> M -> Prop) (e : event M E) : Prop :=
  match e with
  | EvStop xs ys m _ _ => R xs ys m
  | EvAcq xs ys m _ _ => R xs ys m
  | EvStat xs ys m _ => R (removelast xs) (removelast ys) m
  | _ => True
  end.

Section Rel.
  Context {W M E : Type}.
  Variable sfun : W -> vec -> (vec + E) * W.
  Variable m_fresh : M.
  Variable m_compute : W -> M -> list vec -> list vec -> M * W.
  Variable m_add : W -> M -> vec -> vec -> M * W.
  Variable m_hp : W -> M -> M * W.
  Variable acq : W -> M -> Z -> vec * W.
  Variable init_n : nat.
  Variable init_pt : nat -> W -> vec * W.
  Variable hp_period : Z.
  Notation st := (bo W M E).
  Notation run_init := (run_init sfun init_pt).
  Notation init_phase := (init_phase sfun init_n init_pt).
  Notation iteration := (iteration sfun m_add m_hp acq hp_period).
  Notation loop := (loop sfun m_add m_hp acq hp_period).
  Notation optimize := (optimize sfun m_fresh m_compute m_add m_hp acq init_n init_pt hp_period).
  Notation run_op := (run_op sfun m_fresh m_compute m_add m_hp acq init_n init_pt hp_period).
  Notation run_ops := (run_ops sfun m_fresh m_compute m_add m_hp acq init_n init_pt hp_period).

  Variable good : vec -> Prop.
  Variable ok : vec -> vec -> Prop.
  Variable R : list vec -> list vec -> M -> Prop.
  Variable Any : M -> Prop.
  Hypothesis R_any : forall xs ys m, R xs ys m -> Any m.
  Hypothesis R_fresh : R [] [] m_fresh.
  Hypothesis R_comp : forall w m xs ys, Any m -> xs <> [] -> Forall2 ok xs ys -> R xs ys (fst (m_compute w m xs ys)).
  Hypothesis R_add : forall w m xs ys x y, R xs ys m -> Forall2 ok xs ys -> ok x y -> R (xs ++ [x]) (ys ++ [y]) (fst (m_add w m x y)).
  Hypothesis R_hp : forall w m xs ys, 0 < hp_period -> R xs ys m -> xs <> [] -> R xs ys (fst (m_hp w m)).
  Hypothesis H_sfun : forall w x v w', good x -> sfun w x = (inl v, w') -> is_nan_or_inf v = false -> ok x v.
  Hypothesis H_acq : forall w m c, good (fst (acq w m c)).
  Hypothesis H_init : forall i w, good (fst (init_pt i w)).

  Definition good_op (o : op) : Prop :=
    match o with OpOptimize _ _ => True | OpEvalAdd x => good x | OpAddSample x y => is_nan_or_inf y = false -> ok x y end.
  Definition Inv (s : st) : Prop := Forall2 ok (samples s) (observations s) /\ Any (model s) /\ Forall (consulted R) (trace s).
  Definition InvL (s : st) : Prop := Inv s /\ R (samples s) (observations s) (model s).
  Definition all_states (P : st -> Prop) (r : result W M E) : Prop :=
    match r with Ret s | Running s | Throw s _ => P s | UninitRead => True end.

  Lemma tr_snoc (tr : list (event M E)) e : Forall (consulted R) tr -> consulted R e -> Forall (consulted R) (tr ++ [e]).
  Proof. intros H He. apply Forall_app. split; auto. Qed.
  Lemma eval_inv s x : good x -> Inv s -> all_states Inv (eval_and_add sfun s x).
  Proof.
    intros Hg (A & B & C). unfold eval_and_add. destruct (sfun (world s) x) as [[v|e] w] eqn:Es; [|split; [exact A|]; split; [exact B|]; cbn; now apply tr_snoc].
    unfold add_new_sample. destruct (is_nan_or_inf v) eqn:Ev; cbn; (split; [|split; [exact B|now apply tr_snoc]]); [exact A|].
    apply Forall2_app; [exact A|]. constructor; [|constructor]. eapply H_sfun; eauto.
  Qed.
  Lemma run_init_inv : forall k i s, Inv s -> all_states Inv (run_init k i s).
  Proof.
    induction k as [|k IH]; intros i s H; cbn [BOModel.run_init]; [exact H|]. pose proof (H_init i (world s)) as Hg.
    destruct (init_pt i (world s)) as [x w]. cbn [fst] in Hg. pose proof (eval_inv (set_world s w) x Hg H) as He.
    destruct (eval_and_add _ _ x); cbn [all_states] in *; auto.
  Qed.
  Lemma init_inv reset s : Inv s -> all_states Inv (init_phase reset s).
  Proof.
    intros (A & B & C). unfold BOModel.init_phase. set (s2 := if reset then _ else _).
    assert (H2 : Inv s2).
    { unfold s2. destruct reset; (split; [|split; [exact B|]]); cbn; auto; repeat (apply tr_snoc; [|exact I]); exact C. }
    destruct (tot s2 =? 0); [|exact H2]. apply run_init_inv. destruct H2 as (A2 & B2 & C2). split; [exact A2|]. split; [exact B2|]. cbn. now apply tr_snoc.
  Qed.
  Lemma iter_inv c s : InvL s -> match iteration c s with Ret s' => InvL s' | r => all_states Inv r end.
  Proof.
    intros ((A & B & C) & D). destruct (iteration_spec sfun m_add m_hp acq hp_period c s) as (x & w1 & r & w2 & Ea & Es & H).
    cbv zeta in H. pose proof (H_acq (world s) (model s) c) as Hg. rewrite Ea in Hg. cbn [fst] in Hg.
    destruct H as [(v & m & w3 & m' & w4 & trhp & -> & Hfin & Em & Eh & ->)|(_ & ->)].
    - assert (Hv : ok x v). { eapply H_sfun; eauto. rewrite forallb_finite in Hfin. destruct (is_nan_or_inf v); [discriminate|reflexivity]. }
      assert (A' : Forall2 ok (samples s ++ [x]) (observations s ++ [v])) by (apply Forall2_app; auto).
      assert (Dm : R (samples s ++ [x]) (observations s ++ [v]) m). { pose proof (R_add w2 (model s) _ _ x v D A Hv) as H. rewrite Em in H. exact H. }
      assert (Dm' : R (samples s ++ [x]) (observations s ++ [v]) m' /\ Forall (consulted R) trhp).
      { destruct ((0 <? hp_period) && ((c + 1) mod hp_period =? 0)) eqn:Ehp.
        - destruct Eh as [Eh ->]. split; [|repeat constructor]. apply andb_prop in Ehp. destruct Ehp as [Ehp _]. apply Z.ltb_lt in Ehp.
          pose proof (R_hp w3 m _ _ Ehp Dm) as H. rewrite Eh in H. apply H. destruct (samples s); discriminate.
        - destruct Eh as (-> & _ & ->). split; [exact Dm|constructor]. }
      destruct Dm' as [Dm' Ht]. split; [|exact Dm']. split; [exact A'|]. split; [eapply R_any; exact Dm'|]. cbn [trace].
      apply Forall_app. split; [exact C|]. repeat (constructor; [cbn [consulted]; auto; try (rewrite !removelast_last; exact D)|]). exact Ht.
    - split; [exact A|]. split; [exact B|]. cbn. apply tr_snoc; [|exact I]. now apply tr_snoc.
  Qed.
  Lemma loop_inv cs : forall fuel s, InvL s -> all_states Inv (loop cs fuel s).
  Proof.
    induction fuel as [|fuel IH]; intros s H; cbn [BOModel.loop]; [exact (proj1 H)|].
    destruct (cur s) as [c|]; [|exact I]. destruct (stop_now cs s) as [b w]. set (s0 := log _ _).
    assert (H0 : InvL s0). { destruct H as ((A & B & C) & D). split; [|exact D]. split; [exact A|]. split; [exact B|]. cbn. now apply tr_snoc. }
    destruct b; [exact (proj1 H0)|]. pose proof (iter_inv c s0 H0) as Hi. destruct (iteration c s0); auto.
  Qed.
  Lemma optimize_inv cs fuel reset s : Inv s -> all_states Inv (optimize cs fuel reset s).
  Proof.
    intro H. unfold BOModel.optimize. pose proof (init_inv reset s H) as Hi. destruct (init_phase reset s) as [s1| | |]; auto.
    destruct Hi as (A & B & C). apply loop_inv. destruct (observations s1) as [|o os] eqn:Eo.
    - inversion A as [Ex|]. split; [|cbn; rewrite Eo, <- Ex; exact R_fresh]. split; [cbn; rewrite Eo, <- Ex; constructor|]. split; [exact (R_any _ _ _ R_fresh)|exact C].
    - rewrite <- Eo in *. pose proof (R_comp (world s1) (model s1) (samples s1) (observations s1) B) as Hr.
      destruct (m_compute (world s1) (model s1) (samples s1) (observations s1)) as [m w]. cbn [fst] in Hr.
      assert (Hm : R (samples s1) (observations s1) m). { apply Hr; [|exact A]. intro Ex. rewrite Ex in A. inversion A as [Ey|]. congruence. }
      split; [|exact Hm]. split; [exact A|]. split; [eapply R_any; exact Hm|exact C].
  Qed.
  Lemma run_inv_all cs os m w s : Any m -> Forall good_op os -> run_ops cs os (new_bo m w) = Some s -> Inv s.
  Proof.
    intros Hm Ho Hr. assert (H : Inv (new_bo m w)) by (split; [constructor|]; split; [exact Hm|constructor]).
    revert Hr. generalize (new_bo m w : st), H. clear H Hm. induction Ho as [|o os Hg _ IH]; intros s0 H; cbn [BOModel.run_ops].
    - intro Hr. injection Hr as <-. exact H.
    - assert (Hs : all_states Inv (run_op cs o s0)).
      { destruct o as [reset fuel|x|x y]; cbn [BOModel.run_op good_op] in *; [now apply optimize_inv|now apply eval_inv|].
        destruct H as (A & B & C). unfold add_new_sample. destruct (is_nan_or_inf y); [exact (conj A (conj B C))|].
        split; [apply Forall2_app; auto|]. split; [exact B|]. cbn. now apply tr_snoc. }
      destruct (run_op cs o s0); cbn [all_states] in Hs; try (now apply IH); intro Hr; [|discriminate]. injection Hr as <-. apply Hs.
  Qed.
  Theorem run_consulted cs os m w s : Any m -> Forall good_op os -> run_ops cs os (new_bo m w) = Some s -> Forall (consulted R) (trace s).
  Proof. intros Hm Ho Hr. apply (run_inv_all cs os m w s Hm Ho Hr). Qed.
End Rel.
