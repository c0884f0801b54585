(** IMGPO: every evaluation is recorded and counted (C51, continued). *)
From Coq Require Import Reals List Bool ZArith Arith Lia.
From Coq Require Import Floats.SpecFloat.
From Verif Require Import F64 BOModel ImgpoModel ImgpoSpec ImgpoFacts Prop_Imgpo Prop_Imgpo2.
Import ListNotations.
Local Open Scope nat_scope.

(** *** Specification: asked for the points [xs], one after the other, the objective answers [vs] *)
Inductive answers {W P V : Type} (f : W -> P -> option V * W) : W -> list P -> list V -> W -> Prop :=
| ans_nil w : answers f w [] [] w
| ans_cons w x v w1 xs vs w2 : f w x = (Some v, w1) -> answers f w1 xs vs w2 -> answers f w (x :: xs) (v :: vs) w2.

Lemma answers_app {W P V} (f : W -> P -> option V * W) w xs vs w1 xs' vs' w2 :
  answers f w xs vs w1 -> answers f w1 xs' vs' w2 -> answers f w (xs ++ xs') (vs ++ vs') w2.
Proof. induction 1; cbn; intro H'; [exact H'|]. econstructor; eauto. Qed.
Lemma answers_length {W P V} (f : W -> P -> option V * W) w xs vs w1 : answers f w xs vs w1 -> length vs = length xs.
Proof. induction 1; cbn; congruence. Qed.

Section Main.
Context {W : Type}.
Variable sfun : W -> point -> option vec * W.
Variable afun : vec -> F.
Variable acq : list point -> list vec -> nat -> point -> F.
Variable query : list point -> list vec -> point -> vec * F.
Variable spread : nat -> F -> F.
Variable tiny : F.
Variables (dim h_upper : nat).
Variable stop : @st W -> bool.
Notation st := (@st W).
Notation optimize := (optimize sfun afun acq query spread tiny dim h_upper stop).

(** between the two states the objective was asked exactly for [xs] and answered [vs]; points and answers
    were appended, in order, to the samples and observations, and both counters advanced by their number *)
Definition recorded (s s' : st) (xs : list point) (vs : list vec) : Prop :=
  answers sfun (t_w s) xs vs (t_w s') /\
  t_samples s' = t_samples s ++ xs /\ t_obs s' = t_obs s ++ vs /\
  t_cur s' = (t_cur s + Z.of_nat (length xs))%Z /\ t_tot s' = (t_tot s + Z.of_nat (length xs))%Z /\
  Forall (fun v => is_nan_or_inf v = false) vs.
(** at most [n] evaluations *)
Definition within (n : nat) (s s' : st) : Prop := exists xs vs, length xs <= n /\ recorded s s' xs vs.

Lemma rec_trans s s1 s2 xs vs xs' vs' : recorded s s1 xs vs -> recorded s1 s2 xs' vs' -> recorded s s2 (xs ++ xs') (vs ++ vs').
Proof.
  intros (A1 & A2 & A3 & A4 & A5 & A6) (B1 & B2 & B3 & B4 & B5 & B6). split; [exact (answers_app _ _ _ _ _ _ _ _ A1 B1)|].
  rewrite B2, A2, B3, A3, B4, A4, B5, A5, <- !app_assoc, app_length, Nat2Z.inj_add.
  split; [reflexivity|]. split; [reflexivity|]. split; [lia|]. split; [lia|]. apply Forall_app. auto.
Qed.
Lemma win_trans n m s s1 s2 : within n s s1 -> within m s1 s2 -> within (n + m) s s2.
Proof.
  intros (xs & vs & L & A) (xs' & vs' & L' & B). exists (xs ++ xs'), (vs ++ vs'). rewrite app_length. split; [lia|].
  exact (rec_trans _ _ _ _ _ _ _ A B).
Qed.
Lemma win_refl (s s' : st) : t_w s' = t_w s -> t_samples s' = t_samples s -> t_obs s' = t_obs s -> t_cur s' = t_cur s -> t_tot s' = t_tot s -> within 0 s s'.
Proof.
  intros E1 E2 E3 E4 E5. exists [], []. split; [cbn; lia|]. unfold recorded. rewrite E1, E2, E3, E4, E5, !app_nil_r. cbn.
  split; [constructor|]. split; [reflexivity|]. split; [reflexivity|]. split; [lia|]. split; [lia|]. constructor.
Qed.
Lemma win_le n m s s' : n <= m -> within n s s' -> within m s s'.
Proof. intros L (xs & vs & L' & A). exists xs, vs. split; [lia|exact A]. Qed.
Lemma win_tree n s s' t : within n s s' -> within n s (set_tree s' t).
Proof. intros (xs & vs & L & A). exists xs, vs. split; [exact L|exact A]. Qed.
Lemma win_tree_l n s s' t : within n (set_tree s t) s' -> within n s s'.
Proof. intros (xs & vs & L & A). exists xs, vs. split; [exact L|exact A]. Qed.

Lemma evaluate_win s x v s' : evaluate sfun s x = Fine (v, s') -> within 1 s s'.
Proof.
  unfold evaluate, add_sample. destruct (sfun (t_w s) x) as [[u|] w] eqn:Q; [|discriminate].
  destruct (is_nan_or_inf u) eqn:N; cbn [ibind]; [discriminate|]. intro E. injection E as <- <-.
  exists [x], [u]. split; [cbn; lia|]. unfold recorded. cbn [t_w t_samples t_obs t_cur t_tot length].
  split; [econstructor; [exact Q|constructor]|]. split; [reflexivity|]. split; [reflexivity|]. split; [lia|]. split; [lia|]. constructor; auto.
Qed.

Lemma level_loop_win fuel : forall h s bmax im b s' bmax' im' b', level_loop sfun afun (S fuel) h s bmax im b = Fine (s', bmax', im', b') -> within fuel s s'.
Proof.
  induction fuel as [|fuel IH]; intros h s bmax im b s' bmax' im' b' H; cbn [level_loop] in H;
    (destruct (nth_error (tree s) h) as [l|]; [|discriminate]); destruct (scan afun l 0 bmax im b) as [[b1 i1] b2];
    (destruct i1 as [i|]; [|injection H as <- <- <- <-; eapply win_le; [|apply win_refl; reflexivity]; lia]);
    (destruct (nth_error l i) as [c|]; [|discriminate]); destruct (c_samp c);
    try (injection H as <- <- <- <-; eapply win_le; [|apply win_refl; reflexivity]; lia).
  - destruct (evaluate sfun s (c_x c)) as [[v s1]| | |]; discriminate.
  - destruct (evaluate sfun s (c_x c)) as [[v s1]| | |] eqn:E; try discriminate. cbn [ibind snd] in H.
    eapply (win_trans 1); [exact (evaluate_win _ _ _ _ E)|]. apply (win_tree_l _ _ _ (upd_cell (tree s1) h i mark_sampled)).
    exact (IH _ _ _ _ _ _ _ _ _ H).
Qed.
Lemma levels_loop_win m : forall h s bmax s' ims bs, levels_loop sfun afun m h s bmax = Fine (s', ims, bs) -> within m s s' /\ length ims = m.
Proof.
  induction m as [|m IH]; intros h s bmax s' ims bs H; cbn [levels_loop] in H.
  - injection H as <- <- <-. split; [apply win_refl; reflexivity|reflexivity].
  - destruct (level_loop sfun afun 2 h s bmax None finf_neg) as [[[[s1 b1] im] b]| | |] eqn:E; try discriminate. cbn [ibind] in H.
    destruct (levels_loop sfun afun m (S h) s1 b1) as [[[s2 is] bs2]| | |] eqn:E2; try discriminate. cbn [ibind] in H. injection H as <- <- <-.
    destruct (IH _ _ _ _ _ _ E2) as [I1 I2]. split; [|cbn; congruence].
    eapply (win_trans 1); [exact (level_loop_win 1 _ _ _ _ _ _ _ _ _ E)|exact I1].
Qed.
Lemma child_win s x M LB b2 s' f sp M' b2' : child_value sfun acq query spread tiny s x M LB b2 = Fine (s', f, sp, M', b2') -> within 1 s s'.
Proof.
  unfold child_value. destruct (flt _ tiny).
  - destruct (query (t_samples s) (t_obs s) x). intro H. injection H as <- <- <- <- <-. eapply win_le; [|apply win_refl; reflexivity]; lia.
  - destruct (evaluate sfun s x) as [[v s1]| | |] eqn:E; try discriminate. cbn [ibind fst snd]. destruct v as [|v0 v]; [discriminate|].
    intro H. injection H as <- <- <- <- <-. exact (evaluate_win _ _ _ _ E).
Qed.
Lemma split_win s lc h i b2 s' l' b2' : split sfun afun acq query spread tiny s lc h i b2 = Fine (s', l', b2') -> within 2 s s'.
Proof.
  unfold split. destruct (nth_error (tree s) h) as [lv|]; [|discriminate]. destruct (nth_error lv i) as [c|]; [|discriminate].
  destruct (negb _); [discriminate|]. destruct (c_x c) as [|x0 xr] eqn:X; [discriminate|].
  match goal with |- ibind ?o _ = _ -> _ => destruct o as [[[[[s1 fg] sg] M1] b21]| | |] eqn:E1; try discriminate end. cbn [ibind].
  match goal with |- ibind ?o _ = _ -> _ => destruct o as [[[[[s2 fd] sd] M2] b22]| | |] eqn:E2; try discriminate end. cbn [ibind].
  match goal with |- match ?o with _ => _ end = _ -> _ => destruct o; [|discriminate] end.
  intro H. injection H as <- <- <-. apply win_tree.
  eapply (win_trans 1 1); [eapply win_tree_l, child_win, E1|]. eapply win_tree_l, child_win, E2.
Qed.
Lemma splits_win ims : forall bs h s lc b2 s' l', splits sfun afun acq query spread tiny ims bs h s lc b2 = Fine (s', l') -> within (2 * length ims) s s'.
Proof.
  induction ims as [|im ims IH]; intros bs h s lc b2 s' l' H; cbn [splits] in H.
  - injection H as <- <-. apply win_refl; reflexivity.
  - destruct bs as [|b bs]; [injection H as <- <-; eapply win_le; [|apply win_refl; reflexivity]; lia|].
    assert (K : forall s1 l1 b1, splits sfun afun acq query spread tiny ims bs (S h) s1 l1 b1 = Fine (s', l') -> within 2 s s1 -> within (2 * length (im :: ims)) s s').
    { intros s1 l1 b1 E Q. replace (2 * length (im :: ims)) with (2 + 2 * length ims) by (cbn [length]; lia). exact (win_trans _ _ _ _ _ Q (IH _ _ _ _ _ _ _ E)). }
    assert (Z : within 2 s s) by (eapply win_le; [|apply win_refl; reflexivity]; lia).
    destruct im as [i|]; [|exact (K _ _ _ H Z)]. destruct (flt b2 b); [|exact (K _ _ _ H Z)].
    destruct (split sfun afun acq query spread tiny s lc h i b2) as [[[s1 l1] b1]| | |] eqn:E; try discriminate. cbn [ibind] in H.
    exact (K _ _ _ H (split_win _ _ _ _ _ _ _ _ E)).
Qed.
Lemma prune_length ims : forall bs h (s : st) XI M ims' M', prune acq ims bs h s XI M = Fine (ims', M') -> length ims' = length ims.
Proof.
  induction ims as [|im ims IH]; intros bs h s XI M ims' M' H; cbn [prune] in H; [injection H as <- <-; reflexivity|].
  assert (K : forall im' m, ibind (prune acq ims (tl bs) (S h) s XI m) (fun p => Fine (im' :: fst p, snd p)) = Fine (ims', M') -> length ims' = length (im :: ims)).
  { intros im' m E. destruct (prune acq ims (tl bs) (S h) s XI m) as [[r M2]| | |] eqn:Q; try discriminate. cbn in E. injection E as <- <-.
    cbn. f_equal. exact (IH _ _ _ _ _ _ _ Q). }
  destruct im as [i|]; [|exact (K _ _ H)]. destruct (next_candidate ims XI 1) as [xi|]; [|exact (K _ _ H)].
  destruct (nth_error (tree s) h) as [l|]; [|discriminate]. destruct (nth_error l i) as [c|]; [|discriminate]. destruct (nth_error bs xi) as [t|]; [|discriminate].
  destruct (simulate acq s xi (c_x c) (c_min c) (c_max c) M finf_neg t) as [z m2]. destruct (flt z t); exact (K _ _ H).
Qed.
(** one iteration of the main loop evaluates at most three points per level of the tree *)
Lemma iteration_win s lc s' l' : iteration sfun afun acq query spread tiny s lc = Fine (s', l') -> within (3 * S (depth lc)) s s'.
Proof.
  unfold iteration. destruct (levels_loop sfun afun (S (depth lc)) 0 s finf_neg) as [[[s1 ims] bs]| | |] eqn:E1; try discriminate. cbn [ibind].
  match goal with |- ibind ?o _ = _ -> _ => destruct o as [[ims2 M2]| | |] eqn:E2; try discriminate end. cbn [ibind fst snd].
  match goal with |- ibind ?o _ = _ -> _ => destruct o as [[s2 l2]| | |] eqn:E3; try discriminate end. cbn [ibind].
  intro H. injection H as <- <-. destruct (levels_loop_win _ _ _ _ _ _ _ E1) as [A L].
  pose proof (splits_win _ _ _ _ _ _ _ _ E3) as B. rewrite (prune_length _ _ _ _ _ _ _ _ E2), L in B.
  eapply win_le; [|exact (win_trans _ _ _ _ _ A B)]. lia.
Qed.
Lemma main_loop_rec fuel : forall s lc s' l', main_loop sfun afun acq query spread tiny stop fuel s lc = Fine (s', l') -> exists xs vs, recorded s s' xs vs.
Proof.
  induction fuel as [|fuel IH]; intros s lc s' l' H; cbn [main_loop] in H; destruct (negb _ && stop s);
    try (injection H as <- <-; destruct (win_refl s s eq_refl eq_refl eq_refl eq_refl eq_refl) as (xs & vs & _ & Q); exists xs, vs; exact Q); [discriminate|].
  destruct (iteration sfun afun acq query spread tiny s lc) as [[s1 l1]| | |] eqn:E; try discriminate. cbn [ibind fst snd] in H.
  destruct (iteration_win _ _ _ _ E) as (xs & vs & _ & A). destruct (IH _ _ _ _ H) as (xs' & vs' & B).
  eexists _, _. exact (rec_trans _ _ _ _ _ _ _ A B).
Qed.

(** C51: a first call records exactly what it evaluated: the objective was asked for the new samples only, one after
    the other, starting with the centre of the cube; its answers are the new observations, in the same order; all
    of them are finite; both counters advanced by their number *)
Theorem C51_every_evaluation_is_recorded fuel (s s' : st) l : t_tot s = 0%Z -> optimize fuel s = Fine (s', l) ->
  exists xs vs, answers sfun (t_w s) (repeat (1 / 2)%R dim :: xs) vs (t_w s') /\
    t_samples s' = t_samples s ++ repeat (1 / 2)%R dim :: xs /\ t_obs s' = t_obs s ++ vs /\
    t_cur s' = (t_cur s + Z.of_nat (length vs))%Z /\ t_tot s' = Z.of_nat (length vs) /\
    Forall (fun v => is_nan_or_inf v = false) vs.
Proof.
  intros T H. unfold ImgpoModel.optimize in H. rewrite T in H. cbn [Z.eqb] in H. destruct h_upper as [|m]; [discriminate|]. cbn [repeat app] in H.
  destruct (sfun (t_w s) (repeat (1 / 2)%R dim)) as [[v|] w] eqn:E; [|discriminate].
  unfold add_sample in H. destruct (is_nan_or_inf v) eqn:N; [discriminate|]. cbn [ibind t_samples t_obs t_cur t_tot t_w tree] in H.
  destruct (main_loop_rec _ _ _ _ _ H) as (xs & vs & A1 & A2 & A3 & A4 & A5 & A6). cbn [t_samples t_obs t_cur t_tot t_w] in *.
  exists xs, (v :: vs). split; [econstructor; [exact E|exact A1]|]. rewrite A2, A3, A4, A5, <- !app_assoc. cbn [app length].
  rewrite (answers_length _ _ _ _ _ A1). split; [reflexivity|]. split; [reflexivity|]. split; [lia|]. split; [lia|]. constructor; auto.
Qed.
(** C51: how far one iteration can run past the stopping criteria *)
Theorem C51_iteration_budget (s s' : st) lc l' : iteration sfun afun acq query spread tiny s lc = Fine (s', l') ->
  length (t_samples s) <= length (t_samples s') <= length (t_samples s) + 3 * S (depth lc) /\
  t_cur s' = (t_cur s + Z.of_nat (length (t_samples s') - length (t_samples s)))%Z.
Proof.
  intro H. destruct (iteration_win _ _ _ _ H) as (xs & vs & L & A1 & A2 & A3 & A4 & _). rewrite A2, app_length.
  split; [lia|]. rewrite A4. f_equal. f_equal. lia.
Qed.
End Main.

(** ** Witnesses *)
(** a run meets the hypotheses *)
Example C51_recorded_ex : exists s l, w_run 2 3 w_start = Fine (s, l) /\ t_tot s = 2%Z.
Proof. exists (fst w_three), (snd w_three). split; [exact w_three_ok|vm_compute; reflexivity]. Qed.

(** an objective that answers 1, 2, 3, ... *)
Definition n_fun (w : Z) (x : point) : option vec * Z := (Some [fofZ w], (w + 1)%Z).
Definition n_start : @st Z := mkSt [] [] [] 0 0 1%Z.
Definition n_run s := optimize n_fun w_afun w_acq w_query w_spread w_tiny 1 10 (fun _ => true) 0 s.
(** C51, refuted for later calls: a second call without reset evaluates the centre of the cube again, discards the
    answer, and records the answer of the first call once more *)
Theorem C51_second_call_refuted : exists s1 l1 s2 l2, n_run n_start = Fine (s1, l1) /\ n_run s1 = Fine (s2, l2) /\
  ~ exists xs vs, answers n_fun (t_w s1) xs vs (t_w s2) /\ t_samples s2 = t_samples s1 ++ xs /\ t_obs s2 = t_obs s1 ++ vs.
Proof.
  set (a := got (n_run n_start) (n_start, w_loc)). set (b := got (n_run (fst a)) (n_start, w_loc)).
  exists (fst a), (snd a), (fst b), (snd b).
  split; [rewrite <- surjective_pairing; apply is_fine_got; vm_compute; reflexivity|].
  split; [rewrite <- surjective_pairing; apply is_fine_got; vm_compute; reflexivity|].
  intros (xs & vs & A & B & C).
  assert (E : t_obs (fst b) = [[f1]] ++ [[f1]]) by (vm_compute; reflexivity).
  assert (E' : t_obs (fst a) = [[f1]]) by (vm_compute; reflexivity).
  rewrite E, E' in C. apply app_inv_head in C. subst vs.
  assert (Ew : t_w (fst a) = 2%Z) by (vm_compute; reflexivity). rewrite Ew in A.
  inversion A as [|? x v ? ? ? ? Q]; subst. unfold n_fun in Q. injection Q as Q _. vm_compute in Q. discriminate Q.
Qed.
