(** Facts about interleaved loops (ParModel.v): every schedule has the effect of some sequential order. *)
From Coq Require Import List Bool Arith Lia Permutation FunctionalExtensionality.
From Verif Require Import ParModel.
Import ListNotations.

Lemma upd_same {A B} dec (f : A -> B) a b : upd dec f a b a = b.
Proof. unfold upd. destruct (dec a a); congruence. Qed.
Lemma upd_other {A B} dec (f : A -> B) a b x : x <> a -> upd dec f a b x = f x.
Proof. unfold upd. destruct (dec x a); congruence. Qed.
Lemma upd_swap {A B} dec (f : A -> B) a b c d : a <> c -> upd dec (upd dec f a b) c d = upd dec (upd dec f c d) a b.
Proof. intros H. extensionality x. unfold upd. destruct (dec x c), (dec x a); congruence. Qed.
Lemma upd_twice {A B} dec (f : A -> B) a b c : upd dec (upd dec f a b) a c = upd dec f a c.
Proof. extensionality x. unfold upd. destruct (dec x a); congruence. Qed.
Lemma upd_id {A B} dec (f : A -> B) a : upd dec f a (f a) = f.
Proof. extensionality x. unfold upd. destruct (dec x a); congruence. Qed.

Section Facts.
Variables (L V : Type) (dec : forall x y : L, {x = y} + {x <> y}).
Variable own : L -> owner.
Notation T := (task L V).
Notation exec := (@ParModel.exec L V dec).
Notation updn := (upd Nat.eq_dec).

(** a write to a location of another iteration commutes with the iteration *)
Lemma exec_write i p (t : T) (l : L) v j : respects own i p t -> own l = Private j -> j <> i ->
  forall m, exec t (upd dec m l v) = (upd dec (fst (exec t m)) l v, snd (exec t m)).
Proof.
  intros Hr Ho Hj. induction Hr as [p ok Hp | p l' k Hm Hk IH | p l' v' k Hm Hk IH | k Hk IH | k Hk IH]; intros m; cbn.
  - reflexivity.
  - assert (l' <> l) by (intros ->; rewrite Ho in Hm; destruct Hm as [?|[?|[? ?]]]; congruence).
    rewrite (upd_other dec m l v l') by assumption. apply IH.
  - assert (l' <> l) by (intros ->; rewrite Ho in Hm; destruct Hm as [?|[? ?]]; congruence).
    rewrite upd_swap by congruence. apply IH.
  - apply IH.
  - apply IH.
Qed.

(** an iteration does not change what others may read outside the critical section *)
Lemma exec_frame i p (t : T) (l : L) j : respects own i p t -> own l = Shared \/ own l = Private j -> j <> i ->
  forall m, fst (exec t m) l = m l.
Proof.
  intros Hr Ho Hj. induction Hr as [p ok Hp | p l' k Hm Hk IH | p l' v' k Hm Hk IH | k Hk IH | k Hk IH]; intros m; cbn.
  - reflexivity.
  - apply IH.
  - rewrite IH. apply upd_other. intros ->. destruct Hm as [?|[? ?]], Ho; congruence.
  - apply IH.
  - apply IH.
Qed.

(** after its critical section an iteration commutes with any other *)
Lemma exec_commute i p (t : T) j (u : T) : respects own i p t -> respects own j After u -> j <> i -> forall m,
  exec t (fst (exec u m)) = (fst (exec u (fst (exec t m))), snd (exec t m)) /\
  snd (exec u (fst (exec t m))) = snd (exec u m).
Proof.
  intros Ht Hu Hj. remember After as q eqn:Hq.
  induction Hu as [q ok Hp | q l' k Hm Hk IH | q l' v' k Hm Hk IH | k Hk IH | k Hk IH]; intros m; cbn; try subst q; try discriminate.
  - destruct (exec t m); auto.
  - assert (Hl : own l' = Shared \/ own l' = Private j) by (destruct Hm as [?|[?|[? ?]]]; auto; discriminate).
    rewrite (exec_frame i p t l' j Ht Hl Hj m). apply IH. reflexivity.
  - assert (Hl : own l' = Private j) by (destruct Hm as [?|[? ?]]; auto; discriminate).
    destruct (IH eq_refl (upd dec m l' v')) as [A B].
    rewrite (exec_write i p t l' v' j Ht Hl Hj m) in A, B. cbn in A, B. split; assumption.
Qed.

(** the iterations one after the other, with what is left of each *)
Fixpoint seqrun (order : list nat) (pm : (nat -> T) * (L -> V)) : (nat -> T) * (L -> V) :=
  match order with
  | [] => pm
  | i :: r => seqrun r (updn (fst pm) i (Stop (snd (exec (fst pm i) (snd pm)))), fst (exec (fst pm i) (snd pm)))
  end.

Definition inv (n : nat) (s : st L V) (ph : nat -> phase) : Prop :=
  (forall i, (i < n)%nat -> respects own i (ph i) (pool s i)) /\
  (forall i, lk s = Some i <-> (i < n)%nat /\ ph i = Inside).

Lemma inv_start n body m : (forall i, (i < n)%nat -> respects own i Before (body i)) ->
  inv n {| mem := m; lk := None; pool := body |} (fun _ => Before).
Proof. intros H. split; cbn; auto. intros i; split; [discriminate | intros [_ ?]; discriminate]. Qed.

(** the phase after the next access *)
Definition nextp (t : T) (p : phase) : phase := match t with Lock _ => Inside | Unlock _ => After | _ => p end.

Lemma inv_step n s s' ph i : inv n s ph -> step dec n i s = Some s' -> inv n s' (updn ph i (nextp (pool s i) (ph i))).
Proof.
  intros [H1 H2] Hs. unfold step in Hs. destruct (i <? n)%nat eqn:Hi; [|discriminate]. apply Nat.ltb_lt in Hi.
  assert (Hx := H1 i Hi).
  assert (Hrest : forall k p, respects own i p k -> forall x, (x < n)%nat ->
             respects own x (updn ph i p x) (updn (pool s) i k x)).
  { intros k p Hk x Hlt. unfold upd. destruct (Nat.eq_dec x i) as [-> | Hne]; auto. }
  assert (Hsame : forall x, lk s = Some x <-> (x < n)%nat /\ updn ph i (ph i) x = Inside).
  { intros x. rewrite upd_id. apply H2. }
  destruct (pool s i) as [ok | l k | l v k | k | k] eqn:Hp; try discriminate; cbn [nextp].
  - injection Hs as <-. inversion Hx; subst. split; cbn; auto.
  - injection Hs as <-. inversion Hx; subst. split; cbn; auto.
  - destruct (lk s) eqn:Hlk; [discriminate|]. injection Hs as <-. inversion Hx; subst. split; cbn; auto.
    intros x. unfold upd. destruct (Nat.eq_dec x i) as [-> | Hne].
    + split; auto.
    + split; [congruence|]. intros Hq. apply H2 in Hq. discriminate.
  - destruct (lk s) as [o|] eqn:Hlk; [|discriminate]. destruct (o =? i)%nat eqn:Ho; [|discriminate].
    apply Nat.eqb_eq in Ho. subst o. injection Hs as <-. inversion Hx; subst. split; cbn; auto.
    intros x. split; [discriminate|]. unfold upd. destruct (Nat.eq_dec x i) as [-> | Hne]; intros [Ha Hb]; [discriminate|].
    assert (Some i = Some x) by (apply H2; auto). congruence.
Qed.

Lemma inv_run n sched : forall s s' ph, inv n s ph -> run dec n sched s = Some s' -> exists ph', inv n s' ph'.
Proof.
  induction sched as [|i r IH]; cbn; intros s s' ph Hi Hr.
  - injection Hr as <-. eauto.
  - destruct (step dec n i s) eqn:Hs; [|discriminate]. eapply IH; [eapply inv_step; eauto | eauto].
Qed.

(** no data race, no misuse of the mutex *)
Lemma inv_defined n s ph : inv n s ph -> undefined n s -> exists i, (i < n)%nat /\ pool s i = Stop false.
Proof.
  intros [H1 H2] [[i [Hi H]] | [i [j [Hi [Hj [Hne H]]]]]].
  - assert (Hx := H1 i Hi). exists i. destruct (pool s i); subst; auto; try contradiction; exfalso.
    + apply H2 in H. inversion Hx; subst. destruct H; congruence.
    + inversion Hx; subst. apply H. apply H2. auto.
  - exfalso. assert (Hx := H1 i Hi). assert (Hy := H1 j Hj).
    assert (Hnot : ~ (ph i = Inside /\ ph j = Inside)).
    { intros [Ha Hb]. assert (lk s = Some i) by (apply H2; auto). assert (lk s = Some j) by (apply H2; auto). congruence. }
    destruct (pool s i); try contradiction; destruct (pool s j); try contradiction; cbn in H; subst;
      inversion Hx as [|? ? ? Hm|? ? ? ? Hm| |]; inversion Hy as [|? ? ? Hm'|? ? ? ? Hm'| |]; subst;
      unfold may_read, may_write in *; intuition congruence.
Qed.

(** [j] may be moved to the front when it is past its critical section *)
Lemma front n order : forall pm ph j, NoDup order -> In j order -> (forall i, In i order -> (i < n)%nat) ->
  (forall i, (i < n)%nat -> respects own i (ph i) (fst pm i)) -> respects own j After (fst pm j) ->
  seqrun order pm = seqrun (j :: remove Nat.eq_dec j order) pm.
Proof.
  induction order as [|i r IH]; intros pm ph j Hnd Hin Hlt Hr Hj; [contradiction|].
  inversion Hnd as [|? ? Hni Hnd']; subst.
  destruct (Nat.eq_dec j i) as [-> | Hne].
  - cbn [remove]. destruct (Nat.eq_dec i i); [|congruence]. rewrite notin_remove by assumption. reflexivity.
  - destruct Hin as [-> | Hin]; [congruence|].
    cbn [remove]. destruct (Nat.eq_dec j i); [congruence|].
    cbn [seqrun].
    assert (Hi : respects own i (ph i) (fst pm i)) by (apply Hr, Hlt; left; reflexivity).
    set (pm1 := (updn (fst pm) i _, _)).
    assert (E1 : fst pm1 j = fst pm j) by (unfold pm1; cbn; apply upd_other; assumption).
    rewrite (IH pm1 (updn ph i After) j Hnd' Hin).
    2: { intros x Hx. apply Hlt. right. assumption. }
    2: { intros x Hx. unfold pm1, upd; cbn. destruct (Nat.eq_dec x i) as [-> |]; [constructor; discriminate | auto]. }
    2: { rewrite E1. assumption. }
    cbn [seqrun]. rewrite E1. unfold pm1. cbn [fst snd].
    destruct (exec_commute i (ph i) (fst pm i) j (fst pm j) Hi Hj Hne (snd pm)) as [A B].
    rewrite (upd_other Nat.eq_dec (fst pm) j _ i) by congruence.
    rewrite A. cbn [fst snd]. rewrite B. rewrite (upd_swap Nat.eq_dec _ i _ j) by congruence. reflexivity.
Qed.

(** an access outside the critical section may be delayed until the turn of the iteration *)
Lemma delay n order : forall pm pm' ph j, NoDup order -> In j order -> (forall i, In i order -> (i < n)%nat) ->
  (forall i, (i < n)%nat -> respects own i (ph i) (fst pm i)) ->
  (exists l k, fst pm j = Rd l k /\ (own l = Shared \/ own l = Private j) /\ pm' = (updn (fst pm) j (k (snd pm l)), snd pm)) \/
  (exists l v k, fst pm j = Wr l v k /\ own l = Private j /\ pm' = (updn (fst pm) j k, upd dec (snd pm) l v)) ->
  seqrun order pm = seqrun order pm'.
Proof.
  induction order as [|i r IH]; intros pm pm' ph j Hnd Hin Hlt Hr Hc; [contradiction|].
  inversion Hnd as [|? ? Hni Hnd']; subst. cbn [seqrun].
  assert (Hi : respects own i (ph i) (fst pm i)) by (apply Hr, Hlt; left; reflexivity).
  destruct (Nat.eq_dec j i) as [-> | Hne].
  - destruct Hc as [[l [k [Ep [Ho ->]]]] | [l [v [k [Ep [Ho ->]]]]]]; cbn [fst snd];
      rewrite Ep; cbn [ParModel.exec]; rewrite upd_same, upd_twice; reflexivity.
  - destruct Hin as [-> | Hin]; [congruence|].
    apply (IH _ _ (updn ph i After) j Hnd' Hin).
    + intros x Hx. apply Hlt. right. assumption.
    + intros x Hx. unfold upd; cbn. destruct (Nat.eq_dec x i) as [-> |]; [constructor; discriminate | auto].
    + destruct Hc as [[l [k [Ep [Ho ->]]]] | [l [v [k [Ep [Ho ->]]]]]]; cbn [fst snd].
      * left. exists l, k. rewrite (upd_other Nat.eq_dec _ i _ j) by assumption. split; [assumption|split;[assumption|]].
        rewrite (upd_other Nat.eq_dec _ j _ i) by congruence.
        rewrite (exec_frame i _ _ l j Hi Ho Hne). rewrite (upd_swap Nat.eq_dec _ i _ j) by congruence. reflexivity.
      * right. exists l, v, k. rewrite (upd_other Nat.eq_dec _ i _ j) by assumption. split; [assumption|split;[assumption|]].
        rewrite (upd_other Nat.eq_dec _ j _ i) by congruence.
        rewrite (exec_write i _ _ l v j Hi Ho Hne). cbn [fst snd]. rewrite (upd_swap Nat.eq_dec _ i _ j) by congruence. reflexivity.
Qed.

(** all iterations have come to an end *)
Definition ended (n : nat) (s : st L V) : Prop := forall i, (i < n)%nat -> exists ok, pool s i = Stop ok.

Lemma seqrun_ended n order : forall s, ended n s -> (forall i, In i order -> (i < n)%nat) ->
  seqrun order (pool s, mem s) = (pool s, mem s).
Proof.
  induction order as [|i r IH]; intros s He Hlt; [reflexivity|]. cbn [seqrun fst snd].
  destruct (He i (Hlt i (or_introl eq_refl))) as [ok E]. rewrite E. cbn. rewrite <- E, upd_id.
  apply IH; auto. intros x Hx. apply Hlt. right. assumption.
Qed.

Lemma remove_perm j l : NoDup l -> In j l -> Permutation l (j :: remove Nat.eq_dec j l).
Proof.
  induction l as [|a r IH]; intros Hnd Hin; [contradiction|]. inversion Hnd; subst. cbn [remove].
  destruct (Nat.eq_dec j a) as [-> | Hne].
  - rewrite notin_remove by assumption. reflexivity.
  - destruct Hin as [-> | Hin]; [congruence|]. rewrite perm_swap. constructor. apply IH; assumption.
Qed.

Lemma serial n sched : forall s s' ph, inv n s ph -> run dec n sched s = Some s' -> ended n s' ->
  exists order, Permutation (seq 0 n) order /\
    (forall i, lk s = Some i -> exists r, order = i :: r) /\
    (pool s', mem s') = seqrun order (pool s, mem s).
Proof.
  induction sched as [|j r IH]; intros s s' ph Hi Hr He.
  - cbn in Hr. injection Hr as <-. exists (seq 0 n). split; [reflexivity|]. split.
    + intros i Hl. exfalso. destruct Hi as [H1 H2]. apply H2 in Hl. destruct Hl as [Hlt Hp].
      destruct (He i Hlt) as [ok E]. assert (Hx := H1 i Hlt). rewrite E, Hp in Hx. inversion Hx. congruence.
    + symmetry. apply (seqrun_ended n); auto. intros i Hin. apply in_seq in Hin. lia.
  - cbn in Hr. destruct (step dec n j s) as [s1|] eqn:Hs; [|discriminate].
    assert (Hi1 := inv_step n s s1 ph j Hi Hs).
    destruct (IH s1 s' _ Hi1 Hr He) as [order [Hperm [Hhd Heq]]].
    assert (Hnd : NoDup order) by (eapply Permutation_NoDup; [exact Hperm | apply seq_NoDup]).
    assert (Hlt : forall i, In i order -> (i < n)%nat).
    { intros i Hin. apply Permutation_sym in Hperm. eapply Permutation_in in Hin; [|exact Hperm]. apply in_seq in Hin. lia. }
    unfold step in Hs. destruct (j <? n)%nat eqn:Hj; [|discriminate]. apply Nat.ltb_lt in Hj.
    assert (Hin : In j order) by (eapply Permutation_in; [exact Hperm | apply in_seq; lia]).
    destruct Hi as [H1 H2]. assert (Hx := H1 j Hj).
    destruct (pool s j) as [ok | l k | l v k | k | k] eqn:Hp; try discriminate.
    + (* read *) injection Hs as <-. cbn [lk pool mem] in *. exists order. split; [assumption|split;[assumption|]].
      rewrite Heq. inversion Hx as [|? ? ? Hm Hk| | |]; subst.
      destruct Hm as [Hm | [Hm | [Hg Hin']]].
      1,2: symmetry; apply (delay n order (pool s, mem s) _ ph j Hnd Hin Hlt H1); left; exists l, k; auto.
      assert (Hlk : lk s = Some j) by (apply H2; auto). destruct (Hhd j Hlk) as [rest ->]. cbn [seqrun fst snd].
      rewrite Hp. cbn [ParModel.exec]. rewrite upd_same, upd_twice. reflexivity.
    + (* write *) injection Hs as <-. cbn [lk pool mem] in *. exists order. split; [assumption|split;[assumption|]].
      rewrite Heq. inversion Hx as [| |? ? ? ? Hm Hk| |]; subst.
      destruct Hm as [Hm | [Hg Hin']].
      1: symmetry; apply (delay n order (pool s, mem s) _ ph j Hnd Hin Hlt H1); right; exists l, v, k; auto.
      assert (Hlk : lk s = Some j) by (apply H2; auto). destruct (Hhd j Hlk) as [rest ->]. cbn [seqrun fst snd].
      rewrite Hp. cbn [ParModel.exec]. rewrite upd_same, upd_twice. reflexivity.
    + (* lock *) destruct (lk s) eqn:Hlk; [discriminate|]. injection Hs as <-. cbn [lk pool mem] in *.
      exists order. split; [assumption|]. split; [congruence|]. rewrite Heq.
      destruct (Hhd j eq_refl) as [rest ->]. cbn [seqrun fst snd]. rewrite Hp. cbn [ParModel.exec].
      rewrite upd_same, upd_twice. reflexivity.
    + (* unlock *) destruct (lk s) as [o|] eqn:Hlk; [|discriminate]. destruct (o =? j)%nat eqn:Ho; [|discriminate].
      apply Nat.eqb_eq in Ho. subst o. injection Hs as <-. cbn [lk pool mem] in *.
      exists (j :: remove Nat.eq_dec j order). split; [|split].
      * rewrite Hperm. apply remove_perm; assumption.
      * intros i Hli. injection Hli as ->. eauto.
      * rewrite Heq. inversion Hx; subst. destruct Hi1 as [H1' _]. cbn [pool] in H1'.
        rewrite (front n order (_, mem s) _ j Hnd Hin Hlt H1').
        -- cbn [seqrun fst snd]. rewrite Hp. cbn [ParModel.exec]. rewrite upd_same, upd_twice. reflexivity.
        -- cbn [fst]. rewrite upd_same. assumption.
Qed.

(** * Progress and termination *)
Lemma progress n s ph : inv n s ph -> ended n s \/ exists i s', step dec n i s = Some s'.
Proof.
  intros [H1 H2].
  assert (Hfin : forall k, (k <= n)%nat -> (forall i, (i < k)%nat -> exists ok, pool s i = Stop ok) \/
            exists i, (i < k)%nat /\ forall ok, pool s i <> Stop ok).
  { induction k as [|k IH]; intros Hk; [left; intros i Hi; lia|].
    destruct IH as [H | [i [Hi H]]]; [lia | | right; exists i; split; [lia|assumption]].
    destruct (pool s k) eqn:E; [left | right; exists k; split; [lia|congruence] ..].
    intros i Hi. destruct (Nat.eq_dec i k) as [-> |]; [eauto | apply H; lia]. }
  destruct (Hfin n (le_n n)) as [H | [i [Hi H]]]; [left; exact H|]. right.
  assert (Hinside : forall o, lk s = Some o -> exists s', step dec n o s = Some s').
  { intros o Ho. assert (Ho' := proj1 (H2 o) Ho). destruct Ho' as [Hlt Hp]. assert (Hx := H1 o Hlt). rewrite Hp in Hx.
    unfold step. apply Nat.ltb_lt in Hlt. rewrite Hlt. destruct (pool s o); inversion Hx; subst; eauto; try congruence.
    rewrite Ho, Nat.eqb_refl. eauto. }
  destruct (lk s) as [o|] eqn:Hlk; [destruct (Hinside o eq_refl); eauto|].
  exists i. unfold step. assert (Hx := H1 i Hi). apply Nat.ltb_lt in Hi as Hi'. rewrite Hi'.
  destruct (pool s i) as [ok | | | |] eqn:E; eauto; [exfalso; eapply H; eauto | rewrite Hlk; eauto |].
  inversion Hx; subst. assert (None = Some i) by (apply H2; auto). discriminate.
Qed.

Inductive sub : T -> T -> Prop :=
| sub_rd l k v : sub (k v) (Rd l k)
| sub_wr l v k : sub k (Wr l v k)
| sub_lock k : sub k (Lock k)
| sub_unlock k : sub k (Unlock k).
Lemma sub_wf t : Acc sub t.
Proof. induction t; constructor; intros u Hu; inversion Hu; subst; auto. Qed.

Inductive less : list T -> list T -> Prop :=
| less_hd t u r : sub t u -> less (t :: r) (u :: r)
| less_tl t r q : less r q -> less (t :: r) (t :: q).
Lemma less_wf l : Acc less l.
Proof.
  induction l as [|t r IH]; [constructor; intros q Hq; inversion Hq|].
  revert t. induction IH as [r _ IHr]. intros t. induction (sub_wf t) as [t _ IHt].
  constructor. intros q Hq. inversion Hq; subst; auto.
Qed.

Lemma map_upd (p : nat -> T) i t : forall n a, (a <= i < a + n)%nat -> sub t (p i) -> less (map (updn p i t) (seq a n)) (map p (seq a n)).
Proof.
  induction n as [|n IH]; intros a Hi Hs; [lia|]. cbn [seq map].
  destruct (Nat.eq_dec a i) as [-> | Hne].
  - rewrite upd_same. replace (map (updn p i t) (seq (S i) n)) with (map p (seq (S i) n)).
    + constructor. assumption.
    + apply map_ext_in. intros x Hx. apply in_seq in Hx. rewrite upd_other by lia. reflexivity.
  - rewrite upd_other by assumption. constructor. apply IH; [lia|assumption].
Qed.

Lemma step_sub n i s s' : step dec n i s = Some s' -> less (map (pool s') (seq 0 n)) (map (pool s) (seq 0 n)).
Proof.
  unfold step. destruct (i <? n)%nat eqn:Hi; [|discriminate]. apply Nat.ltb_lt in Hi.
  destruct (pool s i) as [ok | l k | l v k | k | k] eqn:E; try discriminate.
  - intros H; injection H as <-. cbn. apply map_upd; [lia|]. rewrite E. constructor.
  - intros H; injection H as <-. cbn. apply map_upd; [lia|]. rewrite E. constructor.
  - destruct (lk s); [discriminate|]. intros H; injection H as <-. cbn. apply map_upd; [lia|]. rewrite E. constructor.
  - destruct (lk s) as [o|]; [|discriminate]. destruct (o =? i)%nat; [|discriminate].
    intros H; injection H as <-. cbn. apply map_upd; [lia|]. rewrite E. constructor.
Qed.

Definition succ (n : nat) (s' s : st L V) : Prop := exists i, step dec n i s = Some s'.
Lemma steps_wf n s : Acc (succ n) s.
Proof.
  remember (map (pool s) (seq 0 n)) as l eqn:El. revert s El. induction (less_wf l) as [l _ IH]. intros s ->.
  constructor. intros s' [i Hs]. eapply IH; [|reflexivity]. eapply step_sub; eauto.
Qed.

Lemma complete n : forall s ph, inv n s ph -> exists sched s', run dec n sched s = Some s' /\ ended n s'.
Proof.
  intros s. induction (steps_wf n s) as [s _ IH]. intros ph Hi.
  destruct (progress n s ph Hi) as [He | [i [s1 Hs]]].
  - exists [], s. auto.
  - destruct (IH s1 (ex_intro _ i Hs) _ (inv_step n s s1 ph i Hi Hs)) as [sched [s' [Hr He]]].
    exists (i :: sched), s'. cbn. rewrite Hs. auto.
Qed.

Lemma run_app n a b (s : st L V) : run dec n (a ++ b) s = match run dec n a s with Some s' => run dec n b s' | None => None end.
Proof. revert s. induction a as [|i r IH]; intros s; cbn; [reflexivity|]. destruct (step dec n i s); auto. Qed.

Lemma stop_stays n sched : forall (s s' : st L V) i ok, run dec n sched s = Some s' -> pool s i = Stop ok -> pool s' i = Stop ok.
Proof.
  induction sched as [|j r IH]; cbn; intros s s' i ok Hr Hp; [congruence|].
  destruct (step dec n j s) as [s1|] eqn:Hs; [|discriminate]. eapply IH; [exact Hr|].
  assert (j <> i) by (intros ->; unfold step in Hs; rewrite Hp in Hs; destruct (i <? n)%nat; discriminate).
  unfold step in Hs. destruct (j <? n)%nat; [|discriminate].
  destruct (pool s j) as [ok' | l k | l v k | k | k]; try discriminate.
  - injection Hs as <-. cbn. rewrite upd_other; auto.
  - injection Hs as <-. cbn. rewrite upd_other; auto.
  - destruct (lk s); [discriminate|]. injection Hs as <-. cbn. rewrite upd_other; auto.
  - destruct (lk s) as [o|]; [|discriminate]. destruct (o =? j)%nat; [|discriminate]. injection Hs as <-. cbn. rewrite upd_other; auto.
Qed.

(** * The sequential loop *)
Lemma seqrun_other order : forall pm i, ~ In i order -> fst (seqrun order pm) i = fst pm i.
Proof.
  induction order as [|j r IH]; intros pm i Hn; [reflexivity|]. cbn [seqrun]. rewrite IH.
  - cbn. apply upd_other. intros ->. apply Hn. left. reflexivity.
  - intros H. apply Hn. right. assumption.
Qed.

Lemma seqrun_loop order : forall p body m, NoDup order -> (forall i, In i order -> p i = body i) ->
  match seq_loop dec order body m with
  | Finish m' => m' = snd (seqrun order (p, m)) /\ forall i, In i order -> fst (seqrun order (p, m)) i = Stop true
  | Undef => exists i, In i order /\ fst (seqrun order (p, m)) i = Stop false
  | Deadlock => False
  end.
Proof.
  induction order as [|i r IH]; intros p body m Hnd Hp; cbn [seq_loop seqrun]; [split; [reflexivity | intros i []]|].
  inversion Hnd as [|? ? Hni Hnd']; subst. cbn [fst snd]. rewrite (Hp i (or_introl eq_refl)).
  destruct (exec (body i) m) as [m' ok] eqn:E. cbn [fst snd].
  assert (Hi : fst (seqrun r (updn p i (Stop ok), m')) i = Stop ok) by (rewrite seqrun_other by assumption; cbn; apply upd_same).
  destruct ok.
  - specialize (IH (updn p i (Stop true)) body m' Hnd').
    assert (Hq : forall x, In x r -> updn p i (Stop true) x = body x).
    { intros x Hx. rewrite upd_other by (intros ->; contradiction). apply Hp. right. assumption. }
    specialize (IH Hq). destruct (seq_loop dec r body m') as [m''| |].
    + destruct IH as [A B]. split; [assumption|]. intros x [<- | Hx]; auto.
    + destruct IH as [x [Hx Hf]]. exists x. split; [right; assumption | assumption].
    + contradiction.
  - exists i. split; [left; reflexivity | assumption].
Qed.

(** one iteration run alone from a state with a free mutex *)
Definition unlocked (p : phase) (lk : option nat) (i : nat) : Prop := match p with Inside => lk = Some i | _ => lk = None end.
Lemma solo n i : (i < n)%nat -> forall t p, respects own i p t -> forall s, pool s i = t -> unlocked p (lk s) i ->
  exists sched, run dec n sched s = Some {| mem := fst (exec t (mem s)); lk := None; pool := updn (pool s) i (Stop (snd (exec t (mem s)))) |}.
Proof.
  intros Hi t p Hr. apply Nat.ltb_lt in Hi.
  induction Hr as [p ok Hp | p l k Hm Hk IH | p l v k Hm Hk IH | k Hk IH | k Hk IH]; intros s Hs Hu.
  - exists []. cbn. assert (lk s = None) by (destruct p; cbn in Hu; congruence). rewrite <- Hs, upd_id. destruct s; cbn in *; subst; reflexivity.
  - destruct (IH (mem s l) {| mem := mem s; lk := lk s; pool := updn (pool s) i (k (mem s l)) |}) as [sc Hsc]; cbn; [apply upd_same | assumption |].
    exists (i :: sc). cbn [run]. unfold step. rewrite Hi, Hs, Hsc. cbn. rewrite upd_twice. reflexivity.
  - destruct (IH {| mem := upd dec (mem s) l v; lk := lk s; pool := updn (pool s) i k |}) as [sc Hsc]; cbn; [apply upd_same | assumption |].
    exists (i :: sc). cbn [run]. unfold step. rewrite Hi, Hs, Hsc. cbn. rewrite upd_twice. reflexivity.
  - destruct (IH {| mem := mem s; lk := Some i; pool := updn (pool s) i k |}) as [sc Hsc]; cbn; [apply upd_same | reflexivity |].
    exists (i :: sc). cbn [run]. unfold step. cbn in Hu. rewrite Hi, Hs, Hu, Hsc. cbn. rewrite upd_twice. reflexivity.
  - destruct (IH {| mem := mem s; lk := None; pool := updn (pool s) i k |}) as [sc Hsc]; cbn; [apply upd_same | reflexivity |].
    exists (i :: sc). cbn [run]. unfold step. cbn in Hu. rewrite Hi, Hs, Hu, Nat.eqb_refl, Hsc. cbn. rewrite upd_twice. reflexivity.
Qed.

(** a sequential order is one of the schedules *)
Lemma order_run n order : forall s, NoDup order -> (forall i, In i order -> (i < n)%nat) -> lk s = None ->
  (forall i, In i order -> respects own i Before (pool s i)) ->
  exists sched, run dec n sched s = Some {| mem := snd (seqrun order (pool s, mem s)); lk := None; pool := fst (seqrun order (pool s, mem s)) |}.
Proof.
  induction order as [|i r IH]; intros s Hnd Hlt Hl Hr.
  - exists []. cbn. destruct s; cbn in *; subst; reflexivity.
  - inversion Hnd as [|? ? Hni Hnd']; subst.
    destruct (solo n i (Hlt i (or_introl eq_refl)) (pool s i) Before (Hr i (or_introl eq_refl)) s eq_refl Hl) as [sc Hsc].
    destruct (IH {| mem := fst (exec (pool s i) (mem s)); lk := None; pool := updn (pool s) i (Stop (snd (exec (pool s i) (mem s)))) |}) as [sc' Hsc']; cbn; auto.
    + intros x Hx. apply Hlt. right. assumption.
    + intros x Hx. rewrite upd_other by (intros ->; contradiction). apply Hr. right. assumption.
    + exists (sc ++ sc'). rewrite run_app, Hsc, Hsc'. reflexivity.
Qed.
End Facts.
