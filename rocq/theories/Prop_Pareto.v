(** Properties C44 and C45: Pareto dominance and the Pareto set. *)
From Coq Require Import ZArith List Bool Permutation Lia.
From Verif Require Import F64 ParetoModel.
Import ListNotations.
Open Scope Z_scope.

(** ** Specification *)

(** [u] Pareto-dominates [v] (all objectives are maximised) *)
Definition dominates (u v : vec) : Prop :=
  (forall i a b, nth_error u i = Some a -> nth_error v i = Some b -> flt a b = false) /\
  (exists i a b, nth_error u i = Some a /\ nth_error v i = Some b /\ flt b a = true).

(** [u] comes strictly before [v] in decreasing lexicographic order *)
Definition lex_before (u v : vec) : Prop :=
  exists i a b, nth_error u i = Some a /\ nth_error v i = Some b /\ flt b a = true /\
    forall j a' b', (j < i)%nat -> nth_error u j = Some a' -> nth_error v j = Some b' -> feq a' b' = true.

Definition good (d : nat) (v : vec) : Prop := length v = d /\ Forall notnan v.

(** ** Flags *)
Lemma flags_spec u : forall v f1 f2, length u = length v ->
  exists b1 b2, dominate_flags u v f1 f2 = Some (b1, b2) /\
    (b1 = true <-> f1 = true \/ exists i a b, nth_error u i = Some a /\ nth_error v i = Some b /\ flt b a = true) /\
    (b2 = true <-> f2 = true \/ exists i a b, nth_error u i = Some a /\ nth_error v i = Some b /\ flt a b = true).
Proof.
  induction u as [|x u IH]; intros [|y v] f1 f2 Hl; simpl in Hl; try lia.
  - exists f1, f2. split; [reflexivity|].
    split; (split; [auto|intros [H|(i & a & b & H & _)]; [auto|destruct i; discriminate]]).
  - assert (Hc : forall (P : F -> F -> Prop),
      (exists i a b, nth_error (x :: u) i = Some a /\ nth_error (y :: v) i = Some b /\ P a b) <->
      P x y \/ (exists i a b, nth_error u i = Some a /\ nth_error v i = Some b /\ P a b)).
    { intro P. split.
      - intros ([|i] & a & b & H1 & H2 & H3); simpl in *.
        + inversion H1; inversion H2; subst; auto.
        + right. exists i, a, b; auto.
      - intros [H|(i & a & b & H1 & H2 & H3)].
        + exists O, x, y; auto.
        + exists (S i), a, b; auto. }
    pose proof (Hc (fun a b => flt b a = true)) as Hc1. pose proof (Hc (fun a b => flt a b = true)) as Hc2.
    cbv beta in Hc1, Hc2. clear Hc.
    cbn [dominate_flags]. destruct (flt y x) eqn:E1; [|destruct (flt x y) eqn:E2].
    + destruct (IH v true f2) as (b1 & b2 & -> & H1 & H2); [lia|].
      exists b1, b2. split; [reflexivity|]. rewrite Hc1, Hc2, H1, H2.
      assert (E2 : flt x y = false) by (apply flt_asym; auto).
      rewrite E2. intuition discriminate.
    + destruct (IH v f1 true) as (b1 & b2 & -> & H1 & H2); [lia|].
      exists b1, b2. split; [reflexivity|]. rewrite Hc1, Hc2, H1, H2. intuition discriminate.
    + destruct (IH v f1 f2) as (b1 & b2 & -> & H1 & H2); [lia|].
      exists b1, b2. split; [reflexivity|]. rewrite Hc1, Hc2, H1, H2. intuition discriminate.
Qed.

Lemma dominates_no u v : length u = length v ->
  (dominates u v <-> (exists i a b, nth_error u i = Some a /\ nth_error v i = Some b /\ flt b a = true) /\
   ~ (exists i a b, nth_error u i = Some a /\ nth_error v i = Some b /\ flt a b = true)).
Proof.
  intro Hl. unfold dominates. split.
  - intros [H1 H2]. split; auto. intros (i & a & b & Ha & Hb & H). rewrite (H1 i a b Ha Hb) in H. discriminate.
  - intros [H1 H2]. split; auto. intros i a b Ha Hb. destruct (flt a b) eqn:E; auto.
    exfalso. apply H2. exists i, a, b; auto.
Qed.

(** C45: [dominate_flag] decides Pareto dominance (no condition on NaN) *)
Theorem C45_dominate_flag :
  forall u v, length u = length v -> u <> [] ->
  exists z, dominate_flag u v = Some z /\
    (z = 1 <-> dominates u v) /\ (z = -1 <-> dominates v u) /\
    (z = 0 <-> ~ dominates u v /\ ~ dominates v u).
Proof.
  intros u v Hl Hne. unfold dominate_flag. destruct u as [|x u]; [congruence|].
  destruct (flags_spec (x :: u) v false false Hl) as (b1 & b2 & -> & H1 & H2).
  set (P1 := exists i a b, nth_error (x :: u) i = Some a /\ nth_error v i = Some b /\ flt b a = true) in *.
  set (P2 := exists i a b, nth_error (x :: u) i = Some a /\ nth_error v i = Some b /\ flt a b = true) in *.
  assert (D1 : dominates (x :: u) v <-> P1 /\ ~ P2) by (apply dominates_no; auto).
  assert (D2 : dominates v (x :: u) <-> P2 /\ ~ P1).
  { rewrite dominates_no by auto. unfold P1, P2. split; intros [(i & a & b & Q1 & Q2 & Q3) Q]; (split;
      [exists i, b, a; auto | intros (i' & a' & b' & R1 & R2 & R3); apply Q; exists i', b', a'; auto]). }
  eexists. split; [reflexivity|]. rewrite D1, D2. clear D1 D2. clearbody P1 P2.
  destruct b1, b2; simpl; intuition (try discriminate; try lia).
Qed.

Lemma flt_le_trans_nan x y z : notnan y -> flt y x = false -> flt z y = false -> flt z x = false.
Proof. intros. eapply nflt_trans; eauto. Qed.

(** C45: dominance is irreflexive and asymmetric, and transitive on vectors without NaN of one length *)
Theorem C45_dominance_strict_partial_order :
  (forall u, ~ dominates u u) /\
  (forall u v, dominates u v -> ~ dominates v u) /\
  (forall d u v w, good d u -> good d v -> good d w -> dominates u v -> dominates v w -> dominates u w).
Proof.
  split; [|split].
  - intros u [_ (i & a & b & H1 & H2 & H3)]. rewrite H1 in H2. inversion H2; subst.
    rewrite flt_irrefl in H3. discriminate.
  - intros u v [_ (i & a & b & H1 & H2 & H3)] [H _].
    rewrite (H i b a H2 H1) in H3. discriminate.
  - intros d u v w [Lu Nu] [Lv Nv] [Lw Nw] [H1 (i & a & b & Ha & Hb & Hab)] [H2 _].
    assert (Hmid : forall j c, nth_error u j = Some c -> exists e, nth_error v j = Some e /\ notnan e).
    { intros j c Hj. destruct (nth_error v j) as [e|] eqn:Ev.
      - exists e. split; auto. rewrite Forall_forall in Nv. apply Nv. eapply nth_error_In; eauto.
      - apply nth_error_None in Ev.
        assert (j < length u)%nat by (apply nth_error_Some; congruence). lia. }
    split.
    + intros j c e Hc He. destruct (Hmid j c Hc) as (g & Hg & Ng).
      apply (nflt_trans c g e); eauto.
    + destruct (nth_error w i) as [c|] eqn:Ec.
      * exists i, a, c. split; [auto|split; [auto|]].
        destruct (Hmid i a Ha) as (g & Hg & Ng). rewrite Hb in Hg. inversion Hg; subst g.
        apply (nflt_flt_trans c b a); eauto.
        rewrite Forall_forall in Nw. apply Nw. eapply nth_error_In; eauto.
      * apply nth_error_None in Ec.
        assert (i < length u)%nat by (apply nth_error_Some; congruence). lia.
Qed.

(** ** Lists *)
Lemma filter_le {A} (f g : A -> bool) l :
  (forall x, In x l -> f x = true -> g x = true) -> (length (filter f l) <= length (filter g l))%nat.
Proof.
  induction l as [|a l IH]; intro H; simpl; auto.
  assert (IH' := IH (fun x Hx => H x (or_intror Hx))).
  pose proof (H a (or_introl eq_refl)) as Ha.
  destruct (f a); [rewrite Ha by auto|destruct (g a)]; simpl; lia.
Qed.

Lemma filter_lt {A} (f g : A -> bool) l :
  (forall x, In x l -> f x = true -> g x = true) ->
  (exists x, In x l /\ g x = true /\ f x = false) ->
  (length (filter f l) < length (filter g l))%nat.
Proof.
  induction l as [|a l IH]; intros H (x & Hin & Hg & Hf); simpl in *; [contradiction|].
  pose proof (H a (or_introl eq_refl)) as Ha.
  assert (Hle : (length (filter f l) <= length (filter g l))%nat) by (apply filter_le; auto).
  destruct Hin as [->|Hin].
  - rewrite Hf, Hg. simpl. lia.
  - assert (length (filter f l) < length (filter g l))%nat by (apply IH; eauto).
    destruct (f a); [rewrite Ha by auto|destruct (g a)]; simpl; lia.
Qed.

Lemma filter_perm {A} (f : A -> bool) l l' : Permutation l l' -> Permutation (filter f l) (filter f l').
Proof.
  induction 1 as [|x l l' _ IH|x y l|l1 l2 l3 _ IH1 _ IH2]; simpl.
  - constructor.
  - destruct (f x); auto.
  - destruct (f x), (f y); auto. constructor.
  - eapply perm_trans; eauto.
Qed.

Lemma filter_split {A} (f : A -> bool) l : Permutation (filter f l ++ filter (fun x => negb (f x)) l) l.
Proof.
  induction l as [|a l IH]; simpl; auto.
  destruct (f a); simpl; auto.
  apply Permutation_sym, Permutation_cons_app, Permutation_sym, IH.
Qed.

(** non-decreasing lists of naturals with the same elements are equal *)
Lemma sorted_nat_unique (l : list nat) : forall l',
  Permutation l l' ->
  (forall i j a b, (i < j)%nat -> nth_error l i = Some a -> nth_error l j = Some b -> (a <= b)%nat) ->
  (forall i j a b, (i < j)%nat -> nth_error l' i = Some a -> nth_error l' j = Some b -> (a <= b)%nat) ->
  l = l'.
Proof.
  assert (Hmin : forall a (l : list nat),
    (forall i j a' b, (i < j)%nat -> nth_error (a :: l) i = Some a' -> nth_error (a :: l) j = Some b -> (a' <= b)%nat) ->
    forall b, In b (a :: l) -> (a <= b)%nat).
  { intros a l0 H b [->|Hb]; auto. apply In_nth_error in Hb. destruct Hb as (j & Hj).
    apply (H O (S j)); simpl; auto. lia. }
  induction l as [|a l IH]; intros [|b l'] Hp H1 H2; auto.
  - apply Permutation_length in Hp. discriminate.
  - apply Permutation_length in Hp. discriminate.
  - assert (a = b).
    { apply Nat.le_antisymm.
      - apply (Hmin a l H1). apply (Permutation_in b (Permutation_sym Hp)). now left.
      - apply (Hmin b l' H2). apply (Permutation_in a Hp). now left. }
    subst b. f_equal. apply IH.
    + eapply Permutation_cons_inv; eauto.
    + intros i j x y Hij Hx Hy. apply (H1 (S i) (S j)); auto. lia.
    + intros i j x y Hij Hx Hy. apply (H2 (S i) (S j)); auto. lia.
Qed.

(** ** Lexicographic order *)
Lemma lex_total u v d : length u = d -> length v = d -> exists b, lex_objs u v = Some b.
Proof.
  revert v d; induction u as [|x u IH]; intros [|y v] d Hu Hv; simpl in *; try lia; eauto.
  destruct (flt y x); eauto. destruct (flt x y); eauto. apply (IH v (length u)); lia.
Qed.

Lemma lex_irrefl u : lex_objs u u = Some false.
Proof. induction u as [|x u IH]; simpl; auto. now rewrite flt_irrefl. Qed.

Lemma lex_trans u : forall v w d, good d u -> good d v -> good d w ->
  lex_objs u v = Some true -> lex_objs v w = Some true -> lex_objs u w = Some true.
Proof.
  induction u as [|x u IH]; intros [|y v] [|z w] d [Lu Nu] [Lv Nv] [Lw Nw] H1 H2; simpl in *; try lia; try discriminate.
  inversion Nu as [|? ? Nx Nu']; inversion Nv as [|? ? Ny Nv']; inversion Nw as [|? ? Nz Nw']; subst.
  destruct (flt y x) eqn:E1.
  - destruct (flt z y) eqn:E2.
    + rewrite (flt_trans _ _ _ E2 E1). reflexivity.
    + destruct (flt y z) eqn:E3; [discriminate|].
      rewrite (nflt_flt_trans z y x Nz E3 E1). reflexivity.
  - destruct (flt x y) eqn:E1'; [discriminate|].
    destruct (flt z y) eqn:E2.
    + rewrite (flt_nflt_trans z y x Nx E2 E1'). reflexivity.
    + destruct (flt y z) eqn:E3; [discriminate|].
      rewrite (nflt_trans z y x Ny E2 E1), (nflt_trans x y z Ny E1' E3).
      apply (IH v w (length u)); auto; split; auto; lia.
Qed.

(** the negation (with arguments swapped) is transitive too *)
Lemma lex_ntrans u : forall v w d, good d u -> good d v -> good d w ->
  lex_objs u v = Some false -> lex_objs v w = Some false -> lex_objs u w = Some false.
Proof.
  induction u as [|x u IH]; intros [|y v] [|z w] d [Lu Nu] [Lv Nv] [Lw Nw] H1 H2; simpl in *; try lia; try discriminate; auto.
  inversion Nu as [|? ? Nx Nu']; inversion Nv as [|? ? Ny Nv']; inversion Nw as [|? ? Nz Nw']; subst.
  destruct (flt y x) eqn:E1; [discriminate|].
  destruct (flt z y) eqn:E2; [discriminate|].
  rewrite (nflt_trans z y x Ny E2 E1).
  destruct (flt x y) eqn:E1'.
  - rewrite (flt_nflt_trans x y z Nz E1' E2). reflexivity.
  - destruct (flt y z) eqn:E3.
    + rewrite (nflt_flt_trans x y z Nx E1 E3). reflexivity.
    + rewrite (nflt_trans x y z Ny E1' E3). apply (IH v w (length u)); auto; split; auto; lia.
Qed.

Lemma lex_objs_spec u : forall v d, good d u -> good d v -> (lex_objs u v = Some true <-> lex_before u v).
Proof.
  induction u as [|x u IH]; intros [|y v] d [Lu Nu] [Lv Nv]; simpl in *; try lia.
  - split; [discriminate|]. intros ([|i] & a & b & H & _); discriminate.
  - inversion Nu as [|? ? Nx Nu']; inversion Nv as [|? ? Ny Nv']; subst.
    destruct (flt y x) eqn:E1; [|destruct (flt x y) eqn:E2].
    + split; auto. intros _. exists O, x, y. repeat split; auto. intros; lia.
    + split; [discriminate|]. intros ([|i] & a & b & H1 & H2 & H3 & H4); simpl in *.
      * inversion H1; inversion H2; subst. congruence.
      * specialize (H4 O x y (Nat.lt_0_succ i) eq_refl eq_refl).
        apply feq_flt in H4. destruct H4 as (_ & _ & H4 & _). congruence.
    + assert (Hgu : good (length u) u) by (split; auto).
      assert (Hgv : good (length u) v) by (split; auto; lia).
      rewrite (IH v _ Hgu Hgv). split.
      * intros (i & a & b & H1 & H2 & H3 & H4). exists (S i), a, b. repeat split; auto.
        intros [|j] a' b' Hj Ha Hb; simpl in *.
        -- inversion Ha; inversion Hb; subst. apply feq_flt. auto.
        -- apply (H4 j); auto. lia.
      * intros ([|i] & a & b & H1 & H2 & H3 & H4); simpl in *.
        -- inversion H1; inversion H2; subst. congruence.
        -- exists i, a, b. repeat split; auto. intros j a' b' Hj Ha Hb.
           apply (H4 (S j)); auto. lia.
Qed.

Section Pareto.
  Context {A : Type}.
  Variable objs : A -> vec.
  Variable d : nat.
  Hypothesis Hd : (2 <= d)%nat.

  Notation goodl l := (Forall (fun x => good d (objs x)) l).

  Lemma dominate_spec u v : good d u -> good d v ->
    exists b, dominate u v = Some b /\ (b = true <-> dominates u v).
  Proof.
    intros [Lu _] [Lv _]. unfold dominate.
    destruct (C45_dominate_flag u v) as (z & -> & H1 & _).
    - lia.
    - destruct u; [simpl in Lu; lia|discriminate].
    - eexists. split; [reflexivity|]. rewrite <- H1. apply Z.eqb_eq.
  Qed.

  Lemma non_dominated_spec x l : good d (objs x) -> goodl l ->
    exists b, non_dominated objs (objs x) l = Some b /\
      (b = true <-> forall y, In y l -> ~ dominates (objs y) (objs x)).
  Proof.
    intros Gx Hl. induction Hl as [|y l Gy Hl IH]; simpl.
    - exists true. split; [reflexivity|]. split; [intros _ y []|reflexivity].
    - destruct (dominate_spec (objs y) (objs x) Gy Gx) as (b & -> & Hb).
      destruct b.
      + exists false. split; auto. split; [discriminate|]. intro H. exfalso.
        apply (H y (or_introl eq_refl)). apply Hb. reflexivity.
      + destruct IH as (b & -> & Hb'). exists b. split; auto. rewrite Hb'. split.
        * intros H z [<-|Hz]; [|auto]. intro K. apply Hb in K. discriminate.
        * auto.
  Qed.

  (** the decision taken by the loop for [x] *)
  Definition keeps (p : list A) (x : A) : bool :=
    match non_dominated objs (objs x) p with Some b => b | None => false end.

  Lemma collect_spec p order : goodl p -> goodl order ->
    collect objs p order = Some (filter (keeps p) order).
  Proof.
    intros Hp Ho. induction Ho as [|x l Gx Hl IH]; simpl; auto.
    unfold keeps at 1. destruct (non_dominated_spec x p Gx Hp) as (b & -> & _).
    rewrite IH. destruct b; reflexivity.
  Qed.

  Lemma keeps_spec p x : goodl p -> good d (objs x) ->
    (keeps p x = true <-> forall y, In y p -> ~ dominates (objs y) (objs x)).
  Proof.
    intros Hp Gx. unfold keeps. destruct (non_dominated_spec x p Gx Hp) as (b & -> & H). exact H.
  Qed.

  Lemma lex_swo l : goodl l -> swo (compare_objs_lex objs) l.
  Proof.
    intro H. rewrite Forall_forall in H. unfold compare_objs_lex. split; [|split; [|split]].
    - intros a b Ha Hb. destruct (lex_total (objs a) (objs b) d) as (x & ->); try discriminate; apply H; auto.
    - intros a _. apply lex_irrefl.
    - intros a b c Ha Hb Hc. apply (lex_trans _ _ _ d); auto.
    - intros a b c Ha Hb Hc. apply (lex_ntrans _ _ _ d); auto.
  Qed.

  (** a sorted rearrangement exists *)
  Section Insertion.
    Variable comp : A -> A -> option bool.
    Fixpoint insert (x : A) (l : list A) : list A :=
      match l with
      | [] => [x]
      | y :: r => match comp y x with Some true => y :: insert x r | _ => x :: y :: r end
      end.
    Fixpoint isort (l : list A) : list A := match l with [] => [] | x :: r => insert x (isort r) end.

    Lemma insert_perm x l : Permutation (x :: l) (insert x l).
    Proof.
      induction l as [|y l IH]; simpl; auto. destruct (comp y x) as [[]|]; auto.
      eapply perm_trans; [apply perm_swap|]. now constructor.
    Qed.
    Lemma isort_perm l : Permutation l (isort l).
    Proof.
      induction l as [|x l IH]; simpl; auto. eapply perm_trans; [|apply insert_perm]. now constructor.
    Qed.

    Fixpoint srt (l : list A) : Prop :=
      match l with [] => True | a :: r => (forall b, In b r -> comp b a = Some false) /\ srt r end.

    Lemma srt_nth l : srt l -> forall i j a b, (i < j)%nat -> nth_error l i = Some a -> nth_error l j = Some b ->
      comp b a = Some false.
    Proof.
      clear Hd.
      induction l as [|x l IH]; intros H [|i] [|j] a b Hij Ha Hb; simpl in *; try lia; try discriminate.
      - inversion Ha; subst. apply H. eapply nth_error_In; eauto.
      - apply (IH (proj2 H) i j); auto. lia.
    Qed.

    Lemma insert_srt x l : swo comp (x :: l) -> srt l -> srt (insert x l).
    Proof.
      intros Hs. induction l as [|y l IH]; intros Hl; simpl.
      - split; [intros b []|auto].
      - destruct Hs as (T & I & Tr & Ntr).
        assert (Hs' : swo comp (x :: l)).
        { assert (K : forall z, In z (x :: l) -> In z (x :: y :: l)) by (intros z [->|Hz]; simpl; auto).
          split; [|split; [|split]]; intros; eauto. }
        destruct (comp y x) as [[]|] eqn:E.
        + split.
          * intros b Hb. apply (Permutation_in _ (Permutation_sym (insert_perm x l))) in Hb.
            destruct Hb as [<-|Hb]; [|apply (proj1 Hl); auto].
            assert (comp x y <> None) by (apply T; simpl; auto).
            destruct (comp x y) as [[]|] eqn:E2; try congruence.
            assert (comp y y = Some true) by (apply (Tr y x y); simpl; auto).
            rewrite I in H0 by (simpl; auto). discriminate.
          * apply IH; auto. exact (proj2 Hl).
        + split; auto. intros b [<-|Hb]; auto.
          apply (Ntr b y x); simpl; auto. apply (proj1 Hl); auto.
        + exfalso. apply (T y x); simpl; auto.
    Qed.

    Lemma swo_sub l l' : (forall z, In z l' -> In z l) -> swo comp l -> swo comp l'.
    Proof. intros K (T & I & Tr & Ntr). split; [|split; [|split]]; intros; eauto. Qed.

    Lemma isort_srt l : swo comp l -> srt (isort l).
    Proof.
      induction l as [|x l IH]; intro H; simpl; auto.
      apply insert_srt.
      - apply (swo_sub (x :: l)); auto. intros z [->|Hz]; simpl; auto. right.
        apply (Permutation_in z (Permutation_sym (isort_perm l))); auto.
      - apply IH. apply (swo_sub (x :: l)); auto. intros; simpl; auto.
    Qed.
  End Insertion.

  (** every dominated point is dominated by a point that is kept *)
  Definition domb (u v : vec) : bool := match dominate u v with Some b => b | None => false end.
  Lemma domb_spec u v : good d u -> good d v -> (domb u v = true <-> dominates u v).
  Proof. intros Gu Gv. unfold domb. destruct (dominate_spec u v Gu Gv) as (b & -> & H). exact H. Qed.

  Lemma dominated_by_kept p : goodl p ->
    forall n x, In x p -> (length (filter (fun y => domb (objs y) (objs x)) p) < n)%nat ->
      keeps p x = false -> exists y, In y p /\ keeps p y = true /\ dominates (objs y) (objs x).
  Proof.
    intro Hp. assert (G : forall x, In x p -> good d (objs x)) by (apply Forall_forall; auto).
    destruct C45_dominance_strict_partial_order as (Irr & _ & Tr).
    induction n as [|n IH]; intros x Hx Hn Hk; [lia|].
    assert (Hex : exists y, In y p /\ domb (objs y) (objs x) = true).
    { destruct (existsb (fun y => domb (objs y) (objs x)) p) eqn:E.
      - apply existsb_exists in E. auto.
      - exfalso. assert (keeps p x = true); [|congruence].
        apply keeps_spec; auto. intros y Hy D. apply domb_spec in D; auto.
        assert (existsb (fun y => domb (objs y) (objs x)) p = true) by (apply existsb_exists; eauto).
        congruence. }
    destruct Hex as (y & Hy & Dyx).
    destruct (keeps p y) eqn:Ky.
    - exists y. split; [auto|split; [auto|]]. now apply domb_spec; auto.
    - assert (D := proj1 (domb_spec (objs y) (objs x) (G y Hy) (G x Hx)) Dyx).
      destruct (IH y Hy) as (z & Hz & Kz & Dz); auto.
      + assert (length (filter (fun z => domb (objs z) (objs y)) p) < length (filter (fun z => domb (objs z) (objs x)) p))%nat.
        { apply filter_lt.
          - intros z Hz Dz. apply domb_spec; auto. apply domb_spec in Dz; auto. apply (Tr d _ (objs y)); auto.
          - exists y. split; [|split]; auto. destruct (domb (objs y) (objs y)) eqn:E; auto.
            exfalso. apply (Irr (objs y)). apply domb_spec; auto. }
        lia.
      + exists z. split; [|split]; auto. apply (Tr d _ (objs y)); auto.
  Qed.

  (** C44: for a non-empty list of points with [d >= 2] objectives, none of them NaN, every
      execution (any order of the parallel loop, any correct sort) is free of undefined behaviour,
      and returns exactly the non-dominated points, each as often as it occurs, in decreasing
      lexicographic order; each point left out is dominated by a returned one. *)
  Theorem C44_pareto_set :
    forall p : list A, p <> [] -> goodl p ->
      (exists r, pareto_set objs p (Val r)) /\
      ~ pareto_set objs p UB /\
      forall r, pareto_set objs p (Val r) ->
        exists left_out,
          Permutation (r ++ left_out) p /\
          (forall x y, In x r -> In y p -> ~ dominates (objs y) (objs x)) /\
          (forall x, In x left_out -> exists y, In y r /\ dominates (objs y) (objs x)) /\
          (forall i j a b, (i < j)%nat -> nth_error r i = Some a -> nth_error r j = Some b ->
             ~ lex_before (objs b) (objs a)).
  Proof.
    intros p Hne Hp.
    assert (G : forall x, In x p -> good d (objs x)) by (apply Forall_forall; auto).
    unfold pareto_set. destruct p as [|x0 p0] eqn:Ep; [congruence|]. rewrite <- Ep in *. clear Hne.
    assert (Hx0 : In x0 p) by (rewrite Ep; simpl; auto).
    destruct (Nat.leb_spec (length (objs x0)) 1) as [Hle|_].
    { exfalso. destruct (G x0 Hx0) as [K _]. lia. }
    assert (Hord : forall order, Permutation p order ->
      goodl order /\ collect objs p order = Some (filter (keeps p) order)).
    { intros order Ho. assert (goodl order).
      { apply Forall_forall. intros x Hx. apply G. apply (Permutation_in x (Permutation_sym Ho)); auto. }
      split; auto. apply collect_spec; auto. }
    assert (Hgf : forall l, goodl l -> goodl (filter (keeps p) l)).
    { intros l Hl. apply Forall_forall. intros x Hx. apply filter_In in Hx. rewrite Forall_forall in Hl.
      apply Hl. tauto. }
    split; [|split].
    - exists (isort (compare_objs_lex objs) (filter (keeps p) p)), p. split; auto.
      destruct (Hord p (Permutation_refl p)) as [_ ->].
      assert (S0 : swo (compare_objs_lex objs) (filter (keeps p) p)) by (apply lex_swo; auto).
      split; [exact S0|]. split; [apply isort_perm|].
      apply srt_nth. apply isort_srt. exact S0.
    - intros (order & Ho & H). destruct (Hord order Ho) as [Go E]. rewrite E in H.
      apply H. apply lex_swo; auto.
    - intros r (order & Ho & H). destruct (Hord order Ho) as [Go E]. rewrite E in H.
      destruct H as (_ & Hperm & Hsort).
      assert (Hpr : Permutation (filter (keeps p) p) r).
      { eapply perm_trans; [apply filter_perm; exact Ho|exact Hperm]. }
      exists (filter (fun x => negb (keeps p x)) p).
      assert (Hin : forall x, In x r <-> In x p /\ keeps p x = true).
      { intro x. rewrite <- filter_In. split; apply Permutation_in; auto using Permutation_sym. }
      split; [|split; [|split]].
      + eapply perm_trans; [|apply (filter_split (keeps p))]. apply Permutation_app_tail.
        now apply Permutation_sym.
      + intros x y Hx. apply Hin in Hx. apply keeps_spec; try tauto. apply G. tauto.
      + intros x Hx. apply filter_In in Hx. destruct Hx as [Hx Hk]. apply negb_true_iff in Hk.
        destruct (dominated_by_kept p Hp _ x Hx (Nat.lt_succ_diag_r _) Hk) as (y & Hy & Ky & Dy).
        exists y. split; auto. apply Hin. auto.
      + intros i j a b Hij Ha Hb K.
        assert (Ga : good d (objs a)) by (apply G; apply Hin; eapply nth_error_In; eauto).
        assert (Gb : good d (objs b)) by (apply G; apply Hin; eapply nth_error_In; eauto).
        apply (lex_objs_spec _ _ d) in K; auto.
        pose proof (Hsort i j a b Hij Ha Hb) as Q. unfold compare_objs_lex in Q. congruence.
  Qed.

  (** C44: the result is the same for every execution, up to points with equal objectives *)
  Theorem C44_schedule_independent :
    forall (p r1 r2 : list A), p <> [] -> goodl p ->
      pareto_set objs p (Val r1) -> pareto_set objs p (Val r2) ->
      Permutation r1 r2 /\
      forall i a b, nth_error r1 i = Some a -> nth_error r2 i = Some b ->
        forall k u v, nth_error (objs a) k = Some u -> nth_error (objs b) k = Some v -> feq u v = true.
  Proof.
    intros p r1 r2 Hne Hp P1 P2.
    assert (G : forall x, In x p -> good d (objs x)) by (apply Forall_forall; auto).
    unfold pareto_set in P1, P2. destruct p as [|x0 p0] eqn:Ep; [congruence|]. rewrite <- Ep in *. clear Hne.
    assert (Hx0 : In x0 p) by (rewrite Ep; simpl; auto).
    destruct (Nat.leb_spec (length (objs x0)) 1) as [Hle|_]; [discriminate|].
    assert (Hr : forall r, (exists order, Permutation p order /\
        match collect objs p order with None => Val r = UB | Some l => std_sort (compare_objs_lex objs) l (Val r) end) ->
      Permutation (filter (keeps p) p) r /\
      forall i j a b, (i < j)%nat -> nth_error r i = Some a -> nth_error r j = Some b ->
        compare_objs_lex objs b a = Some false).
    { intros r (order & Ho & H).
      assert (goodl order).
      { apply Forall_forall. intros x Hx. apply G. apply (Permutation_in x (Permutation_sym Ho)); auto. }
      rewrite collect_spec in H by auto. destruct H as (_ & Hperm & Hsort). split; auto.
      eapply perm_trans; [apply filter_perm; exact Ho|exact Hperm]. }
    apply Hr in P1, P2. clear Hr. destruct P1 as [Q1 S1], P2 as [Q2 S2].
    set (q := filter (keeps p) p) in *.
    assert (Gq : forall x, In x q -> good d (objs x)).
    { intros x Hx. apply filter_In in Hx. apply G. tauto. }
    assert (Hsw : swo (compare_objs_lex objs) q) by (apply lex_swo, Forall_forall; auto).
    destruct Hsw as (T & I & Tr & Ntr).
    set (before := fun x y => match compare_objs_lex objs x y with Some b => b | None => false end).
    set (rank := fun x => length (filter (fun y => before y x) q)).
    assert (Hrank : forall x y, In x q -> In y q -> before x y = true -> (rank x < rank y)%nat).
    { intros x y Hx Hy H. unfold rank. apply filter_lt.
      - intros z Hz. unfold before in *.
        pose proof (T z x Hz Hx). pose proof (T x y Hx Hy). pose proof (Tr z x y Hz Hx Hy).
        destruct (compare_objs_lex objs z x) as [[]|]; try discriminate; try congruence.
        destruct (compare_objs_lex objs x y) as [[]|]; try discriminate; try congruence.
        now rewrite H2.
      - exists x. split; [|split]; auto. unfold before. now rewrite I. }
    assert (Hle : forall x y, In x q -> In y q -> compare_objs_lex objs y x = Some false -> (rank x <= rank y)%nat).
    { intros x y Hx Hy H. unfold rank. apply filter_le. intros z Hz. unfold before.
      pose proof (T z x Hz Hx). pose proof (T z y Hz Hy). pose proof (Ntr z y x Hz Hy Hx).
      destruct (compare_objs_lex objs z y) as [[]|]; auto; try congruence.
      rewrite H2 by auto. discriminate. }
    assert (Hin1 : forall x, In x r1 -> In x q) by (intro x; apply Permutation_in, Permutation_sym; auto).
    assert (Hin2 : forall x, In x r2 -> In x q) by (intro x; apply Permutation_in, Permutation_sym; auto).
    assert (Hperm : Permutation r1 r2) by (eapply perm_trans; [apply Permutation_sym; exact Q1|exact Q2]).
    split; auto.
    assert (Heq : map rank r1 = map rank r2).
    { assert (Hs : forall r, (forall x, In x r -> In x q) ->
        (forall i j a b, (i < j)%nat -> nth_error r i = Some a -> nth_error r j = Some b ->
           compare_objs_lex objs b a = Some false) ->
        forall i j a b, (i < j)%nat -> nth_error (map rank r) i = Some a -> nth_error (map rank r) j = Some b -> (a <= b)%nat).
      { intros r Hq Hs i j a b Hij Ha Hb. rewrite nth_error_map in Ha, Hb.
        destruct (nth_error r i) as [a'|] eqn:Ea; [|discriminate].
        destruct (nth_error r j) as [b'|] eqn:Eb; [|discriminate].
        simpl in Ha, Hb. inversion Ha; inversion Hb; subst.
        apply Hle; try (apply Hq; eapply nth_error_In; eauto). eauto. }
      apply sorted_nat_unique; eauto. now apply Permutation_map. }
    intros i a b Ha Hb k u v Hu Hv.
    assert (Hab : rank a = rank b).
    { assert (K : nth_error (map rank r1) i = nth_error (map rank r2) i) by (rewrite Heq; reflexivity).
      rewrite !nth_error_map, Ha, Hb in K. simpl in K. congruence. }
    assert (Ha' : In a q) by (apply Hin1; eapply nth_error_In; eauto).
    assert (Hb' : In b q) by (apply Hin2; eapply nth_error_In; eauto).
    assert (L1 : lex_objs (objs a) (objs b) = Some false).
    { pose proof (T a b Ha' Hb'). pose proof (Hrank a b Ha' Hb'). unfold before, compare_objs_lex in *.
      destruct (lex_objs (objs a) (objs b)) as [[]|]; auto; try congruence. specialize (H0 eq_refl). lia. }
    assert (L2 : lex_objs (objs b) (objs a) = Some false).
    { pose proof (T b a Hb' Ha'). pose proof (Hrank b a Hb' Ha'). unfold before, compare_objs_lex in *.
      destruct (lex_objs (objs b) (objs a)) as [[]|]; auto; try congruence. specialize (H0 eq_refl). lia. }
    destruct (Gq a Ha') as [_ Na], (Gq b Hb') as [_ Nb].
    clear - L1 L2 Hu Hv Na Nb. revert L1 L2 Hu Hv Na Nb. generalize (objs a) (objs b). intro l.
    revert k. induction l as [|x l IH]; intros [|k] [|y l'] L1 L2 Hu Hv Na Nb; simpl in *; try discriminate.
    - inversion Hu; inversion Hv; subst. inversion Na; inversion Nb; subst.
      destruct (flt v u) eqn:E1; [discriminate|]. destruct (flt u v) eqn:E2; [discriminate|].
      apply feq_flt. auto.
    - inversion Na; inversion Nb; subst.
      destruct (flt y x) eqn:E1; [discriminate|]. destruct (flt x y) eqn:E2; [discriminate|].
      apply (IH k l'); auto.
  Qed.
End Pareto.

(** ** Concrete cases *)
Definition ex_pts : list vec := map (map fofZ) [[1; 5]; [3; 3]; [2; 2]; [5; 1]; [3; 3]].
Example ex_pts_good : ex_pts <> [] /\ Forall (fun x => good 2 (id x)) ex_pts.
Proof.
  split; [discriminate|]. repeat constructor; vm_compute; discriminate.
Qed.
Example ex_front : exists r, pareto_set id ex_pts (Val r) /\
  r = map (map fofZ) [[5; 1]; [3; 3]; [3; 3]; [1; 5]].
Proof.
  exists (isort (compare_objs_lex id) (filter (keeps id ex_pts) ex_pts)). split.
  - destruct ex_pts_good as [_ G]. unfold pareto_set. cbn [ex_pts map].
    exists ex_pts. split; [apply Permutation_refl|]. fold (map (map fofZ)).
    change (match collect id ex_pts ex_pts with
      | Some l => std_sort (compare_objs_lex id) l (Val (isort (compare_objs_lex id) (filter (keeps id ex_pts) ex_pts)))
      | None => Val (isort (compare_objs_lex id) (filter (keeps id ex_pts) ex_pts)) = UB end).
    rewrite (collect_spec id 2) by auto.
    assert (S0 : swo (compare_objs_lex id) (filter (keeps id ex_pts) ex_pts)).
    { apply (lex_swo id 2). apply Forall_forall. intros x Hx. apply filter_In in Hx.
      rewrite Forall_forall in G. apply G. tauto. }
    split; [exact S0|]. split; [apply isort_perm|]. apply srt_nth. exact (isort_srt _ _ S0).
  - vm_compute. reflexivity.
Qed.

(** the two-objective variant [sort_2objs] (whose call is commented out in [pareto_set]) is not
    a correct replacement: on the already sorted input (5,3) (4,2) (3,3) it returns the dominated
    point (3,3), and it drops the second of two equal optimal points *)
Theorem C44_sort_2objs_refuted :
  (exists p x y, In x (sort_2objs_sorted (@id vec) p) /\ In y p /\ dominates y x) /\
  (exists p x y, In y p /\ (forall z, In z p -> ~ dominates z y) /\ x = y /\ p = [x; y] /\
     length (sort_2objs_sorted (@id vec) p) = 1%nat).
Proof.
  split.
  - exists (map (map fofZ) [[5; 3]; [4; 2]; [3; 3]]), (map fofZ [3; 3]), (map fofZ [5; 3]).
    split; [vm_compute; auto|]. split; [simpl; auto|].
    split.
    + intros [|[|[|i]]] a b Ha Hb; simpl in Ha, Hb; try discriminate;
        inversion Ha; inversion Hb; subst; vm_compute; reflexivity.
    + exists O, (fofZ 5), (fofZ 3). repeat split.
  - exists (map (map fofZ) [[5; 3]; [5; 3]]), (map fofZ [5; 3]), (map fofZ [5; 3]).
    split; [simpl; auto|]. split.
    + intros z Hz. assert (z = map fofZ [5; 3]) as -> by (destruct Hz as [<-|[<-|[]]]; reflexivity).
      apply (proj1 C45_dominance_strict_partial_order).
    + split; [reflexivity|]. split; [reflexivity|]. vm_compute. reflexivity.
Qed.

Print Assumptions C44_pareto_set.
Print Assumptions C44_schedule_independent.
Print Assumptions C44_sort_2objs_refuted.
Print Assumptions C45_dominate_flag.
Print Assumptions C45_dominance_strict_partial_order.
