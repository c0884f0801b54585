(** C68: a MultiGP of sparsified GPs. *)
From Coq Require Import Reals List Bool ZArith Lia Lra Permutation.
From Flocq Require Import Core.
From Verif Require Import LinAlgModel LinAlg KernelModel GPModel GPSpec GPFacts Prop_GP.
From Verif Require Import KernelSpec KernelFacts MeanSpec MeanFacts.
From Verif Require Import F64 F64R SparseModel SparseSpec SparseGPModel Prop_Sparse Prop_Sparse2.
From Verif Require Import MultiGPModel MultiGPSpec MultiGPFacts Prop_MultiGP Prop_MultiGP2 MultiSparseModel.
Import ListNotations.
Open Scope R_scope.
Local Notation rvec := (list R).

(** ** Thinning looks at the samples only *)
Section Map.
Variables (A B C : Type) (norm : A -> A -> F) (f : A * B -> A * C).
Hypothesis ff : forall a, fst (f a) = fst a.
Lemma without_map {T U} (h : T -> U) k l x r : without k l x r -> without k (map h l) (h x) (map h r).
Proof. induction 1; cbn; constructor; auto. Qed.
Lemma without_map_inv {T U} (h : T -> U) : forall l k x r, without k (map h l) x r -> exists x' r', x = h x' /\ r = map h r' /\ without k l x' r'.
Proof.
  induction l as [|a l IH]; intros k x r H; cbn in H; inversion H; subst.
  - exists a, l. repeat split. constructor.
  - match goal with W : without _ (map h l) _ _ |- _ => destruct (IH _ _ _ W) as (x' & r' & -> & -> & W') end.
    exists x', (a :: r'). repeat split. now constructor.
Qed.
Lemma crowding_map D l k d : crowding A C norm D (map f l) k d <-> crowding A B norm D l k d.
Proof.
  split.
  - intros (x & o & near & far & W & P & Q). destruct (without_map_inv f _ _ _ _ W) as (x' & r' & -> & -> & W').
    exists x', r', near, far. split; [exact W'|]. split; [|exact Q]. rewrite map_map, ff in P.
    erewrite map_ext in P; [exact P|]. intro a. cbv beta. now rewrite ff.
  - intros (x & o & near & far & W & P & Q). exists (f x), (map f o), near, far. split; [now apply without_map|]. split; [|exact Q].
    rewrite map_map, ff. erewrite map_ext; [exact P|]. intro a. cbv beta. now rewrite ff.
Qed.
Lemma most_crowded_map D l k : most_crowded A C norm D (map f l) k <-> most_crowded A B norm D l k.
Proof.
  unfold most_crowded. rewrite map_length. split; intros (d & H1 & H2); exists d; (split; [|exact H2]); intros i Hi; specialize (H1 i Hi); now apply crowding_map.
Qed.
Lemma thinned_map_inv D p l l'' : thinned A C norm D p (map f l) l'' -> exists l', l'' = map f l' /\ thinned A B norm D p l l'.
Proof.
  intro H. remember (map f l) as m eqn:Em. revert l Em. induction H as [m Hm|m k x r l' Hm Hc W T IH]; intros l ->.
  - exists l. split; auto. rewrite map_length in Hm. now constructor.
  - destruct (without_map_inv f _ _ _ _ W) as (x' & r' & -> & -> & W'). destruct (IH r' eq_refl) as (l1 & -> & T1).
    exists l1. split; auto. rewrite map_length in Hm. eapply thin_step; eauto. now apply most_crowded_map.
Qed.
End Map.

(** * Histories of calls *)
Inductive mscall :=
| MsCompute (e : env) (xs ys : list rvec)
| MsAdd (e : env) (x y : rvec).

Section MultiSparse.
Variables (K : Kern) (M : Mean).
Variable KO : KernOK K.
Variable MO : MeanOK M.
Variable norm : rvec -> rvec -> F.
Variable p : nat.

Definition ms_exec (g : mgp K M) (c : mscall) : outcome (mgp K M) :=
  match c with
  | MsCompute e xs ys => ms_compute K M norm p e g xs ys true
  | MsAdd e x y => ms_add_sample K M norm p e g x y
  end.
Fixpoint ms_run (g : mgp K M) (cs : list mscall) : outcome (mgp K M) :=
  match cs with [] => Done g | c :: r => bind (ms_exec g c) (fun g' => ms_run g' r) end.

(** the observations given since the last [compute] *)
Fixpoint given (ys : list rvec) (cs : list mscall) : list rvec :=
  match cs with
  | [] => ys
  | MsCompute _ _ ys' :: r => given ys' r
  | MsAdd _ _ y :: r => given (ys ++ [y]) r
  end.

(** a sample, its observation, and the value of the mean function that was subtracted from it *)
Definition datum : Type := rvec * (rvec * rvec).
Definition m0 (q : nat) : mst M := m_new M q.
Definition batch (q : nat) (xs ys : list rvec) : list datum := combine xs (combine ys (map (fun x => m_val M (m0 q) x (data_mean ys q)) xs)).
(** the data that one output keeps: [compute] starts afresh, [add_sample] appends, and both thin *)
Inductive keeps (D q : nat) : list rvec -> list datum -> list mscall -> list datum -> Prop :=
| k_nil : forall ys l, keeps D q ys l [] l
| k_compute : forall ys l e xs ys' cs l1 l', thinned _ _ norm D p (batch q xs ys') l1 -> keeps D q ys' l1 cs l' ->
    keeps D q ys l (MsCompute e xs ys' :: cs) l'
| k_add : forall ys l e x y cs l1 l', thinned _ _ norm D p (l ++ [(x, (y, m_val M (m0 q) x (data_mean (ys ++ [y]) q)))]) l1 ->
    keeps D q (ys ++ [y]) l1 cs l' -> keeps D q ys l (MsAdd e x y :: cs) l'.

(** samples with [D] coordinates from a set in which distances are moderate, observations with [q] *)
Variables (D q : nat) (U : rvec -> Prop).
Hypothesis D0 : (0 < D)%nat.
Hypothesis q0 : (0 < q)%nat.
Hypothesis Dp : (D <= p)%nat.
Hypothesis D53 : (Z.of_nat D <= 2 ^ 53)%Z.
Hypothesis Udim : forall x, U x -> length x = D.
Hypothesis Unorm : forall x y, U x -> U y -> moderate (norm x y).

Definition ms_schedules (e : env) : Prop := schedule q (e_order e) /\ forall i, (i < q)%nat -> schedules (e_dense e i).
Definition ms_proper (c : mscall) : Prop :=
  match c with
  | MsCompute e xs ys => xs <> [] /\ length xs = length ys /\ List.Forall U xs /\ List.Forall (fun y => length y = q) ys /\ ms_schedules e
  | MsAdd e x y => U x /\ length y = q /\ ms_schedules e
  end.
(** what output [i] is trained with *)
Definition part (i : nat) (d : datum) : rvec * rvec := (fst d, [vget (fst (snd d)) i - vget (snd (snd d)) i]).
Definition ready (g : mgp K M) (ys : list rvec) (l : nat -> list datum) : Prop :=
  (g = mgp_default K M /\ ys = [] /\ (forall i, (i < q)%nat -> l i = [])) \/
  (mg_din K M g = Some D /\ mg_dout K M g = Some q /\ mg_m K M g = m0 q /\ length (mg_gps K M g) = q /\
   mg_obs K M g = ys /\ (ys <> [] -> mg_mean_obs K M g = data_mean ys q) /\ List.Forall (fun y => length y = q) ys /\
   (forall i, (i < q)%nat -> (ys = [] <-> l i = [])) /\
   forall i, (i < q)%nat -> holds K NullFunction KO NO D 1 U (nth i (mg_gps K M g) (gdef K)) (map (part i) (l i))).

Lemma choose {T} (P : nat -> T -> Prop) n : (forall i, (i < n)%nat -> exists t, P i t) -> forall d : T, exists f, forall i, (i < n)%nat -> P i (f i).
Proof.
  intros H d. induction n as [|n IH]; [exists (fun _ => d); intros; lia|]. destruct IH as (f & Hf); [intros; apply H; lia|].
  destruct (H n ltac:(lia)) as (t & Ht). exists (fun i => if (i =? n)%nat then t else f i). intros i Hi. destruct (Nat.eqb_spec i n); subst; auto. apply Hf. lia.
Qed.

Lemma batch_parts i xs ys : length xs = length ys ->
  combine xs (map (fun so => [vget (snd so) i - vget (m_val M (m0 q) (fst so) (data_mean ys q)) i]) (combine xs ys)) = map (part i) (batch q xs ys).
Proof.
  intro L. unfold batch. generalize (data_mean ys q) as mo. intro mo. revert ys L. induction xs as [|x xs IH]; intros [|y ys] L; cbn in *; try discriminate; auto.
  rewrite IH by lia. reflexivity.
Qed.
Lemma batch_nonempty xs ys : xs <> [] -> length xs = length ys -> batch q xs ys <> [].
Proof. destruct xs, ys; cbn; congruence. Qed.
Lemma thinned_nonempty (a b : list datum) : thinned _ _ norm D p a b -> a <> [] -> b <> [].
Proof. intros T H. apply thinned_bound in T. destruct T as [T _]. intros ->. destruct a; [congruence|]. cbn in T. lia. Qed.

Lemma da_compute1 l xs ys di od l' : data_after norm p D l [SCompute xs ys di od] l' -> thinned _ _ norm D p (combine xs ys) l'.
Proof. inversion 1 as [|? ? ? ? ? ? ? ? T Q|]. inversion Q; subst. exact T. Qed.
Lemma da_add1 l x y j1 j2 di od l' : data_after norm p D l [SAdd x y j1 j2 di od] l' -> thinned _ _ norm D p (l ++ [(x, y)]) l'.
Proof. inversion 1 as [| |? ? ? ? ? ? ? ? ? ? T Q]. inversion Q; subst. exact T. Qed.
Lemma inner_fresh : holds K NullFunction KO NO D 1 U (gp_new K NullFunction D 1) [].
Proof. apply (fresh_holds K NullFunction KO NO D 1 U) with (s := s_new K NullFunction D 1). constructor. Qed.

Lemma ms_step g ys l c : ready g ys l -> ms_proper c -> exists g' l', ms_exec g c = Done g' /\ ready g' (given ys [c]) l' /\ mg_gps K M g' <> [] /\
  (forall i, (i < q)%nat -> forall cs l'', keeps D q (given ys [c]) (l' i) cs l'' -> keeps D q ys (l i) (c :: cs) l'').
Proof.
  intros Rd P. destruct c as [e xs ys'|e x y]; cbn [ms_exec ms_proper given] in *.
  - destruct P as (Ne & L & Ux & Ly & Sc & Sd).
    destruct xs as [|x0 xs0]; [congruence|]. destruct ys' as [|y0 ys0]; [discriminate|]. unfold ms_compute, mg_compute_by.
    match goal with |- context [check (?a =? ?b)%nat _] => replace (a =? b)%nat with true by (symmetry; apply Nat.eqb_eq; exact L) end. cbn [check]. cbv zeta. set (xs := x0 :: xs0) in *. set (ys' := y0 :: ys0) in *.
    assert (Ly0 : length y0 = q) by (inversion Ly; auto). assert (Lx0 : length x0 = D) by (inversion Ux; auto). rewrite Ly0, Lx0.
    assert (E1 : (if onat_eqb (mg_dout K M g) q then (mg_dout K M g, mg_m K M g) else (Some q, m_new M q)) = (Some q, m0 q)).
    { destruct Rd as [(-> & _)|(_ & -> & -> & _)]; [reflexivity|]. cbn. now rewrite Nat.eqb_refl. }
    rewrite E1. set (gps := if (length (mg_gps K M g) =? q)%nat then mg_gps K M g else new_gps K D q).
    assert (G : length gps = q /\ forall i, (i < q)%nat -> exists l, holds K NullFunction KO NO D 1 U (nth i gps (gdef K)) l).
    { unfold gps. destruct Rd as [(-> & _ & _)|(_ & _ & _ & Lg & _ & _ & _ & _ & H)].
      - cbn [mgp_default mg_gps length]. destruct (0 =? q)%nat eqn:Eq; [apply Nat.eqb_eq in Eq; lia|]. unfold new_gps. rewrite repeat_length. split; auto.
        intros i Hi. exists []. rewrite nth_repeat_lt by auto. apply inner_fresh.
      - rewrite Lg, Nat.eqb_refl. split; auto. intros i Hi. eexists. apply H, Hi. }
    destruct G as (Lg & Hg). clearbody gps.
    assert (E2 : forallb (fun o : list R => (length o =? q)%nat) ys' = true) by now apply forallb_len. rewrite E2. cbn [check].
    match goal with |- context [check (mg_dout_pos _ _ ?gg && _)] => set (g1 := gg) end.
    assert (Ma : forall s, mg_mean_at K M g1 s = m_val M (m0 q) s (data_mean ys' q)).
    { intro s. unfold mg_mean_at, mg_mean_observation, g1. cbn [mg_m mg_obs mg_mean_obs]. now rewrite average_is_data_mean. }
    assert (E3 : mg_dout_pos K M g1 && forallb (fun s => (length (mg_mean_at K M g1 s) =? q)%nat) xs = true).
    { apply andb_true_intro. split; [now apply Nat.ltb_lt|]. apply forallb_forall. intros s _. rewrite Ma. apply Nat.eqb_eq.
      apply (mok_len MO); [apply mok_new|]. apply vec_of_length. }
    rewrite E3. cbn [check].
    match goal with |- context [par_each (e_order e) ?ff gps] => set (f := ff) end.
    assert (Hf : forall i, (i < q)%nat -> exists t, f i (nth i gps (gdef K)) = Done (fst t) /\ holds K NullFunction KO NO D 1 U (fst t) (map (part i) (snd t)) /\
       thinned _ _ norm D p (batch q xs ys') (snd t)).
    { intros i Hi. destruct (Hg i Hi) as (li & Hli). unfold f.
      set (obs := map (fun so : rvec * rvec => [vget (snd so) i - vget (mg_mean_at K M g1 (fst so)) i]) (combine xs ys')).
      assert (Eo : obs = map (fun so => [vget (snd so) i - vget (m_val M (m0 q) (fst so) (data_mean ys' q)) i]) (combine xs ys')) by (apply map_ext; intros so; now rewrite Ma).
      destruct (step_holds K NullFunction KO NO norm p D 1 U D0 ltac:(lia) Dp D53 Udim Unorm (nth i gps (gdef K)) li (SCompute xs obs (e_diag e i) (e_dense e i)) Hli) as (g' & l' & X & H' & A).
      { cbn [proper]. split; auto. split; [unfold obs; rewrite map_length, combine_length; lia|]. split; auto. split; auto.
        unfold obs. apply Forall_forall. intros w Hw. apply in_map_iff in Hw. destruct Hw as (? & <- & _). reflexivity. }
      specialize (A [] l' (da_nil _ _ _ _)). apply da_compute1 in A. rename A into H8. cbn [scall_exec] in X.
      rewrite Eo, batch_parts in H8 by auto. destruct (thinned_map_inv _ _ _ norm (part i) (fun a => eq_refl) _ _ _ _ H8) as (l1 & -> & T).
      exists (g', l1). cbn [fst snd]. auto. }
    destruct (choose _ q Hf (gdef K, [])) as (t & Ht).
    destruct (par_each_progress f (gdef K) q (e_order e) gps Sc Lg) as (gs & Egs). { intros i Hi. exists (fst (t i)). apply Ht, Hi. }
    destruct (par_each_spec f (gdef K) q (e_order e) gps gs Sc Lg Egs) as (Lgs & Hgs). rewrite Egs. cbn [bind].
    eexists. exists (fun i => snd (t i)). split; [reflexivity|]. cbn [mg_gps]. split; [|split; [intros ->; cbn in Lgs; lia|]].
    + right. unfold g1. cbn [mg_din mg_dout mg_m mg_gps mg_obs mg_mean_obs]. repeat (split; [solve [auto]|]). split; [intros _; apply average_is_data_mean|]. split; auto.
      split.
      * intros i Hi. split; [discriminate|]. intro H. exfalso. apply (thinned_nonempty _ _ (proj2 (proj2 (Ht i Hi)))); auto. apply batch_nonempty; auto.
      * intros i Hi. specialize (Hgs i Hi). destruct (Ht i Hi) as (X & Y & _). rewrite X in Hgs. injection Hgs as <-. exact Y.
    + intros i Hi cs l'' H. econstructor; [|exact H]. apply Ht, Hi.
  - destruct P as (Ux & Ly & Sc & Sd). pose proof (Udim x Ux) as Lx. unfold ms_add_sample, mg_add_sample_by. cbv zeta. rewrite Lx, Ly.
    match goal with |- context [onat_eqb (mg_din K M ?gg) D] => set (g1 := gg) end.
    assert (G : mg_din K M g1 = Some D /\ mg_dout K M g1 = Some q /\ mg_m K M g1 = m0 q /\ length (mg_gps K M g1) = q /\
       mg_obs K M g1 = ys /\ List.Forall (fun y => length y = q) ys /\
       forall i, (i < q)%nat -> holds K NullFunction KO NO D 1 U (nth i (mg_gps K M g1) (gdef K)) (map (part i) (l i))).
    { unfold g1. destruct Rd as [(-> & -> & Hl)|(A & B & C & Lg & E & F & H1 & H2 & H3)].
      - cbn. repeat (split; [solve [auto]|]). unfold new_gps. rewrite repeat_length. repeat (split; [solve [auto]|]). intros i Hi. rewrite (Hl i Hi), nth_repeat_lt by auto.
        apply inner_fresh.
      - destruct (mg_gps K M g) as [|a gs] eqn:Eg; [cbn in Lg; lia|]. rewrite Eg. repeat (split; [solve [auto]|]). exact H3. }
    clearbody g1. destruct G as (A & B & C & Lg & Eo & Fy & H). rewrite A, B, Eo. cbn [onat_eqb]. rewrite !Nat.eqb_refl. cbn [andb].
    assert (Fy' : List.Forall (fun y => length y = q) (ys ++ [y])) by (apply Forall_app; split; auto).
    match goal with |- context [check (forallb ?ff ?ll) _] => replace (forallb ff ll) with true by (symmetry; apply forallb_len; exact Fy') end. cbn [check].
    match goal with |- context [check (mg_dout_pos _ _ ?gg && _)] => set (g2 := gg) end.
    assert (Ma : forall s, mg_mean_at K M g2 s = m_val M (m0 q) s (data_mean (ys ++ [y]) q)).
    { intro s. unfold mg_mean_at, mg_mean_observation, g2. cbn [mg_m mg_obs mg_mean_obs]. rewrite C, average_is_data_mean. destruct ys; reflexivity. }
    rewrite Ma.
    assert (E3 : mg_dout_pos K M g2 && (length (m_val M (m0 q) x (data_mean (ys ++ [y]) q)) =? q)%nat = true).
    { apply andb_true_intro. split; [unfold mg_dout_pos, g2; cbn [mg_dout oget]; now apply Nat.ltb_lt|]. apply Nat.eqb_eq.
      apply (mok_len MO); [apply mok_new|]. apply vec_of_length. }
    rewrite E3. cbn [check]. change (mg_gps K M g2) with (mg_gps K M g1).
    match goal with |- context [par_each (e_order e) ?ff _] => set (f := ff) end.
    assert (Hf : forall i, (i < q)%nat -> exists t, f i (nth i (mg_gps K M g1) (gdef K)) = Done (fst t) /\ holds K NullFunction KO NO D 1 U (fst t) (map (part i) (snd t)) /\
       thinned _ _ norm D p (l i ++ [(x, (y, m_val M (m0 q) x (data_mean (ys ++ [y]) q)))]) (snd t)).
    { intros i Hi. unfold f. set (o := [_ - _]).
      destruct (step_holds K NullFunction KO NO norm p D 1 U D0 ltac:(lia) Dp D53 Udim Unorm (nth i (mg_gps K M g1) (gdef K)) _ (SAdd x o (e_junk1 e i) (e_junk2 e i) (e_diag e i) (e_dense e i)) (H i Hi))
        as (g' & l' & X & H' & A').
      { cbn [proper]. split; auto. }
      specialize (A' [] l' (da_nil _ _ _ _)). apply da_add1 in A'. rename A' into H10. cbn [scall_exec] in X.
      change (map (part i) (l i) ++ [(x, o)]) with (map (part i) (l i) ++ map (part i) [(x, (y, m_val M (m0 q) x (data_mean (ys ++ [y]) q)))]) in H10.
      rewrite <- map_app in H10. destruct (thinned_map_inv _ _ _ norm (part i) (fun a => eq_refl) _ _ _ _ H10) as (l1 & -> & T).
      exists (g', l1). cbn [fst snd]. auto. }
    destruct (choose _ q Hf (gdef K, [])) as (t & Ht).
    destruct (par_each_progress f (gdef K) q (e_order e) (mg_gps K M g1) Sc Lg) as (gs & Egs). { intros i Hi. exists (fst (t i)). apply Ht, Hi. }
    destruct (par_each_spec f (gdef K) q (e_order e) (mg_gps K M g1) gs Sc Lg Egs) as (Lgs & Hgs). rewrite Egs. cbn [bind].
    eexists. exists (fun i => snd (t i)). split; [reflexivity|]. cbn [mg_gps]. split; [|split; [intros ->; cbn in Lgs; lia|]].
    + right. unfold g2. cbn [mg_din mg_dout mg_m mg_gps mg_obs mg_mean_obs]. rewrite ?A, ?B, ?C. repeat (split; [solve [auto]|]). split; [intros _; apply average_is_data_mean|]. split; auto.
      split.
      * intros i Hi. split; intro N; exfalso; [destruct ys; discriminate|]. apply (thinned_nonempty _ _ (proj2 (proj2 (Ht i Hi)))); auto.
        intro N2. apply app_eq_nil in N2. destruct N2; discriminate.
      * intros i Hi. specialize (Hgs i Hi). destruct (Ht i Hi) as (X & Y & _). rewrite X in Hgs. injection Hgs as <-. exact Y.
    + intros i Hi cs l'' Hk. eapply k_add; [|exact Hk]. apply Ht, Hi.
Qed.

Lemma ms_run_ready cs : forall g ys l, ready g ys l -> List.Forall ms_proper cs ->
  exists g' l', ms_run g cs = Done g' /\ ready g' (given ys cs) l' /\ (cs <> [] -> mg_gps K M g' <> []) /\ forall i, (i < q)%nat -> keeps D q ys (l i) cs (l' i).
Proof.
  induction cs as [|c cs IH]; intros g ys l Rd P; cbn [ms_run].
  - exists g, l. split; [reflexivity|]. split; [exact Rd|]. split; [congruence|]. intros. constructor.
  - inversion P; subst. destruct (ms_step g ys l c Rd) as (g1 & l1 & E1 & R1 & N1 & A1); auto. rewrite E1. cbn [bind].
    destruct (IH g1 _ l1 R1) as (g2 & l2 & E2 & R2 & N2 & A2); auto. exists g2, l2. split; auto. split; [destruct c; exact R2|].
    split; [|intros i Hi; apply A1; auto]. intros _. destruct cs as [|c' cs]; [|apply N2; discriminate]. cbn in E2. now injection E2 as <-.
Qed.
(** as many as are allowed *)
Lemma keeps_count ys l cs l' : keeps D q ys l cs l' -> List.Forall ms_proper cs -> length l = Nat.min p (length ys) -> length l' = Nat.min p (length (given ys cs)).
Proof.
  induction 1 as [|ys l e xs ys' cs l1 l' T Hk IH|ys l e x y cs l1 l' T Hk IH]; intros Pr Hl; cbn [given]; auto; inversion Pr as [|? ? P1 P2]; subst;
    apply thinned_bound in T; destruct T as [T _]; apply IH; auto; refine (eq_trans T _).
  - destruct P1 as (_ & L & _). unfold batch. rewrite !combine_length, map_length. unfold KernelModel.vec, datum in *. lia.
  - rewrite !app_length. cbn [length]. unfold KernelModel.vec, datum in *. lia.
Qed.
Lemma holds_predict a (l : list (rvec * rvec)) v : holds K NullFunction KO NO D 1 U a l -> l <> [] -> length v = D ->
  (exists B, is_inv (length l) (gram K (k_new K D) (map fst l)) B) /\
  forall B, is_inv (length l) (gram K (k_new K D) (map fst l)) B ->
    let m := [rsum (length l) (fun x => rsum (length l) (fun b => cov K (k_new K D) (map fst l) v x * B x b * y_ (map snd l) b 0))] in
    let va := clamp (post_var K (k_new K D) (map fst l) B v) + k_noise K (k_new K D) in
    mu K NullFunction a v = Done m /\ sigma K NullFunction a v = Done va /\ query K NullFunction a v = Done (m, va).
Proof.
  intros (s & I & Hx & Hy & Hdk & Hdm & Hl & Hk & Hm & Hd) Nl Lv. destruct (Hd Nl) as (Ed & Eo). specialize (Hk Ed). specialize (Hm Eo).
  destruct (predict K NullFunction KO NO a s v) as (X & Y).
  { now apply inv_linv. } { now apply inv_alpha with (KO := KO) (MO := NO). } { rewrite Hx. destruct l; [congruence|discriminate]. }
  { auto. } { auto. } { rewrite Ed, Lv. auto. }
  unfold predicts_mean, predicts_var in Y. rewrite Eo in Y. cbn [oget] in Y. rewrite Hk, Hm, Hx, Hy in Y. rewrite Hk, Hx in X.
  rewrite map_length in X, Y. split; [exact X|]. intros B HB. specialize (Y B HB). cbv zeta. unfold vec_of in Y. cbn [seq map] in Y.
  rewrite null_post in Y; [|apply Forall_map; eapply Forall_impl; [|exact Hl]; intros ? []; auto]. rewrite map_length in Y. exact Y.
Qed.

(** the prediction of output [i] from the data [l]: prior mean, plus the weighted residuals; [ys]: all observations *)
Definition ms_mean (ys : list rvec) (l : list datum) (B : nat -> nat -> R) (v : rvec) (i : nat) : R :=
  vget (m_val M (m0 q) v (data_mean ys q)) i +
  rsum (length l) (fun a => rsum (length l) (fun b => cov K (k_new K D) (map fst l) v a * B a b *
    (vget (nth b (map (fun d => fst (snd d)) l) []) i - vget (nth b (map (fun d => snd (snd d)) l) []) i))).
Definition ms_var (l : list datum) (B : nat -> nat -> R) (v : rvec) : R :=
  clamp (post_var K (k_new K D) (map fst l) B v) + k_noise K (k_new K D).
Lemma part_value i (l : list datum) b : (b < length l)%nat -> y_ (map snd (map (part i) l)) b 0 =
  vget (nth b (map (fun d => fst (snd d)) l) []) i - vget (nth b (map (fun d => snd (snd d)) l) []) i.
Proof.
  intro H. unfold y_. rewrite map_map. set (d0 := ([], ([], [])) : datum).
  rewrite (nth_map_dflt (fun x => snd (part i x)) l b d0) by auto. rewrite (nth_map_dflt (fun d => fst (snd d)) l b d0), (nth_map_dflt (fun d => snd (snd d)) l b d0) by auto. reflexivity.
Qed.
Lemma ready_predicts g ys l v : ready g ys l -> ys <> [] -> length v = D ->
  (forall i, (i < q)%nat -> exists B, is_inv (length (l i)) (gram K (k_new K D) (map fst (l i))) B) /\
  forall B, (forall i, (i < q)%nat -> is_inv (length (l i)) (gram K (k_new K D) (map fst (l i))) (B i)) ->
  forall od junk, schedule q od ->
    let m := vec_of q (fun i => ms_mean ys (l i) (B i) v i) in let va := vec_of q (fun i => ms_var (l i) (B i) v) in
    mg_query K M junk od g v = Done (m, va) /\ mg_mu K M (fst junk) od g v = Done m /\ mg_sigma K M (snd junk) od g v = Done va.
Proof.
  intros [(_ & -> & _)|(Di & Do & Hm & Lg & Ho & Hmo & Hr & Hne & H)] Ne Lv; [congruence|].
  assert (Pr : forall i, (i < q)%nat -> _) by (intros i Hi; exact (holds_predict _ _ v (H i Hi) ltac:(intro X; apply map_eq_nil in X; now apply (Hne i Hi) in X) Lv)).
  assert (Fm : forall i, map fst (map (part i) (l i)) = map fst (l i)) by (intro i; rewrite map_map; apply map_ext; reflexivity).
  split.
  - intros i Hi. destruct (Pr i Hi) as (X & _). rewrite map_length, Fm in X. exact X.
  - intros B HB od junk Sc m va.
    assert (Ma : mg_mean_at K M g v = m_val M (m0 q) v (data_mean ys q)).
    { unfold mg_mean_at, mg_mean_observation. rewrite Hm, Ho. destruct ys as [|y0 yr] eqn:Ey; [congruence|]. rewrite <- Ey in *. now rewrite Hmo by auto. }
    assert (E3 : mg_dout_pos K M g && (length (m_val M (m0 q) v (data_mean ys q)) =? q)%nat = true).
    { apply andb_true_intro. split; [unfold mg_dout_pos; rewrite Do; cbn [oget]; now apply Nat.ltb_lt|]. apply Nat.eqb_eq.
      apply (mok_len MO); [apply mok_new|]. apply vec_of_length. }
    assert (Hin : forall i, (i < q)%nat -> exists a, nth_error (mg_gps K M g) i = Some a /\
      let mi := [rsum (length (l i)) (fun x => rsum (length (l i)) (fun b => cov K (k_new K D) (map fst (l i)) v x * B i x b *
        (vget (nth b (map (fun d => fst (snd d)) (l i)) []) i - vget (nth b (map (fun d => snd (snd d)) (l i)) []) i)))] in
      mu K NullFunction a v = Done mi /\ sigma K NullFunction a v = Done (ms_var (l i) (B i) v) /\ query K NullFunction a v = Done (mi, ms_var (l i) (B i) v)).
    { intros i Hi. exists (nth i (mg_gps K M g) (gdef K)). split; [apply nth_error_nth'; lia|].
      destruct (Pr i Hi) as (_ & Y). rewrite map_length, Fm in Y. specialize (Y (B i) (HB i Hi)). cbv zeta in Y |- *. unfold ms_var.
      match type of Y with mu _ _ _ _ = Done [?a] /\ _ => match goal with |- mu _ _ _ _ = Done [?b] /\ _ => replace b with a; [exact Y|] end end.
      apply rsum_ext. intros a Ha. apply rsum_ext. intros b Hb. now rewrite part_value. }
    split; [|split].
    + unfold mg_query. rewrite Do, Ma, E3. cbn [check].
      match goal with |- bind (par_each od ?f _) _ = _ => destruct (par_each_progress f junk q od (repeat junk q) Sc (repeat_length _ _)) as (gs & E) end.
      { intros i Hi. destruct (Hin i Hi) as (a & -> & _ & _ & ->). cbn. eexists. reflexivity. }
      rewrite E. cbn [bind]. destruct (par_each_spec _ junk q od _ gs Sc (repeat_length _ _) E) as (L & HH).
      assert (Hnth : forall i, (i < q)%nat -> nth i gs junk = (ms_mean ys (l i) (B i) v i, ms_var (l i) (B i) v)).
      { intros i Hi. specialize (HH i Hi). cbv beta in HH. destruct (Hin i Hi) as (a & Ea & _ & _ & Eq). rewrite Ea, Eq in HH.
        cbn [bind fst snd length Nat.ltb Nat.leb check] in HH. apply (f_equal (fun o => match o with Done x => x | _ => junk end)) in HH. cbv beta iota in HH.
        rewrite <- HH. f_equal. unfold ms_mean. unfold vget at 1. cbn [nth]. apply Rplus_comm. }
      f_equal. f_equal; apply nth_ext with 0 0; unfold m, va; rewrite ?map_length, ?vec_of_length; auto; intros i Hi; rewrite L in Hi;
        rewrite (nth_map_dflt _ _ _ junk) by lia; rewrite Hnth by auto; cbn [fst snd]; symmetry;
        first [exact (vget_vec_of q (fun i => ms_mean ys (l i) (B i) v i) i Hi)|exact (vget_vec_of q (fun i => ms_var (l i) (B i) v) i Hi)].
    + unfold mg_mu. rewrite Do, Ma, E3. cbn [check].
      match goal with |- par_each od ?f _ = _ => destruct (par_each_progress f 0 q od (repeat (fst junk) q) Sc (repeat_length _ _)) as (gs & E) end.
      { intros i Hi. destruct (Hin i Hi) as (a & -> & -> & _ & _). cbn. eexists. reflexivity. }
      rewrite E. destruct (par_each_spec _ 0 q od _ gs Sc (repeat_length _ _) E) as (L & HH). f_equal.
      apply nth_ext with 0 0; unfold m; rewrite ?vec_of_length; auto. intros i Hi. rewrite L in Hi. fold (vget (vec_of q (fun i => ms_mean ys (l i) (B i) v i)) i).
      rewrite vget_vec_of by auto. specialize (HH i Hi). cbv beta in HH. destruct (Hin i Hi) as (a & Ea & Em & _ & _). rewrite Ea, Em in HH.
      cbn [bind fst snd length Nat.ltb Nat.leb check] in HH. apply (f_equal (fun o => match o with Done x => x | _ => 0 end)) in HH. cbv beta iota in HH.
      rewrite <- HH. unfold ms_mean. unfold vget at 1. cbn [nth]. apply Rplus_comm.
    + unfold mg_sigma. rewrite Do.
      match goal with |- par_each od ?f _ = _ => destruct (par_each_progress f 0 q od (repeat (snd junk) q) Sc (repeat_length _ _)) as (gs & E) end.
      { intros i Hi. destruct (Hin i Hi) as (a & -> & _ & -> & _). eexists. reflexivity. }
      rewrite E. destruct (par_each_spec _ 0 q od _ gs Sc (repeat_length _ _) E) as (L & HH). f_equal.
      apply nth_ext with 0 0; unfold va; rewrite ?vec_of_length; auto. intros i Hi. rewrite L in Hi. fold (vget (vec_of q (fun i => ms_var (l i) (B i) v)) i).
      rewrite vget_vec_of by auto. specialize (HH i Hi). cbv beta in HH. destruct (Hin i Hi) as (a & Ea & _ & Es & _). rewrite Ea, Es in HH.
      apply (f_equal (fun o => match o with Done x => x | _ => 0 end)) in HH. cbv beta iota in HH. auto.
Qed.
Lemma fresh_ready g : g = mgp_default K M \/ g = mgp_new K M D q -> ready g [] (fun _ => []).
Proof.
  intros [->| ->]; [left; auto|]. right. cbn. unfold new_gps. rewrite repeat_length. repeat (split; [solve [auto]|]). split; [congruence|]. split; [constructor|].
  split; [intros; tauto|]. intros i Hi. rewrite nth_repeat_lt by auto. apply inner_fresh.
Qed.

(** any history of proper calls, whatever the schedules and the uninitialised memory: it succeeds; every output keeps
    as many points as allowed, obtained by thinning the data given, and is predicted with the posterior given these
    points and the residuals with respect to the mean values at the time of the call *)
Theorem C68_posterior g0 cs : g0 = mgp_default K M \/ g0 = mgp_new K M D q -> List.Forall ms_proper cs ->
  exists g (l : nat -> list datum), ms_run g0 cs = Done g /\ mg_obs K M g = given [] cs /\
    (forall i, (i < q)%nat -> keeps D q [] [] cs (l i) /\ length (l i) = Nat.min p (length (given [] cs))) /\
    (given [] cs <> [] -> forall v, length v = D ->
      (forall i, (i < q)%nat -> exists B, is_inv (length (l i)) (gram K (k_new K D) (map fst (l i))) B) /\
      forall B, (forall i, (i < q)%nat -> is_inv (length (l i)) (gram K (k_new K D) (map fst (l i))) (B i)) ->
      forall od junk, schedule q od ->
        let m := vec_of q (fun i => ms_mean (given [] cs) (l i) (B i) v i) in let va := vec_of q (fun i => ms_var (l i) (B i) v) in
        mg_query K M junk od g v = Done (m, va) /\ mg_mu K M (fst junk) od g v = Done m /\ mg_sigma K M (snd junk) od g v = Done va).
Proof.
  intros F P. destruct (ms_run_ready cs g0 [] (fun _ => []) (fresh_ready _ F) P) as (g & l & E & Rd & N & A).
  exists g, l. split; [exact E|]. split; [destruct Rd as [(-> & -> & _)|(_ & _ & _ & _ & Ho & _)]; auto|]. split.
  - intros i Hi. split; [auto|]. eapply keeps_count; [apply A, Hi|exact P|cbn; lia].
  - intros Ne v Lv. apply ready_predicts; auto.
Qed.

(** with a mean function that ignores the observations, this is the exact posterior given the points kept *)
Lemma keeps_means ys l cs l' : dataless M -> keeps D q ys l cs l' -> List.Forall ms_proper cs ->
  (forall d, In d l -> forall mo, snd (snd d) = m_val M (m0 q) (fst d) mo) -> forall d, In d l' -> forall mo, snd (snd d) = m_val M (m0 q) (fst d) mo.
Proof.
  intros Dl. induction 1 as [|ys l e xs ys' cs l1 l' T Hk IH|ys l e x y cs l1 l' T Hk IH]; intros Pr Hl; auto; inversion Pr as [|? ? P1 P2]; subst; apply IH; auto;
    intros d Hd mo; apply thinned_bound in T; destruct T as [_ T].
  - assert (Sub : forall (a b : list datum), sublist a b -> incl a b). { induction 1; intros z Hz; simpl in *; intuition. }
    apply (Sub _ _ T) in Hd. revert Hd. unfold batch. generalize (data_mean ys' q) as mo'. clear -Dl. intros mo'. revert ys'. induction xs as [|x xs IHx]; intros [|y ys'] Hd; cbn in Hd; try easy.
    destruct Hd as [<-|Hd]; [|eapply IHx; exact Hd]. cbn [fst snd]. now apply dataless_val.
  - assert (Sub : forall (a b : list datum), sublist a b -> incl a b). { induction 1; intros z Hz; simpl in *; intuition. }
    apply (Sub _ _ T) in Hd. apply in_app_iff in Hd. destruct Hd as [Hd|[<-|[]]]; [now apply Hl|]. cbn [fst snd]. now apply dataless_val.
Qed.
Theorem C68_exact_posterior_partial g0 cs : dataless M -> g0 = mgp_default K M \/ g0 = mgp_new K M D q -> List.Forall ms_proper cs ->
  exists g (l : nat -> list datum), ms_run g0 cs = Done g /\
    (forall i, (i < q)%nat -> keeps D q [] [] cs (l i) /\ length (l i) = Nat.min p (length (given [] cs))) /\
    (given [] cs <> [] -> forall v, length v = D ->
      (forall i, (i < q)%nat -> exists B, is_inv (length (l i)) (gram K (k_new K D) (map fst (l i))) B) /\
      forall B, (forall i, (i < q)%nat -> is_inv (length (l i)) (gram K (k_new K D) (map fst (l i))) (B i)) ->
      forall od junk, schedule q od ->
        let m := vec_of q (fun i => post_mean K M (k_new K D) (m_new M q) (map fst (l i)) (map (fun d => fst (snd d)) (l i)) q (B i) v i) in
        let va := vec_of q (fun i => clamp (post_var K (k_new K D) (map fst (l i)) (B i) v) + k_noise K (k_new K D)) in
        mg_query K M junk od g v = Done (m, va) /\ mg_mu K M (fst junk) od g v = Done m /\ mg_sigma K M (snd junk) od g v = Done va).
Proof.
  intros Dl F P. destruct (C68_posterior g0 cs F P) as (g & l & E & _ & Kp & Pr). exists g, l. split; auto. split; auto.
  intros Ne v Lv. destruct (Pr Ne v Lv) as (X & Y). split; auto. intros B HB od junk Sc m va. specialize (Y B HB od junk Sc). cbv zeta in Y.
  replace m with (vec_of q (fun i => ms_mean (given [] cs) (l i) (B i) v i)); [exact Y|]. unfold m. apply vec_of_ext. intros i Hi.
  unfold ms_mean, post_mean, resid, prior_mean. rewrite map_length. f_equal; [f_equal; now apply dataless_val|].
  apply rsum_ext. intros a Ha. apply rsum_ext. intros b Hb. f_equal. f_equal.
  pose proof (keeps_means _ _ _ _ Dl (proj1 (Kp i Hi)) P ltac:(intros ? [])) as Hm. set (d0 := ([], ([], [])) : datum).
  rewrite (nth_map_dflt (fun d => snd (snd d)) (l i) b d0) by auto. unfold x_. rewrite (nth_map_dflt fst (l i) b d0) by auto. f_equal. apply Hm. now apply nth_In.
Qed.

(** ** [samples()] and [observations()] are not paired once points have been dropped; [recompute()] is then undefined *)
Theorem C68_lost_pairs g0 cs : g0 = mgp_default K M \/ g0 = mgp_new K M D q -> List.Forall ms_proper cs -> cs <> [] ->
  exists g xs, ms_run g0 cs = Done g /\ mg_samples K M g = Done xs /\ length xs = Nat.min p (length (given [] cs)) /\ mg_nb_samples K M g = length (given [] cs).
Proof.
  intros F P Nc. destruct (ms_run_ready cs g0 [] (fun _ => []) (fresh_ready _ F) P) as (g & l & E & Rd & N & A). exists g.
  destruct Rd as [(-> & _)|(_ & _ & _ & Lg & Ho & _ & _ & _ & H)]; [exfalso; now apply (N Nc)|].
  unfold mg_samples, mg_nb_samples. specialize (H 0%nat q0). destruct (mg_gps K M g) as [|a gs]; [cbn in Lg; lia|]. cbn [nth] in H.
  exists (g_samples K NullFunction a). split; auto. split; auto. rewrite Ho. split; auto.
  destruct H as (s & I & Hx & _). rewrite (v_samples _ _ _ _ _ _ I), Hx, !map_length. eapply keeps_count; [apply A, q0|exact P|cbn; lia].
Qed.
Theorem C68_recompute_refuted g0 cs : g0 = mgp_default K M \/ g0 = mgp_new K M D q -> List.Forall ms_proper cs -> (p < length (given [] cs))%nat ->
  exists g, ms_run g0 cs = Done g /\ forall e b, ms_recompute K M norm p e g true b = Undefined.
Proof.
  intros F P Nc. destruct (C68_lost_pairs g0 cs F P) as (g & xs & E & S1 & S2 & S3). { intros ->. cbn in Nc. lia. }
  exists g. split; auto. intros e b. unfold ms_recompute, mg_recompute_by. unfold mg_samples in S1. destruct (mg_gps K M g) as [|a gs]; [discriminate|].
  injection S1 as ->. unfold mg_compute_by. destruct xs as [|x0 xs]; [reflexivity|]. unfold mg_nb_samples in S3. destruct (mg_obs K M g) as [|o0 os]; [reflexivity|].
  destruct (Nat.eqb_spec (length (x0 :: xs)) (length (o0 :: os))) as [Eq|_]; [|reflexivity]. exfalso. rewrite S3 in Eq. unfold KernelModel.vec in *. lia.
Qed.
End MultiSparse.

(** ** The outputs can be trained on different samples: the points of a tie are dropped according to the schedule *)
Definition KS : Kern := BaseKernel (Exp 1 1) 0.01 false.
Definition KSO : KernOK KS.
Proof. apply base_OK; [apply exp_OK; lra|lra|discriminate]. Defined.
Definition backwards' (n : nat) : list nat := rev (seq 0 n).
Definition tie : env := {| e_order := [0%nat; 1%nat]; e_diag := fun _ _ => fnan; e_dense := fun i => if (i =? 0)%nat then in_order else backwards';
  e_junk1 := fun _ _ _ => 0; e_junk2 := fun _ _ _ => 0 |}.
Definition unit_norm (x y : rvec) : F := f1.
Lemma unit_moderate x y : moderate (unit_norm x y).
Proof.
  unfold unit_norm. destruct (fofZ_correct 1) as [F1 V1]; [lia|]. split; [reflexivity|]. split; [reflexivity|]. unfold f1. rewrite V1.
  assert (B : 1 <= bpow radix2 900) by (change 1 with (bpow radix2 0); apply bpow_le; lia). lra.
Qed.
Lemma tie_schedules : ms_schedules 2 tie.
Proof.
  split; [apply Permutation_refl|]. intros [|i] _; cbn [tie e_dense Nat.eqb]; [apply in_order_schedules|]. intro n. unfold backwards'. symmetry. apply Permutation_rev.
Qed.
Theorem C68_different_samples_refuted :
  let c := MsCompute tie [[0]; [1]] [[5; 6]; [7; 8]] in
  ms_proper 2 (fun x => length x = 1%nat) c /\ (forall x y, moderate (unit_norm x y)) /\
  exists g, ms_exec KS (Constant 0) unit_norm 1 (mgp_default KS (Constant 0)) c = Done g /\
    map (g_samples KS NullFunction) (mg_gps KS (Constant 0) g) = [[[1]]; [[0]]].
Proof.
  cbv zeta. assert (P : ms_proper 2 (fun x => length x = 1%nat) (MsCompute tie [[0]; [1]] [[5; 6]; [7; 8]])).
  { split; [discriminate|]. split; [reflexivity|]. split; [repeat constructor|]. split; [repeat constructor|]. apply tie_schedules. }
  split; [exact P|]. split; [exact unit_moderate|].
  destruct (ms_run_ready KS (Constant 0) KSO (RT_OK _ (constant_RT 0)) unit_norm 1 1 2 (fun x => length x = 1%nat)) with
    (cs := [MsCompute tie [[0]; [1]] [[5; 6]; [7; 8]]]) (g := mgp_default KS (Constant 0)) (ys := @nil rvec) (l := fun _ : nat => @nil datum) as (g & l & E & _); try lia.
  { intros; apply unit_moderate. } { apply fresh_ready; auto. } { constructor; [exact P|constructor]. }
  cbn [ms_run] in E. destruct (ms_exec _ _ _ _ _ _) as [g'| |] eqn:Eg; try discriminate. cbn [bind] in E. injection E as ->. exists g. split; auto.
  cbn [ms_exec] in Eg. unfold ms_compute, mg_compute_by in Eg. apply check_done in Eg. destruct Eg as [_ Eg]. cbv zeta in Eg.
  cbn [mgp_default mg_dout onat_eqb mg_gps length Nat.eqb] in Eg. apply check_done in Eg. destruct Eg as [_ Eg]. apply check_done in Eg. destruct Eg as [_ Eg].
  apply bind_done in Eg. destruct Eg as (gs & E1 & E2). injection E2 as <-. cbn [mg_gps].
  cbn [tie e_order new_gps repeat par_each nth_error] in E1.
  apply bind_done in E1. destruct E1 as (a & Ea & E1). cbn [lput firstn skipn app nth_error] in E1. apply bind_done in E1. destruct E1 as (b & Eb & E1).
  cbn [lput firstn skipn app] in E1. injection E1 as <-. cbn [map].
  unfold sparse_compute in Ea, Eb.
  assert (Ka : forall o : list rvec, length o = 2%nat -> kept (list R) (list R) unit_norm (@length R) 1 (e_diag tie 0) (e_dense tie 0) [[0]; [1]] o = Ok ([[1]], skipn 1 o)).
  { intros [|o0 [|o1 [|]]] Ho; try discriminate. reflexivity. }
  assert (Kb : forall o : list rvec, length o = 2%nat -> kept (list R) (list R) unit_norm (@length R) 1 (e_diag tie 1) (e_dense tie 1) [[0]; [1]] o = Ok ([[0]], firstn 1 o)).
  { intros [|o0 [|o1 [|]]] Ho; try discriminate. reflexivity. }
  rewrite Ka in Ea by reflexivity. rewrite Kb in Eb by reflexivity.
  pose proof (inv_linv _ _ _ _ _ _ (fresh_inv KS NullFunction KSO NO _ _ (fresh_new KS NullFunction 1 1))) as I0.
  pose proof (v_samples _ _ _ _ _ _ (comp_inv KS NullFunction KSO NO _ _ _ _ _ _ I0 Ea)) as Sa.
  pose proof (v_samples _ _ _ _ _ _ (comp_inv KS NullFunction KSO NO _ _ _ _ _ _ I0 Eb)) as Sb.
  rewrite Sa, Sb. reflexivity.
Qed.

(** ** the hypotheses can be met: two points allowed, three given one by one, two outputs *)
Definition add3 (x y z : R) : mscall := MsAdd tie [x] [y; z].
Example C68_ex :
  inhabited (KernOK KS) /\ inhabited (MeanOK (Constant 1)) /\ dataless (Constant 1) /\ (forall x y, moderate (unit_norm x y)) /\
  List.Forall (ms_proper 2 (fun x => length x = 1%nat)) [add3 0 1 2; add3 1 2 2; add3 3 0 4] /\ (2 < length (given [] [add3 0 1 2; add3 1 2 2; add3 3 0 4]))%nat.
Proof.
  split; [constructor; exact KSO|]. split; [constructor; exact (RT_OK _ (constant_RT 1))|]. split; [constructor|]. split; [exact unit_moderate|].
  split; [|cbn; lia]. repeat constructor; cbn; auto; apply tie_schedules.
Qed.
