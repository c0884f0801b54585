(** The properties of IMGPO (C50, C51). *)
From Coq Require Import Reals List Bool ZArith Arith Lia Lra Permutation.
From Coq Require Import Floats.SpecFloat.
From Verif Require Import F64 BOModel ImgpoModel ImgpoSpec ImgpoFacts Prop_Imgpo.
Import ListNotations.
Local Open Scope nat_scope.

Section Main.
Context {W : Type}.
Variable sfun : W -> point -> option vec * W.
Variable afun : vec -> F.
Variable acq : list point -> list vec -> nat -> point -> F.
Variable query : list point -> list vec -> point -> vec * F.
Variable spread : nat -> F -> F.
Variable tiny : F.
Variables (dim h_upper : nat).
Variable stop : @st W -> bool.
Notation st := (@st W).
Notation optimize := (optimize sfun afun acq query spread tiny dim h_upper stop).

Lemma coord_repeat (v : R) i : i < dim -> coord (repeat v dim) i = v.
Proof. intro H. unfold coord. rewrite (nth_indep _ 0%R v) by (rewrite repeat_length; exact H). apply nth_repeat. Qed.
Definition root_cell (v : vec) : cell := mkCell (repeat 0%R dim) (repeat 1%R dim) (repeat (1 / 2)%R dim) v true true.
Lemma root_good v : good dim 0 (root_cell v).
Proof.
  split; cbn [root_cell c_min c_max c_x]; try apply repeat_length.
  - exists (repeat 0 dim). split; [apply repeat_length|]. split.
    { clear. induction dim; cbn; auto. }
    split.
    + intros i Hi. unfold side. cbn [root_cell c_min c_max]. rewrite !coord_repeat by exact Hi.
      rewrite nth_repeat. cbn. lra.
    + intros i j _ _. rewrite !nth_repeat. lia.
  - split; [apply repeat_length|]. intros i Hi. cbn [root_cell c_min c_max c_x]. rewrite !coord_repeat by exact Hi. lra.
  - intros i Hi. rewrite !coord_repeat by exact Hi. lra.
Qed.
Lemma root_tinv (s : st) v m pre : h_upper = S m -> t_samples s = pre ++ [repeat (1 / 2)%R dim] ->
  tree s = [root_cell v] :: repeat [] m -> tinv dim h_upper pre s [repeat (1 / 2)%R dim].
Proof.
  intros Hm Hs Ht.
  assert (CE : forall k, concat (repeat (@nil cell) k) = []) by (induction k; cbn; auto).
  assert (EL : leaves (tree s) = [root_cell v]) by (unfold leaves; rewrite Ht; cbn [concat]; rewrite CE; reflexivity).
  split; [exact Hs| | |].
  - rewrite EL. split.
    + intros c [<-|[]]. exists 0. apply root_good.
    + intros p [Lp Hp]. exists (root_cell v). split; [left; reflexivity|]. split; [exact Lp|]. intros i Hi. cbn [root_cell c_min c_max].
      rewrite !coord_repeat by exact Hi. apply Hp, Hi.
    + repeat constructor.
    + intros c [<-|[]] _. left. reflexivity.
    + intros c [<-|[]] Q. discriminate Q.
    + repeat constructor. intros [].
    + intros x [<-|[]]. exists (root_cell v). split; [left; reflexivity|reflexivity].
  - intros h l c N I. rewrite Ht in N. destruct h as [|h]; cbn in N.
    + injection N as <-. destruct I as [<-|[]]. split; [apply root_good|]. intros _. left. reflexivity.
    + apply nth_error_In, repeat_spec in N. subst l. destruct I.
  - rewrite Ht. cbn. rewrite repeat_length. lia.
Qed.

Lemma optimize_start fuel (s : st) : t_tot s = 0%Z -> 0 < h_upper ->
  optimize fuel s = Thrown \/
  exists s0 v w, sfun (t_w s) (repeat (1 / 2)%R dim) = (Some v, w) /\
    t_obs s0 = t_obs s ++ [v] /\
    tinv dim h_upper (t_samples s) s0 [repeat (1 / 2)%R dim] /\
    optimize fuel s = main_loop sfun afun acq query spread tiny stop fuel s0 (mkLoc 0 1 2 (afun v) (afun v)).
Proof.
  intros T H. destruct h_upper as [|m] eqn:Hm; [lia|]. unfold ImgpoModel.optimize. rewrite T. cbn [Z.eqb repeat app].
  destruct (sfun (t_w s) (repeat (1 / 2)%R dim)) as [[v|] w] eqn:E; [|left; reflexivity].
  unfold add_sample. destruct (is_nan_or_inf v); [left; reflexivity|]. right. cbn [ibind t_samples t_obs t_cur t_tot t_w tree].
  eexists _, v, w. split; [reflexivity|]. split; [|split; [|reflexivity]]; [reflexivity|].
  rewrite <- Hm. eapply (root_tinv _ v m); cbn [t_samples tree]; auto.
Qed.

Definition tree_ok (t : list level) : Prop :=
  tiling dim (leaves t) /\
  forall h lv c, nth_error t h = Some lv -> In c lv -> balanced dim h c /\ is_centre dim c.

Lemma pairwise_nth L : pairwise dim L -> forall i j c c', nth_error L i = Some c -> nth_error L j = Some c' -> i <> j -> apart dim c c'.
Proof.
  assert (K : pairwise dim L -> forall i j c c', nth_error L i = Some c -> nth_error L j = Some c' -> i < j -> apart dim c c').
  { intro P. induction P as [|a L' H P IH]; intros i j c c' H1 H2 Lt; [destruct i; discriminate|].
    destruct i as [|i]; destruct j as [|j]; try lia; cbn in H1, H2.
    - injection H1 as <-. rewrite Forall_forall in H. apply H. eapply nth_error_In; eauto.
    - eapply IH; eauto. lia. }
  intros P i j c c' H1 H2 N. destruct (Nat.lt_ge_cases i j).
  - eapply K; eauto.
  - apply apart_sym. apply (K P j i c' c H2 H1). lia.
Qed.
Lemma tinv_tree_ok pre (s : st) new : tinv dim h_upper pre s new -> tree_ok (tree s).
Proof.
  intros [_ I C _]. split; [split; [|split]|].
  - intros c Hc p [Lp Hp]. destruct (l_good _ _ _ I c Hc) as [h G]. split; [exact Lp|]. intros i Hi. specialize (Hp i Hi).
    destruct (g_cube _ _ _ G i Hi). lra.
  - exact (l_cover _ _ _ I).
  - apply pairwise_nth. exact (l_apart _ _ _ I).
  - intros h lv c N Hc. destruct (C h lv c N Hc) as [G _]. split; [exact (g_bal _ _ _ G)|exact (g_centre _ _ _ G)].
Qed.

(** C50: after any first call, however long it runs and whatever the objective, the model and the
    stopping criterion do: the leaves tile the unit cube; every box of level [h] has sides that are
    powers of 1/3 with exponents that sum to [h] and differ by at most one; its point is its centre *)
Theorem C50_leaves_tile_the_cube fuel (s s' : st) l : 0 < dim -> 0 < h_upper -> t_tot s = 0%Z ->
  optimize fuel s = Fine (s', l) -> tree_ok (tree s').
Proof.
  intros D Hu T H. destruct (optimize_start fuel s T Hu) as [E|(s0 & v & w & _ & _ & I & E)]; [congruence|].
  rewrite E in H. destruct (main_loop_inv _ _ _ _ _ _ _ _ _ D _ _ _ _ _ _ _ I H) as [new' I']. eapply tinv_tree_ok; eauto.
Qed.

(** C50: undefined behaviour (a level past the end of the vector of levels) is out of reach before
    [h_upper] (1000) iterations of the main loop *)
Theorem C50_no_undefined_behaviour fuel (s : st) : 0 < dim -> fuel < h_upper -> t_tot s = 0%Z ->
  (forall w x v w', sfun w x = (Some v, w') -> v <> []) -> Forall (fun v => v <> []) (t_obs s) -> optimize fuel s <> Bad.
Proof.
  intros D Hu T Ne Ob. destruct (optimize_start fuel s T ltac:(lia)) as [E|(s0 & v & w & Es & O & I & E)]; [congruence|].
  assert (Ok : okobs s0).
  { split; rewrite O; [destruct (t_obs s); discriminate|]. apply Forall_app. split; [exact Ob|]. repeat constructor. eapply Ne; eauto. }
  rewrite E. refine (main_loop_safe _ _ _ _ _ _ _ _ _ D _ Ne _ _ _ _ I Ok _). cbn [depth]. lia.
Qed.

(** C50: in any state, splitting a box whose point is its centre closes it and adds at the next level
    three equal boxes along its longest side, with their centres *)
Theorem C50_split (s : st) lc h i b2 s' l' b2' lv c : 0 < dim ->
  nth_error (tree s) h = Some lv -> nth_error lv i = Some c ->
  length (c_min c) = dim -> length (c_max c) = dim -> is_centre dim c ->
  split sfun afun acq query spread tiny s lc h i b2 = Fine (s', l', b2') ->
  exists l m r, trisection dim c l m r /\ is_centre dim l /\ is_centre dim m /\ is_centre dim r /\
    (forall h', h' <> h -> h' <> S h -> nth_error (tree s') h' = nth_error (tree s) h') /\
    nth_error (tree s') h = Some (firstn i lv ++ close_leaf c :: skipn (S i) lv) /\
    nth_error (tree s') (S h) = option_map (fun lv' => lv' ++ [l; r; m]) (nth_error (tree s) (S h)).
Proof.
  intros D H1 H2 L1 L2 Ce H. unfold split in H. rewrite H1, H2 in H.
  destruct (S h <? length (tree s)) eqn:Hh; cbn [negb] in H; [|discriminate]. apply Nat.ltb_lt in Hh.
  destruct (c_x c) as [|x0 xr] eqn:Ex; [discriminate|]. rewrite <- Ex in H. clear x0 xr Ex.
  destruct (split_dim_spec (c_min c) (c_max c) dim D L1 L2) as [Hd Hmax].
  set (d := split_dim (c_min c) (c_max c)) in *. set (s0 := set_tree s (upd_cell (tree s) h i close_leaf)) in *.
  match type of H with ibind ?a _ = _ => destruct a as [[[[[s1 fg] sg] M1] b21]| | |] eqn:E1; try discriminate end.
  cbn [ibind] in H. apply child_value_fine in E1 as [T1 _].
  match type of H with ibind (child_value _ _ _ _ _ ?a _ _ _ _) _ = _ => set (s1' := a) in H end.
  match type of H with ibind ?a _ = _ => destruct a as [[[[[s2 fd] sd] M2] b22]| | |] eqn:E2; try discriminate end.
  cbn [ibind] in H. apply child_value_fine in E2 as [T2 _].
  match type of H with context [best_obs ?a] => set (s3 := a) in H end.
  destruct (best_obs s3) as [bv|]; [|discriminate]. assert (Z : s' = s3) by (injection H as <- <- <-; auto). subst s'. clear H.
  pose proof (third_cells dim c d fg fd sg sd L1 L2 Ce Hd) as TT. cbn zeta in TT. destruct TT as (TL & TM & TR).
  match type of TL with third_of _ _ _ _ ?a => set (l := a) in * end.
  match type of TM with third_of _ _ _ _ ?a => set (m := a) in * end.
  match type of TR with third_of _ _ _ _ ?a => set (r := a) in * end.
  exists l, m, r. split; [eapply third_trisection; eauto|].
  split; [eapply third_centre; eauto|]. split; [eapply third_centre; eauto|]. split; [eapply third_centre; eauto|].
  assert (L0 : S h < length (upd_cell (tree s) h i close_leaf)) by (rewrite upd_length; exact Hh).
  assert (Tr : tree s3 = push_cells (upd_cell (tree s) h i close_leaf) (S h) [l; r; m]).
  { subst s3. cbn [set_tree tree]. rewrite T2. subst s1'. cbn [set_tree tree]. rewrite T1. subst s0. cbn [set_tree tree].
    change [l; r; m] with ([l] ++ [r; m]). rewrite <- push_twice by exact L0. reflexivity. }
  rewrite Tr. split; [|split].
  - intros h' N1 N2. rewrite push_level by exact L0. destruct (Nat.eqb_spec h' (S h)); [congruence|].
    rewrite (upd_level _ _ _ _ lv c h' H1 H2). destruct (Nat.eqb_spec h' h); [congruence|reflexivity].
  - rewrite push_level by exact L0. destruct (Nat.eqb_spec h (S h)); [lia|]. rewrite (upd_level _ _ _ _ lv c h H1 H2), Nat.eqb_refl. reflexivity.
  - rewrite push_level by exact L0. rewrite Nat.eqb_refl. rewrite (upd_level _ _ _ _ lv c (S h) H1 H2).
    destruct (Nat.eqb_spec (S h) h); [lia|reflexivity].
Qed.

(** C51: the points evaluated by a first call are all different; they are exactly the points of the
    leaves flagged as sampled *)
Theorem C51_no_point_evaluated_twice fuel (s s' : st) l : 0 < dim -> 0 < h_upper -> t_tot s = 0%Z ->
  optimize fuel s = Fine (s', l) ->
  exists new, t_samples s' = t_samples s ++ new /\ NoDup new /\
    forall x, In x new <-> exists c, In c (leaves (tree s')) /\ c_samp c = true /\ c_x c = x.
Proof.
  intros D Hu T H. destruct (optimize_start fuel s T Hu) as [E|(s0 & v & w & _ & _ & I & E)]; [congruence|].
  rewrite E in H. destruct (main_loop_inv _ _ _ _ _ _ _ _ _ D _ _ _ _ _ _ _ I H) as [new' [I1 I2 _ _]]. exists new'. split; [exact I1|]. split; [exact (l_nodup _ _ _ I2)|].
  intro x. split.
  - intro Hx. destruct (l_from _ _ _ I2 x Hx) as (c & Hc & <-). exists c. split; [exact Hc|]. split; [|reflexivity].
    destruct (c_samp c) eqn:Q; [reflexivity|]. exfalso. exact (l_unsamp _ _ _ I2 c Hc Q Hx).
  - intros (c & Hc & Sc & <-). exact (l_samp _ _ _ I2 c Hc Sc).
Qed.
End Main.

(** ** Witnesses *)
Definition w_fun (w : unit) (x : point) : option vec * unit := (Some [f1], w).
Definition w_afun (v : vec) : F := match v with [] => fnan | x :: _ => x end.
Definition w_acq (xs : list point) (vs : list vec) (M : nat) (x : point) : F := f0.
Definition w_query (xs : list point) (vs : list vec) (x : point) : vec * F := ([f0], f0).
Definition w_spread (M : nat) (s : F) : F := f0.
Definition w_start : @st unit := mkSt [] [] [] 0 0 tt.
Definition w_stop (k : nat) (s : @st unit) : bool := k <=? length (t_samples s).
Definition w_tiny : F := fdiv f1 (fofZ 1000000).
Definition w_run k fuel s := optimize w_fun w_afun w_acq w_query w_spread w_tiny 1 10 (w_stop k) fuel s.

Definition is_fine {T} (o : ires T) : bool := match o with Fine _ => true | _ => false end.
Definition got {T} (o : ires T) (d : T) : T := match o with Fine t => t | _ => d end.
Lemma is_fine_got {T} (o : ires T) d : is_fine o = true -> o = Fine (got o d).
Proof. destruct o; cbn; intro H; [reflexivity|discriminate..]. Qed.
Definition w_loc : loc := mkLoc 0 0 0 f0 f0.
Definition w_one := got (w_run 1 0 w_start) (w_start, w_loc).
Definition w_two := got (w_run 1 0 (fst w_one)) (w_start, w_loc).
Definition w_three := got (w_run 2 3 w_start) (w_start, w_loc).
Lemma w_one_ok : w_run 1 0 w_start = Fine (fst w_one, snd w_one).
Proof. rewrite <- surjective_pairing. apply is_fine_got. vm_compute. reflexivity. Qed.
Lemma w_two_ok : w_run 1 0 (fst w_one) = Fine (fst w_two, snd w_two).
Proof. rewrite <- surjective_pairing. apply is_fine_got. vm_compute. reflexivity. Qed.
Lemma w_three_ok : w_run 2 3 w_start = Fine (fst w_three, snd w_three).
Proof. rewrite <- surjective_pairing. apply is_fine_got. vm_compute. reflexivity. Qed.

(** a run of three iterations meets the hypotheses of the theorems above *)
Example C50_nontrivial : exists s l, w_run 2 3 w_start = Fine (s, l) /\ length (leaves (tree s)) = 7 /\ length (t_samples s) = 2.
Proof. exists (fst w_three), (snd w_three). split; [exact w_three_ok|]. split; vm_compute; reflexivity. Qed.

(** C50, refuted for repeated calls: a second call without reset adds a second root box that overlaps the leaves *)
Theorem C50_second_call_refuted : exists s1 l1 s2 l2,
  w_run 1 0 w_start = Fine (s1, l1) /\ tiling 1 (leaves (tree s1)) /\
  w_run 1 0 s1 = Fine (s2, l2) /\ ~ tiling 1 (leaves (tree s2)).
Proof.
  exists (fst w_one), (snd w_one), (fst w_two), (snd w_two). split; [exact w_one_ok|]. split.
  - refine (proj1 (C50_leaves_tile_the_cube w_fun w_afun w_acq w_query w_spread w_tiny 1 10 (w_stop 1) 0 w_start _ _ _ _ eq_refl w_one_ok)); lia.
  - split; [exact w_two_ok|]. intros (_ & _ & A).
    assert (E : leaves (tree (fst w_two)) = [root_cell 1 [f1]; root_cell 1 [f1]]) by (vm_compute; reflexivity).
    rewrite E in A.
    refine (A 0 1 _ _ eq_refl eq_refl _ [(1 / 2)%R] _ _); [lia| |];
      (split; [reflexivity|intros [|i] Hi; [unfold coord; cbn; lra|lia]]).
Qed.

(** C51, refuted: a leaf first labelled with the upper bound of the model and evaluated later keeps the
    label: its stored value is not the value observed at its point *)
Theorem C51_sampled_value_refuted : exists s l c, w_run 2 3 w_start = Fine (s, l) /\
  In c (leaves (tree s)) /\ c_samp c = true /\
  exists v, In (c_x c, v) (combine (t_samples s) (t_obs s)) /\ c_f c <> v.
Proof.
  set (c := hd (root_cell 1 []) (leaves (tree (fst w_three)))).
  exists (fst w_three), (snd w_three), c. split; [exact w_three_ok|].
  assert (L : leaves (tree (fst w_three)) <> []) by (intro H; apply (f_equal (@length cell)) in H; vm_compute in H; discriminate H).
  split; [subst c; destruct (leaves (tree (fst w_three))); [congruence|left; reflexivity]|].
  split; [vm_compute; reflexivity|].
  exists [f1]. split; [|intro H; vm_compute in H; discriminate H].
  assert (E : nth_error (combine (t_samples (fst w_three)) (t_obs (fst w_three))) 1 = Some (c_x c, [f1])) by (vm_compute; reflexivity).
  eapply nth_error_In, E.
Qed.
