(** IMGPO keeps a tiling of the search space and never evaluates a point twice (C50). *)
From Coq Require Import Reals List Bool ZArith Arith Lia Lra Permutation.
From Coq Require Import Floats.SpecFloat.
From Verif Require Import F64 BOModel ImgpoModel ImgpoSpec ImgpoFacts.
Import ListNotations.
Local Open Scope nat_scope.

(** ** Updates of the tree *)
Lemma split_at {A} (l : list A) i c : nth_error l i = Some c -> l = firstn i l ++ c :: skipn (S i) l.
Proof. revert i. induction l as [|a l IH]; intros [|i] H; cbn in *; try discriminate; [injection H as ->; reflexivity|]. f_equal. apply IH, H. Qed.
Lemma nth_error_put {A} (l : list A) i v j : i < length l -> nth_error (firstn i l ++ v :: skipn (S i) l) j = if j =? i then Some v else nth_error l j.
Proof.
  intro H. destruct (nth_error l i) as [c|] eqn:E; [|apply nth_error_None in E; lia].
  destruct (Nat.eqb_spec j i) as [->|N].
  - rewrite nth_error_app2; rewrite firstn_length, Nat.min_l by lia; [|lia]. rewrite Nat.sub_diag. reflexivity.
  - rewrite (split_at l i c E) at 3. destruct (Nat.lt_ge_cases j i).
    + rewrite !nth_error_app1 by (rewrite firstn_length; lia). reflexivity.
    + rewrite !nth_error_app2 by (rewrite firstn_length; lia). rewrite !firstn_length, !Nat.min_l by lia.
      replace (j - i) with (S (j - S i)) by lia. reflexivity.
Qed.
Lemma Permutation_filter {A} (f : A -> bool) l l' : Permutation l l' -> Permutation (filter f l) (filter f l').
Proof.
  induction 1; cbn; auto.
  - destruct (f x); auto.
  - destruct (f x), (f y); auto. apply perm_swap.
  - etransitivity; eauto.
Qed.
Lemma upd_level t h i f l c h' : nth_error t h = Some l -> nth_error l i = Some c ->
  nth_error (upd_cell t h i f) h' = if h' =? h then Some (firstn i l ++ f c :: skipn (S i) l) else nth_error t h'.
Proof.
  intros H1 H2. unfold upd_cell. rewrite H1, H2. apply nth_error_put. apply nth_error_Some. congruence.
Qed.
Lemma upd_length t h i f : length (upd_cell t h i f) = length t.
Proof.
  unfold upd_cell. destruct (nth_error t h) as [l|] eqn:E; [|reflexivity]. destruct (nth_error l i); [|reflexivity].
  assert (h < length t) by (apply nth_error_Some; congruence).
  rewrite app_length, firstn_length, Nat.min_l by lia. cbn [length]. rewrite skipn_length. lia.
Qed.
Lemma upd_perm t h i f l c : nth_error t h = Some l -> nth_error l i = Some c ->
  exists rest, Permutation (concat t) (c :: rest) /\ Permutation (concat (upd_cell t h i f)) (f c :: rest).
Proof.
  intros H1 H2. exists (concat (firstn h t) ++ firstn i l ++ skipn (S i) l ++ concat (skipn (S h) t)).
  assert (K : forall v, Permutation (concat (firstn h t ++ (firstn i l ++ v :: skipn (S i) l) :: skipn (S h) t))
     (v :: concat (firstn h t) ++ firstn i l ++ skipn (S i) l ++ concat (skipn (S h) t))).
  { intro v. rewrite concat_app. cbn [concat]. symmetry. rewrite (app_assoc (concat (firstn h t)) (firstn i l)).
    etransitivity; [apply Permutation_middle|]. rewrite <- !app_assoc. reflexivity. }
  split.
  - rewrite (split_at t h l H1) at 1. rewrite (split_at l i c H2) at 1. apply K.
  - unfold upd_cell. rewrite H1, H2. apply K.
Qed.
Lemma push_level t h cs h' : h < length t ->
  nth_error (push_cells t h cs) h' = if h' =? h then option_map (fun l => l ++ cs) (nth_error t h) else nth_error t h'.
Proof.
  intro H. unfold push_cells. destruct (nth_error t h) as [l|] eqn:E; [|apply nth_error_None in E; lia]. apply nth_error_put, H.
Qed.
Lemma push_length t h cs : length (push_cells t h cs) = length t.
Proof.
  unfold push_cells. destruct (nth_error t h) as [l|] eqn:E; [|reflexivity].
  assert (h < length t) by (apply nth_error_Some; congruence).
  rewrite app_length, firstn_length, Nat.min_l by lia. cbn [length]. rewrite skipn_length. lia.
Qed.
Lemma push_perm t h cs : h < length t -> Permutation (concat (push_cells t h cs)) (cs ++ concat t).
Proof.
  intro H. unfold push_cells. destruct (nth_error t h) as [l|] eqn:E; [|apply nth_error_None in E; lia].
  rewrite (split_at t h l E) at 3. rewrite !concat_app. cbn [concat].
  rewrite (Permutation_app_comm l cs). rewrite <- !app_assoc. rewrite !(app_assoc (concat (firstn h t))).
  rewrite (Permutation_app_comm (concat (firstn h t)) cs). rewrite <- !app_assoc. reflexivity.
Qed.

Lemma push_twice t h a b : h < length t -> push_cells (push_cells t h a) h b = push_cells t h (a ++ b).
Proof.
  intros L. unfold push_cells at 1. rewrite push_level by exact L. rewrite Nat.eqb_refl.
  unfold push_cells. destruct (nth_error t h) as [lq|] eqn:Eq; [|apply nth_error_None in Eq; lia]. cbn [option_map].
  assert (Lf' : length (firstn h t) = h) by (rewrite firstn_length; lia).
  f_equal.
  - rewrite <- Lf' at 1. rewrite firstn_app, firstn_all, Nat.sub_diag. cbn. apply app_nil_r.
  - rewrite <- app_assoc. f_equal. replace (S h) with (length (firstn h t) + 1) at 1 by lia.
    rewrite skipn_app. rewrite skipn_all2 by lia. replace (length (firstn h t) + 1 - length (firstn h t)) with 1 by lia. reflexivity.
Qed.
Lemma third_trisection n c d l m r : d < n -> (forall j, j < n -> (side c j <= side c d)%R) ->
  third_of n c d 0 l -> third_of n c d 1 m -> third_of n c d 2 r -> trisection n c l m r.
Proof.
  intros Hd Hs (_ & _ & _ & OL & A1 & A2 & _) (_ & _ & _ & OM & B1 & B2 & _) (_ & _ & _ & OR & C1 & C2 & _).
  exists d. split; [exact Hd|]. split; [exact Hs|]. split.
  - intros j Hj Nj c' [<-|[<-|[<-|[]]]]; [destruct (OL j Hj Nj) as (? & ? & _)|destruct (OM j Hj Nj) as (? & ? & _)|destruct (OR j Hj Nj) as (? & ? & _)]; auto.
  - cbn zeta. rewrite A1, A2, B1, B2, C1, C2. unfold side. cbn [INR]. repeat split; lra.
Qed.
Lemma third_centre n c d q c' : d < n -> is_centre n c -> third_of n c d q c' -> is_centre n c'.
Proof.
  intros Hd [_ C] (L1 & L2 & L3 & O & D1 & D2 & D3). split; [exact L3|]. intros i Hi. destruct (Nat.eq_dec i d) as [->|N].
  - rewrite D1, D2, D3. lra.
  - destruct (O i Hi N) as (-> & -> & ->). apply (C i Hi).
Qed.
Lemma third_cells n c d fg fd sg sd : length (c_min c) = n -> length (c_max c) = n -> is_centre n c -> d < n ->
  let mn := c_min c in let mx := c_max c in let xx := c_x c in
  third_of n c d 0 (mkCell mn (set_coord mx d (third mn mx d)) (left_pt mn mx xx d) fg true sg) /\
  third_of n c d 1 (mkCell (set_coord mn d (third mn mx d)) (set_coord mx d (two_thirds mn mx d)) xx (c_f c) true true) /\
  third_of n c d 2 (mkCell (set_coord mn d (two_thirds mn mx d)) mx (right_pt mn mx xx d) fd true sd).
Proof.
  intros L1 L2 [L3 C] Hd. cbn zeta.
  specialize (C d Hd).
  assert (D1 : d < length (c_min c)) by lia. assert (D2 : d < length (c_max c)) by lia. assert (D3 : d < length (c_x c)) by lia.
  assert (E : forall p v j, d < length p -> j <> d -> coord (set_coord p d v) j = coord p j)
    by (intros p v j H N; rewrite coord_set by exact H; destruct (Nat.eqb_spec j d); [congruence|reflexivity]).
  assert (E' : forall p v, d < length p -> coord (set_coord p d v) d = v)
    by (intros p v H; rewrite coord_set by exact H; rewrite Nat.eqb_refl; reflexivity).
  unfold third_of, left_pt, right_pt. cbn [c_min c_max c_x INR]. unfold side.
  repeat split; rewrite ?set_coord_length by assumption; rewrite ?E by assumption; rewrite ?E' by assumption; auto; unfold third, two_thirds; lra.
Qed.

Section Run.
Context {W : Type}.
Variable sfun : W -> point -> option vec * W.
Variable afun : vec -> F.
Variable acq : list point -> list vec -> nat -> point -> F.
Variable query : list point -> list vec -> point -> vec * F.
Variable spread : nat -> F -> F.
Variable tiny : F.
Variables (n h_upper : nat).
Variable stop : @st W -> bool.
Hypothesis n_pos : 0 < n.

Notation st := (@st W).
Notation evaluate := (evaluate sfun).
Notation level_loop := (level_loop sfun afun).
Notation levels_loop := (levels_loop sfun afun).
Notation child_value := (child_value sfun acq query spread tiny).
Notation split := (split sfun afun acq query spread tiny).
Notation splits := (splits sfun afun acq query spread tiny).
Notation iteration := (iteration sfun afun acq query spread tiny).
Notation main_loop := (main_loop sfun afun acq query spread tiny stop).

Variable pre : list point.
(** the evaluated points are [pre ++ new] *)
Record tinv (s : st) (new : list point) : Prop := {
  i_samples : t_samples s = pre ++ new;
  i_leaves : LI n (leaves (tree s)) new;
  i_cells : forall h l c, nth_error (tree s) h = Some l -> In c l -> good n h c /\ (c_samp c = true -> In (c_x c) new);
  i_len : length (tree s) = h_upper }.

Lemma evaluate_fine s x v s' : evaluate s x = Fine (v, s') -> tree s' = tree s /\ t_samples s' = t_samples s ++ [x] /\ t_obs s' = t_obs s ++ [v].
Proof.
  unfold ImgpoModel.evaluate, add_sample. destruct (sfun (t_w s) x) as [[v'|] w]; [|discriminate].
  destruct (is_nan_or_inf v'); [discriminate|]. cbn. intro H. injection H as <- <-. auto.
Qed.
Lemma leaves_upd t h i f l c : nth_error t h = Some l -> nth_error l i = Some c -> c_leaf c = true ->
  exists R, Permutation (leaves t) (c :: R) /\ Permutation (leaves (upd_cell t h i f)) ((if c_leaf (f c) then [f c] else []) ++ R).
Proof.
  intros H1 H2 Hl. destruct (upd_perm t h i f l c H1 H2) as (rest & P1 & P2). exists (filter c_leaf rest).
  unfold leaves. split.
  - rewrite (Permutation_filter _ _ _ P1). cbn. rewrite Hl. reflexivity.
  - rewrite (Permutation_filter _ _ _ P2). cbn. destruct (c_leaf (f c)); reflexivity.
Qed.

(** [t'] has the same cells as [t], except that leaves may have been flagged, closed at levels below [h0], and cells added *)
Definition cand (t : list level) (h : nat) (im : option nat) : Prop :=
  forall i, im = Some i -> exists l c, nth_error t h = Some l /\ nth_error l i = Some c /\ c_leaf c = true /\ c_samp c = true.

Lemma mark_cand t h i h' im : cand t h' im -> cand (upd_cell t h i mark_sampled) h' im.
Proof.
  intros C j Hj. destruct (C j Hj) as (l & c & H1 & H2 & H3 & H4).
  destruct (nth_error t h) as [l0|] eqn:E1; [|unfold upd_cell; rewrite E1; eauto 8].
  destruct (nth_error l0 i) as [c0|] eqn:E2; [|unfold upd_cell; rewrite E1, E2; eauto 8].
  rewrite (upd_level t h i _ l0 c0 h' E1 E2). destruct (Nat.eqb_spec h' h) as [->|N]; [|eauto 8].
  rewrite E1 in H1. injection H1 as <-. exists (firstn i l0 ++ mark_sampled c0 :: skipn (S i) l0).
  assert (i < length l0) by (apply nth_error_Some; congruence).
  destruct (Nat.eq_dec j i) as [->|N].
  - exists (mark_sampled c0). rewrite nth_error_put by assumption. rewrite Nat.eqb_refl. rewrite E2 in H2. injection H2 as ->. auto.
  - exists c. rewrite nth_error_put by assumption. destruct (Nat.eqb_spec j i); [congruence|auto].
Qed.
Lemma close_cand t h i h' im : h < h' -> cand t h' im -> cand (upd_cell t h i close_leaf) h' im.
Proof.
  intros L C j Hj. destruct (C j Hj) as (l & c & H1 & H2 & H3 & H4).
  destruct (nth_error t h) as [l0|] eqn:E1; [|unfold upd_cell; rewrite E1; eauto 8].
  destruct (nth_error l0 i) as [c0|] eqn:E2; [|unfold upd_cell; rewrite E1, E2; eauto 8].
  rewrite (upd_level t h i _ l0 c0 h' E1 E2). destruct (Nat.eqb_spec h' h) as [->|N]; [lia|]. eauto 8.
Qed.
Lemma push_cand t h cs h' im : cand t h' im -> cand (push_cells t h cs) h' im.
Proof.
  intros C j Hj. destruct (C j Hj) as (l & c & H1 & H2 & H3 & H4).
  destruct (Nat.lt_ge_cases h (length t)) as [L|L]; [|unfold push_cells; rewrite (proj2 (nth_error_None t h) L); eauto 8].
  rewrite push_level by exact L. destruct (Nat.eqb_spec h' h) as [->|N]; [|eauto 8]. rewrite H1. cbn.
  exists (l ++ cs), c. repeat (split; [solve [auto]|]). split; auto.
  rewrite nth_error_app1; [exact H2|]. apply nth_error_Some. congruence.
Qed.

(** ** Steps (i)-(ii) *)
Lemma scan_spec l : forall i bmax im b bmax' im' b', scan afun l i bmax im b = (bmax', im', b') ->
  (im' = im /\ bmax' = bmax) \/ (exists j c, im' = Some j /\ i <= j /\ nth_error l (j - i) = Some c /\ c_leaf c = true).
Proof.
  induction l as [|c l IH]; intros i bmax im b bmax' im' b' H; cbn in H; [injection H as <- <- <-; auto|].
  destruct (c_leaf c && flt bmax (afun (c_f c))) eqn:E.
  - apply andb_prop in E as [E _]. destruct (IH _ _ _ _ _ _ _ H) as [[-> ->]|(j & c' & -> & L & N & Lf)]; right.
    + exists i, c. rewrite Nat.sub_diag. auto.
    + exists j, c'. replace (j - i) with (S (j - S i)) by lia. repeat split; auto. lia.
  - destruct (IH _ _ _ _ _ _ _ H) as [?|(j & c' & -> & L & N & Lf)]; [left; auto|right].
    exists j, c'. replace (j - i) with (S (j - S i)) by lia. repeat split; auto. lia.
Qed.

Lemma mark_tinv s new h i l c v s' : tinv s new -> nth_error (tree s) h = Some l -> nth_error l i = Some c -> c_leaf c = true -> c_samp c = false ->
  evaluate s (c_x c) = Fine (v, s') ->
  tinv (set_tree s' (upd_cell (tree s') h i mark_sampled)) (new ++ [c_x c]).
Proof.
  intros [S1 S2 S3 S4] H1 H2 Hl Hs E. apply evaluate_fine in E as (E1 & E2 & _). rewrite E1.
  assert (Il : i < length l) by (apply nth_error_Some; congruence).
  split; cbn [set_tree tree t_samples].
  - rewrite E2, S1, app_assoc. reflexivity.
  - destruct (leaves_upd (tree s) h i mark_sampled l c H1 H2 Hl) as (R & P1 & P2). cbn [mark_sampled c_leaf] in P2. rewrite Hl in P2. cbn in P2.
    eapply LI_perm; [apply Permutation_sym, P2|]. apply mark_LI; [|exact Hs]. eapply LI_perm; [exact P1|exact S2].
  - intros h' l' c' N I. rewrite (upd_level _ _ _ _ l c h' H1 H2) in N. destruct (Nat.eqb_spec h' h) as [->|Nh].
    + injection N as <-.
      assert (K : c' = mark_sampled c \/ In c' l).
      { rewrite in_app_iff in I. cbn [In] in I. destruct I as [I|[<-|I]]; auto; right.
        - rewrite <- (firstn_skipn i l). apply in_or_app. auto.
        - rewrite <- (firstn_skipn (S i) l). apply in_or_app. auto. }
      destruct K as [->|K].
      * destruct (S3 h l c H1 (nth_error_In _ _ H2)) as [[G1 G2 G3 G4 G5] T]. split; [split; auto|].
        intros _. apply in_or_app. right. left. reflexivity.
      * destruct (S3 h l c' H1 K) as [G T]. split; [exact G|]. intro Q. apply in_or_app. left. exact (T Q).
    + destruct (S3 h' l' c' N I) as [G T]. split; [exact G|]. intro Q. apply in_or_app. left. exact (T Q).
  - rewrite upd_length. exact S4.
Qed.

Lemma level_loop_inv fuel : forall h s new bmax im b s' bmax' im' b', tinv s new ->
  (forall i, im = Some i -> exists l c, nth_error (tree s) h = Some l /\ nth_error l i = Some c /\ c_leaf c = true) ->
  level_loop fuel h s bmax im b = Fine (s', bmax', im', b') ->
  exists new', tinv s' new' /\ cand (tree s') h im' /\ (forall h' im0, cand (tree s) h' im0 -> cand (tree s') h' im0).
Proof.
  induction fuel as [|fuel IH]; intros h s new bmax im b s' bmax' im' b' T P H; cbn [ImgpoModel.level_loop] in H; [discriminate|].
  destruct (nth_error (tree s) h) as [l|] eqn:El; [|discriminate].
  destruct (scan afun l 0 bmax im b) as [[bm i1] b1] eqn:Es.
  assert (Q : forall i, i1 = Some i -> exists c, nth_error l i = Some c /\ c_leaf c = true).
  { intros i ->. destruct (scan_spec _ _ _ _ _ _ _ _ Es) as [[E _]|(j & c & E & _ & N & Lf)].
    - destruct (P i (eq_sym E)) as (l0 & c & K1 & K2 & K3). injection K1 as <-. eauto.
    - injection E as <-. rewrite Nat.sub_0_r in N. eauto. }
  destruct i1 as [i|].
  - destruct (nth_error l i) as [c|] eqn:Ec; [|discriminate]. destruct (Q i eq_refl) as (c0 & K1 & Lf). rewrite K1 in Ec. injection Ec as ->.
    destruct (c_samp c) eqn:Sc.
    + injection H as <- <- <- <-. exists new. split; [exact T|]. split; [|auto]. intros j Hj. injection Hj as <-. exists l, c. auto.
    + destruct (evaluate s (c_x c)) as [[v s1]| | |] eqn:Ee; try discriminate. cbn [ibind snd] in H.
      pose proof (mark_tinv s new h i l c v s1 T El K1 Lf Sc Ee) as T1.
      pose proof (evaluate_fine _ _ _ _ Ee) as (E1 & _ & _).
      assert (P1 : forall j, Some i = Some j -> exists l2 c2, nth_error (tree (set_tree s1 (upd_cell (tree s1) h i mark_sampled))) h = Some l2 /\ nth_error l2 j = Some c2 /\ c_leaf c2 = true).
      { intros j Hj. injection Hj as <-. cbn [set_tree tree]. rewrite E1. rewrite (upd_level _ _ _ _ l c h El K1), Nat.eqb_refl.
        eexists _, (mark_sampled c). split; [reflexivity|]. split; [|exact Lf]. rewrite nth_error_put by (apply nth_error_Some; congruence).
        rewrite Nat.eqb_refl. reflexivity. }
      destruct (IH _ _ _ _ _ _ _ _ _ _ T1 P1 H) as (new' & T' & C' & M').
      exists new'. split; [exact T'|]. split; [exact C'|]. intros h' im0 C0. apply M'. cbn [set_tree tree]. rewrite E1. apply mark_cand, C0.
  - injection H as <- <- <- <-. exists new. split; [exact T|]. split; [|auto]. intros j Hj. discriminate.
Qed.

Definition cands (t : list level) (h : nat) (ims : list (option nat)) : Prop :=
  forall k im, nth_error ims k = Some im -> cand t (h + k) im.
Lemma levels_loop_inv m : forall h s new bmax s' ims bs, tinv s new -> levels_loop m h s bmax = Fine (s', ims, bs) ->
  exists new', tinv s' new' /\ cands (tree s') h ims /\ (forall h' im0, cand (tree s) h' im0 -> cand (tree s') h' im0).
Proof.
  induction m as [|m IH]; intros h s new bmax s' ims bs T H; cbn [ImgpoModel.levels_loop] in H.
  - injection H as <- <- <-. exists new. split; [exact T|]. split; [|auto]. intros [|k] im Hk; discriminate.
  - destruct (level_loop 2 h s bmax None finf_neg) as [[[[s1 bm1] im] b]| | |] eqn:E1; try discriminate. cbn [ibind] in H.
    destruct (levels_loop m (S h) s1 bm1) as [[[s2 ims2] bs2]| | |] eqn:E2; try discriminate. cbn [ibind] in H. injection H as <- <- <-.
    assert (P0 : forall i, @None nat = Some i -> exists l c, nth_error (tree s) h = Some l /\ nth_error l i = Some c /\ c_leaf c = true) by (intros i Q; discriminate Q).
    destruct (level_loop_inv _ _ _ _ _ _ _ _ _ _ _ T P0 E1) as (n1 & T1 & C1 & M1).
    destruct (IH _ _ _ _ _ _ _ T1 E2) as (n2 & T2 & C2 & M2).
    exists n2. split; [exact T2|]. split; [|auto]. intros [|k] im0 Hk; cbn in Hk.
    + injection Hk as <-. rewrite Nat.add_0_r. apply M2, C1.
    + rewrite <- Nat.add_succ_comm. apply C2, Hk.
Qed.

(** ** Step (iii) only drops candidates *)
Lemma prune_sub ims : forall bs h (s : st) XI M ims' M', prune acq ims bs h s XI M = Fine (ims', M') ->
  length ims' = length ims /\ forall k i, nth_error ims' k = Some (Some i) -> nth_error ims k = Some (Some i).
Proof.
  induction ims as [|im ims IH]; intros bs h s XI M ims' M' H; cbn [prune] in H; [injection H as <- <-; auto|].
  assert (K : forall im' m, ibind (prune acq ims (tl bs) (S h) s XI m) (fun p => Fine (im' :: fst p, snd p)) = Fine (ims', M') ->
     (im' = im \/ im' = None) -> length ims' = length (im :: ims) /\ forall k i, nth_error ims' k = Some (Some i) -> nth_error (im :: ims) k = Some (Some i)).
  { intros im' m H' D. destruct (prune acq ims (tl bs) (S h) s XI m) as [[p1 p2]| | |] eqn:E; try discriminate. cbn in H'. injection H' as <- <-.
    destruct (IH _ _ _ _ _ _ _ E) as [A B]. cbn [length]. split; [congruence|]. intros [|k] i Hk; cbn in *; [|apply B, Hk].
    destruct D as [->| ->]; [exact Hk|discriminate]. }
  destruct im as [i|]; [|eapply K; eauto].
  destruct (next_candidate ims XI 1) as [xi|]; [|eapply K; eauto].
  destruct (nth_error (tree s) h) as [l|]; [|discriminate]. destruct (nth_error l i) as [c|]; [|discriminate].
  destruct (nth_error bs xi) as [target|]; [|discriminate].
  destruct (simulate acq s xi (c_x c) (c_min c) (c_max c) M finf_neg target) as [z m2].
  destruct (flt z target); eapply K; eauto.
Qed.

(** ** Steps (iv)-(v) *)
Lemma child_value_fine s x M LB b2 s' f sp M' b2' : child_value s x M LB b2 = Fine (s', f, sp, M', b2') ->
  tree s' = tree s /\ t_samples s' = t_samples s ++ (if sp then [x] else []).
Proof.
  unfold ImgpoModel.child_value. destruct (flt _ tiny).
  - destruct (query (t_samples s) (t_obs s) x) as [mu sg]. intro H. injection H as <- <- <- <- <-. rewrite app_nil_r. auto.
  - destruct (evaluate s x) as [[v s1]| | |] eqn:E; try discriminate. cbn [ibind fst snd]. apply evaluate_fine in E as (E1 & E2 & _).
    destruct v as [|v0 v]; [discriminate|]. intro H. injection H as <- <- <- <- <-. auto.
Qed.

Lemma split_tinv s new lc h i b2 s' l' b2' : tinv s new -> cand (tree s) h (Some i) -> split s lc h i b2 = Fine (s', l', b2') ->
  exists new' lv c l m r, tinv s' new' /\ nth_error (tree s) h = Some lv /\ nth_error lv i = Some c /\
    tree s' = push_cells (upd_cell (tree s) h i close_leaf) (S h) [l; r; m] /\ S h < length (tree s) /\
    trisection n c l m r /\ is_centre n l /\ is_centre n m /\ is_centre n r /\
    Forall (fun c' => c_leaf c' = true) [l; r; m] /\
    depth l' = max (depth lc) (S h).
Proof.
  intros T C H. destruct (C i eq_refl) as (lv & c & H1 & H2 & Lf & Sc). unfold ImgpoModel.split in H. rewrite H1, H2 in H.
  destruct (S h <? length (tree s)) eqn:Hh; cbn [negb] in H; [|discriminate]. apply Nat.ltb_lt in Hh.
  destruct T as [S1 S2 S3 S4]. destruct (S3 h lv c H1 (nth_error_In _ _ H2)) as [G _].
  destruct (c_x c) as [|x0 xr] eqn:Ex; [discriminate|]. rewrite <- Ex in H. clear x0 xr Ex.
  destruct (split_dim_spec (c_min c) (c_max c) n n_pos (g_min _ _ _ G) (g_max _ _ _ G)) as [Hd Hmax].
  set (d := split_dim (c_min c) (c_max c)) in *.
  set (s0 := set_tree s (upd_cell (tree s) h i close_leaf)) in *.
  destruct (child_value s0 (left_pt (c_min c) (c_max c) (c_x c) d) (bigM lc) (lb lc) b2) as [[[[[s1 fg] sg] M1] b21]| | |] eqn:E1; try discriminate.
  cbn [ibind] in H. apply child_value_fine in E1 as [T1 X1].
  match type of H with ibind (child_value ?a _ _ _ _) _ = _ => set (s1' := a) in H end.
  destruct (child_value s1' (right_pt (c_min c) (c_max c) (c_x c) d) M1 (lb lc) b21) as [[[[[s2 fd] sd] M2] b22]| | |] eqn:E2; try discriminate.
  cbn [ibind] in H. apply child_value_fine in E2 as [T2 X2].
  match type of H with context [best_obs ?a] => set (s3 := a) in H end.
  destruct (best_obs s3) as [bv|]; [|discriminate].
  assert (Z : s' = s3 /\ depth l' = max (depth lc) (S h)) by (injection H as <- <- <-; auto). destruct Z as [-> Z]. clear H.
  pose proof (third_cells n c d fg fd sg sd (g_min _ _ _ G) (g_max _ _ _ G) (g_centre _ _ _ G) Hd) as TT. cbn zeta in TT. destruct TT as (TL & TM & TR).
  set (lc' := mkCell (c_min c) (set_coord (c_max c) d (third (c_min c) (c_max c) d)) (left_pt (c_min c) (c_max c) (c_x c) d) fg true sg) in *.
  set (rc := mkCell (set_coord (c_min c) d (two_thirds (c_min c) (c_max c) d)) (c_max c) (right_pt (c_min c) (c_max c) (c_x c) d) fd true sd) in *.
  set (mc := mkCell (set_coord (c_min c) d (third (c_min c) (c_max c) d)) (set_coord (c_max c) d (two_thirds (c_min c) (c_max c) d)) (c_x c) (c_f c) true true) in *.
  assert (Hs : forall j, j < n -> (side c j <= side c d)%R) by exact Hmax.
  assert (Gl := third_good _ _ _ _ 0 _ G Hd Hs ltac:(lia) TL).
  assert (Gm := third_good _ _ _ _ 1 _ G Hd Hs ltac:(lia) TM).
  assert (Gr := third_good _ _ _ _ 2 _ G Hd Hs ltac:(lia) TR).
  assert (Tr : tree s3 = push_cells (push_cells (upd_cell (tree s) h i close_leaf) (S h) [lc']) (S h) [rc; mc]).
  { subst s3. cbn [set_tree tree]. rewrite T2. subst s1'. cbn [set_tree tree]. rewrite T1. reflexivity. }
  set (t0 := upd_cell (tree s) h i close_leaf) in *.
  assert (L0 : S h < length t0) by (subst t0; rewrite upd_length; exact Hh).
  pose proof (push_twice t0 (S h) [lc'] [rc; mc] L0) as PP. cbn [app] in PP.
  rewrite PP in Tr.
  exists (new ++ picked lc' ++ picked rc), lv, c, lc', mc, rc.
  assert (TI : tinv s3 (new ++ picked lc' ++ picked rc)).
  { split.
    - subst s3. cbn [set_tree t_samples]. rewrite X2. subst s1'. cbn [set_tree t_samples]. rewrite X1. subst s0. cbn [set_tree t_samples].
      rewrite S1, <- !app_assoc. reflexivity.
    - rewrite Tr. destruct (leaves_upd (tree s) h i close_leaf lv c H1 H2 Lf) as (R & P1 & P2). cbn in P2.
      eapply LI_perm; [|eapply (split_LI n h c d R new lc' mc rc); eauto].
      + apply Permutation_sym. unfold leaves at 1. rewrite (Permutation_filter c_leaf _ _ (push_perm t0 (S h) _ L0)). cbn [app filter c_leaf lc' rc mc].
        do 3 constructor. exact P2.
      + eapply LI_perm; [exact P1|exact S2].
    - intros h' l0 c' N I. rewrite Tr in N. rewrite push_level in N by exact L0.
      assert (Old : forall l1, nth_error t0 h' = Some l1 -> In c' l1 -> good n h' c' /\ (c_samp c' = true -> In (c_x c') (new ++ picked lc' ++ picked rc))).
      { intros l1 N1 I1. subst t0. rewrite (upd_level _ _ _ _ lv c h' H1 H2) in N1. destruct (Nat.eqb_spec h' h) as [->|Nh].
        - injection N1 as <-. assert (K : c' = close_leaf c \/ In c' lv).
          { rewrite in_app_iff in I1. cbn [In] in I1. destruct I1 as [I1|[<-|I1]]; auto; right.
            - rewrite <- (firstn_skipn i lv). apply in_or_app. auto.
            - rewrite <- (firstn_skipn (S i) lv). apply in_or_app. auto. }
          destruct K as [->|K].
          + destruct (S3 h lv c H1 (nth_error_In _ _ H2)) as [[G1 G2 G3 G4 G5] Tc]. split; [split; auto|].
            intro Q. apply in_or_app. left. exact (Tc Q).
          + destruct (S3 h lv c' H1 K) as [Gc' Tc]. split; [exact Gc'|]. intro Q. apply in_or_app. left. exact (Tc Q).
        - destruct (S3 h' l1 c' N1 I1) as [Gc' Tc]. split; [exact Gc'|]. intro Q. apply in_or_app. left. exact (Tc Q). }
      destruct (Nat.eqb_spec h' (S h)) as [->|Nh]; [|eapply Old; eauto].
      destruct (nth_error t0 (S h)) as [l1|] eqn:Eq; [|discriminate]. cbn in N. injection N as <-.
      apply in_app_or in I as [I|I]; [eapply Old; eauto|]. rewrite !in_app_iff.
      destruct I as [<-|[<-|[<-|[]]]]; (split; [assumption|]); intro Q.
      + right; left. unfold picked. rewrite Q. left. reflexivity.
      + right; right. unfold picked. rewrite Q. left. reflexivity.
      + left. destruct (S3 h lv c H1 (nth_error_In _ _ H2)) as [_ Tc]. exact (Tc Sc).
    - rewrite Tr, push_length. subst t0. rewrite upd_length. exact S4. }
  split; [exact TI|]. split; [exact H1|]. split; [exact H2|]. split; [exact Tr|]. split; [exact Hh|].
  split; [eapply third_trisection; eauto|].
  split; [exact (g_centre _ _ _ Gl)|]. split; [exact (g_centre _ _ _ Gm)|]. split; [exact (g_centre _ _ _ Gr)|].
  split; [repeat constructor|]. exact Z.
Qed.

Lemma split_keeps s new lc h i b2 s' l' b2' h' im : tinv s new -> cand (tree s) h (Some i) -> split s lc h i b2 = Fine (s', l', b2') ->
  h < h' -> cand (tree s) h' im -> cand (tree s') h' im.
Proof.
  intros T C H L K. destruct (split_tinv _ _ _ _ _ _ _ _ _ T C H) as (n' & lv & c & l & m & r & _ & _ & _ & E & _). rewrite E.
  apply push_cand, close_cand; auto.
Qed.
Lemma splits_inv ims : forall bs h s new lc b2 s' l', tinv s new -> cands (tree s) h ims -> splits ims bs h s lc b2 = Fine (s', l') ->
  exists new', tinv s' new'.
Proof.
  induction ims as [|im ims IH]; intros bs h s new lc b2 s' l' T C H; cbn [ImgpoModel.splits] in H.
  - injection H as <- <-. eauto.
  - destruct bs as [|b bs]; [injection H as <- <-; eauto|].
    assert (Ct : forall t, (forall h' im, h < h' -> cand (tree s) h' im -> cand t h' im) -> cands t (S h) ims).
    { intros t Q k im0 Hk. cbn. rewrite <- Nat.add_succ_r. apply Q; [lia|]. apply C. exact Hk. }
    destruct im as [i|]; [|eapply IH; [exact T|apply Ct; auto|exact H]].
    destruct (flt b2 b); [|eapply IH; [exact T|apply Ct; auto|exact H]].
    destruct (split s lc h i b2) as [[[s1 l1] b21]| | |] eqn:E; try discriminate. cbn [ibind] in H.
    assert (C0 : cand (tree s) h (Some i)) by (rewrite <- (Nat.add_0_r h); apply (C 0 (Some i)); reflexivity).
    destruct (split_tinv _ _ _ _ _ _ _ _ _ T C0 E) as (n1 & lv & c & l & m & r & T1 & _).
    eapply IH; [exact T1|apply Ct|exact H]. intros h' im L K. exact (split_keeps _ _ _ _ _ _ _ _ _ _ _ T C0 E L K).
Qed.
Lemma cands_sub t h ims ims' : cands t h ims -> (forall k i, nth_error ims' k = Some (Some i) -> nth_error ims k = Some (Some i)) -> cands t h ims'.
Proof. intros C H k im Hk i ->. apply (C k (Some i)); [apply H, Hk|reflexivity]. Qed.
Lemma iteration_inv s new lc s' l' : tinv s new -> iteration s lc = Fine (s', l') -> exists new', tinv s' new'.
Proof.
  intros T H. unfold ImgpoModel.iteration in H.
  destruct (levels_loop (S (depth lc)) 0 s finf_neg) as [[[s1 ims] bs]| | |] eqn:E1; try discriminate. cbn [ibind] in H.
  destruct (levels_loop_inv _ _ _ _ _ _ _ _ T E1) as (n1 & T1 & C1 & _).
  match type of H with ibind ?a _ = _ => destruct a as [[ims' M']| | |] eqn:E2; try discriminate end. cbn [ibind fst snd] in H.
  apply prune_sub in E2 as [_ E2].
  match type of H with ibind ?a _ = _ => destruct a as [[s2 l2]| | |] eqn:E3; try discriminate end. cbn [ibind] in H. injection H as <- <-.
  eapply splits_inv; [exact T1| |exact E3]. eapply cands_sub; eauto.
Qed.
Lemma main_loop_inv fuel : forall s new lc s' l', tinv s new -> main_loop fuel s lc = Fine (s', l') -> exists new', tinv s' new'.
Proof.
  induction fuel as [|fuel IH]; intros s new lc s' l' T H; cbn [ImgpoModel.main_loop] in H.
  - destruct (negb (length (t_samples s) =? 0) && stop s); [injection H as <- <-; eauto|discriminate].
  - destruct (negb (length (t_samples s) =? 0) && stop s); [injection H as <- <-; eauto|].
    destruct (iteration s lc) as [[s1 l1]| | |] eqn:E; try discriminate. cbn [ibind fst snd] in H.
    destruct (iteration_inv _ _ _ _ _ T E) as [n1 T1]. eapply IH; eauto.
Qed.

(** ** Progress: no undefined behaviour while the tree is not too deep *)
Hypothesis sfun_nonempty : forall w x v w', sfun w x = (Some v, w') -> v <> [].
Definition okobs (s : st) : Prop := t_obs s <> [] /\ Forall (fun v => v <> []) (t_obs s).
Definition settled {A} (o : ires A) : Prop := o <> Bad /\ o <> OutOfFuel.
Lemma settled_fine {A} (a : A) : settled (Fine a). Proof. split; discriminate. Qed.
Lemma settled_thrown {A} : settled (@Thrown A). Proof. split; discriminate. Qed.
Lemma evaluate_settled s x : settled (evaluate s x).
Proof.
  unfold ImgpoModel.evaluate, add_sample. destruct (sfun (t_w s) x) as [[v|] w]; [|apply settled_thrown].
  destruct (is_nan_or_inf v); [apply settled_thrown|apply settled_fine].
Qed.
Lemma evaluate_ok s x v s' : evaluate s x = Fine (v, s') -> okobs s -> okobs s' /\ v <> [].
Proof.
  intros E [O1 O2]. pose proof (evaluate_fine _ _ _ _ E) as (_ & _ & E3). unfold ImgpoModel.evaluate, add_sample in E.
  destruct (sfun (t_w s) x) as [[v'|] w] eqn:Es; [|discriminate]. destruct (is_nan_or_inf v'); [discriminate|]. cbn in E. injection E as <- _.
  pose proof (sfun_nonempty _ _ _ _ Es). unfold okobs. rewrite E3. repeat split; auto.
  - destruct (t_obs s); discriminate.
  - apply Forall_app. auto.
Qed.
Lemma scan_max l : forall i bmax im b bmax' im' b', scan afun l i bmax im b = (bmax', im', b') ->
  (bmax' = bmax \/ flt bmax bmax' = true) /\ forall c, In c l -> c_leaf c = true -> flt bmax' (afun (c_f c)) = false.
Proof.
  induction l as [|c l IH]; intros i bmax im b bmax' im' b' H; cbn in H; [injection H as <- <- <-; split; [auto|intros c []]|].
  destruct (c_leaf c && flt bmax (afun (c_f c))) eqn:E.
  - apply andb_prop in E as [_ E2]. destruct (IH _ _ _ _ _ _ _ H) as [A B].
    split; [right; destruct A as [->|A]; [exact E2|eapply flt_trans; eauto]|].
    intros c' [<-|I] Lf; [|apply B; auto]. destruct A as [->|A]; [apply flt_irrefl|apply flt_asym, A].
  - destruct (IH _ _ _ _ _ _ _ H) as [A B]. split; [exact A|]. intros c' [<-|I] Lf; [|apply B; auto].
    rewrite Lf in E. cbn in E. destruct A as [->|A]; [exact E|]. destruct (flt bmax' (afun (c_f c))) eqn:Q; [|reflexivity].
    rewrite (flt_trans _ _ _ A Q) in E. discriminate.
Qed.
Lemma scan_none l : forall i bmax im b, (forall c, In c l -> c_leaf c = true -> flt bmax (afun (c_f c)) = false) -> scan afun l i bmax im b = (bmax, im, b).
Proof.
  induction l as [|c l IH]; intros i bmax im b H; cbn; [reflexivity|]. destruct (c_leaf c) eqn:Lf; cbn.
  - rewrite (H c (or_introl eq_refl) Lf). apply IH. intros c' I. apply H. right. exact I.
  - apply IH. intros c' I. apply H. right. exact I.
Qed.
(** the inner loop ends after at most one evaluation *)
Lemma level_loop_settled s h bmax b : h < length (tree s) -> settled (level_loop 2 h s bmax None b).
Proof.
  intro L. cbn [ImgpoModel.level_loop]. destruct (nth_error (tree s) h) as [l|] eqn:El; [|apply nth_error_None in El; lia].
  destruct (scan afun l 0 bmax None b) as [[bm i1] b1] eqn:Es. destruct i1 as [i|]; [|apply settled_fine].
  destruct (scan_spec _ _ _ _ _ _ _ _ Es) as [[E _]|(j & c & E & _ & N & Lf)]; [discriminate|]. injection E as <-. rewrite Nat.sub_0_r in N. rewrite N.
  destruct (c_samp c); [apply settled_fine|]. pose proof (evaluate_settled s (c_x c)) as Se. destruct (evaluate s (c_x c)) as [[v s1]| | |] eqn:Ee; try exact Se; cbn [ibind].
  - cbn [snd set_tree tree]. pose proof (evaluate_fine _ _ _ _ Ee) as (E1 & _). rewrite E1. rewrite (upd_level _ _ _ _ l c h El N), Nat.eqb_refl.
    assert (Hi : i < length l) by (apply nth_error_Some; congruence).
    rewrite scan_none.
    + rewrite nth_error_put, Nat.eqb_refl by exact Hi. cbn. apply settled_fine.
    + destruct (scan_max _ _ _ _ _ _ _ _ Es) as [_ B]. intros c' I Lf'. apply in_app_or in I as [I|[<-|I]].
      * apply B; auto. rewrite <- (firstn_skipn i l). apply in_or_app. auto.
      * cbn. apply B; [eapply nth_error_In; eauto|exact Lf].
      * apply B; auto. rewrite <- (firstn_skipn (S i) l). apply in_or_app. auto.
  - destruct Se; congruence.
  - split; discriminate.
  - destruct Se; congruence.
Qed.

Lemma level_loop_ok fuel : forall h s bmax im b s' bmax' im' b', level_loop fuel h s bmax im b = Fine (s', bmax', im', b') ->
  okobs s -> okobs s' /\ length (tree s') = length (tree s).
Proof.
  induction fuel as [|fuel IH]; intros h s bmax im b s' bmax' im' b' H O; cbn [ImgpoModel.level_loop] in H; [discriminate|].
  destruct (nth_error (tree s) h) as [l|]; [|discriminate]. destruct (scan afun l 0 bmax im b) as [[bm i1] b1].
  destruct i1 as [i|]; [|injection H as <- <- <- <-; auto]. destruct (nth_error l i) as [c|]; [|discriminate].
  destruct (c_samp c); [injection H as <- <- <- <-; auto|].
  destruct (evaluate s (c_x c)) as [[v s1]| | |] eqn:Ee; try discriminate. cbn [ibind snd] in H.
  destruct (evaluate_ok _ _ _ _ Ee O) as [O1 _]. apply evaluate_fine in Ee as (E1 & _).
  destruct (IH _ _ _ _ _ _ _ _ _ H O1) as [O2 E2]. split; [exact O2|]. rewrite E2. cbn [set_tree tree]. rewrite upd_length, E1. reflexivity.
Qed.
Lemma levels_loop_ok m : forall h s bmax, h + m <= length (tree s) -> okobs s ->
  settled (levels_loop m h s bmax) /\
  forall s' ims bs, levels_loop m h s bmax = Fine (s', ims, bs) -> okobs s' /\ length (tree s') = length (tree s) /\ length ims = m /\ length bs = m.
Proof.
  induction m as [|m IH]; intros h s bmax L O; cbn [ImgpoModel.levels_loop].
  - split; [apply settled_fine|]. intros s' ims bs H. injection H as <- <- <-. auto.
  - pose proof (level_loop_settled s h bmax finf_neg ltac:(lia)) as Se.
    destruct (level_loop 2 h s bmax None finf_neg) as [[[[s1 bm1] im] b]| | |] eqn:E1; cbn [ibind];
      try (split; [split; destruct Se; congruence|discriminate]).
    destruct (level_loop_ok _ _ _ _ _ _ _ _ _ _ E1 O) as [O1 L1].
    destruct (IH (S h) s1 bm1 ltac:(lia) O1) as [Se2 K].
    destruct (levels_loop m (S h) s1 bm1) as [[[s2 ims2] bs2]| | |] eqn:E2; cbn [ibind];
      try (split; [split; destruct Se2; congruence|discriminate]).
    split; [apply settled_fine|]. intros s' ims bs H. injection H as <- <- <-.
    destruct (K _ _ _ eq_refl) as (A & B & C & D). cbn. repeat split; auto; try congruence; apply A.
Qed.
Lemma next_candidate_le ims : forall m x xi, next_candidate ims m x = Some xi -> xi < x + length ims.
Proof.
  induction ims as [|im ims IH]; intros [|m] x xi H; cbn in H; try discriminate.
  destruct im; [injection H as <-; cbn; lia|]. apply IH in H. cbn. lia.
Qed.
Lemma prune_settled ims : forall bs h (s : st) XI M, length bs = length ims -> cands (tree s) h ims -> settled (prune acq ims bs h s XI M).
Proof.
  induction ims as [|im ims IH]; intros bs h s XI M L C; cbn [prune]; [apply settled_fine|].
  assert (K : forall im' m, settled (ibind (prune acq ims (tl bs) (S h) s XI m) (fun p => Fine (im' :: fst p, snd p)))).
  { intros im' m. assert (Se : settled (prune acq ims (tl bs) (S h) s XI m)).
    { apply IH; [destruct bs; cbn in *; lia|]. intros k im0 Hk. cbn. rewrite <- Nat.add_succ_r. apply C. exact Hk. }
    destruct (prune acq ims (tl bs) (S h) s XI m); cbn [ibind]; split; destruct Se; congruence. }
  destruct im as [i|]; [|apply K]. destruct (next_candidate ims XI 1) as [xi|] eqn:Ex; [|apply K].
  apply next_candidate_le in Ex. destruct (C 0 (Some i) eq_refl i eq_refl) as (l & c & H1 & H2 & _). rewrite Nat.add_0_r in H1. rewrite H1, H2.
  destruct (nth_error bs xi) as [target|] eqn:Eb; [|apply nth_error_None in Eb; cbn in *; lia].
  destruct (simulate acq s xi (c_x c) (c_min c) (c_max c) M finf_neg target) as [z m2]. destruct (flt z target); apply K.
Qed.
Lemma child_settled s x M LB b2 : okobs s -> settled (child_value s x M LB b2) /\
  forall s' f sp M' b2', child_value s x M LB b2 = Fine (s', f, sp, M', b2') -> okobs s'.
Proof.
  intro O. unfold ImgpoModel.child_value. destruct (flt _ tiny).
  - destruct (query (t_samples s) (t_obs s) x) as [mu sg]. split; [apply settled_fine|]. intros s' f sp M' b2' H. injection H as <- _ _ _ _. exact O.
  - pose proof (evaluate_settled s x) as Se. destruct (evaluate s x) as [[v s1]| | |] eqn:E; cbn [ibind fst snd];
      try (split; [split; destruct Se; congruence|discriminate]).
    destruct (evaluate_ok _ _ _ _ E O) as [O1 Nv]. destruct v as [|v0 v]; [congruence|]. split; [apply settled_fine|].
    intros s' f sp M' b2' H. injection H as <- _ _ _ _. exact O1.
Qed.
Lemma max_from_lt l : forall k best bv, best < k -> max_element_from l k best bv < k + length l.
Proof.
  induction l as [|x l IH]; intros k best bv H; cbn; [lia|].
  destruct (flt bv x); [specialize (IH (S k) k x ltac:(lia))|specialize (IH (S k) best bv ltac:(lia))]; lia.
Qed.
Lemma max_lt l : l <> [] -> max_element l < length l.
Proof. destruct l as [|x l]; [congruence|]. intros _. cbn. apply (max_from_lt l 1 0 x). lia. Qed.
Lemma best_obs_some (s : st) : okobs s -> exists v, best_obs s = Some v.
Proof.
  intros [O1 O2]. unfold best_obs. replace (existsb (fun v : list F => length v =? 0) (t_obs s)) with false.
  - destruct (nth_error (t_obs s) (max_element (map first_elem0 (t_obs s)))) as [v|] eqn:E; [eauto|]. apply nth_error_None in E.
    pose proof (max_lt (map first_elem0 (t_obs s))) as M. rewrite map_length in M. specialize (M ltac:(destruct (t_obs s); [congruence|discriminate])). lia.
  - symmetry. apply not_true_iff_false. intro H. apply existsb_exists in H as (v & I & E). rewrite Forall_forall in O2.
    apply (O2 v I). apply Nat.eqb_eq in E. destruct v; [reflexivity|discriminate].
Qed.
Lemma split_settled s new lc h i b2 : tinv s new -> cand (tree s) h (Some i) -> okobs s -> S h < length (tree s) ->
  settled (split s lc h i b2) /\ forall s' l' b2', split s lc h i b2 = Fine (s', l', b2') -> okobs s'.
Proof.
  intros T C O L. destruct (C i eq_refl) as (lv & c & H1 & H2 & Lf & Sc). unfold ImgpoModel.split. rewrite H1, H2.
  rewrite (proj2 (Nat.ltb_lt _ _) L). cbn [negb]. destruct (i_cells _ _ T h lv c H1 (nth_error_In _ _ H2)) as [G _].
  destruct (g_centre _ _ _ G) as [Lx _]. destruct (c_x c) as [|x0 xr] eqn:Ex; [cbn in Lx; lia|]. rewrite <- Ex. clear x0 xr Ex Lx.
  set (d := split_dim (c_min c) (c_max c)). set (s0 := set_tree s (upd_cell (tree s) h i close_leaf)).
  destruct (child_settled s0 (left_pt (c_min c) (c_max c) (c_x c) d) (bigM lc) (lb lc) b2 O) as [Se1 K1].
  destruct (child_value s0 (left_pt (c_min c) (c_max c) (c_x c) d) (bigM lc) (lb lc) b2) as [[[[[s1 fg] sg] M1] b21]| | |] eqn:E1; cbn [ibind];
    try (split; [split; destruct Se1; congruence|discriminate]).
  pose proof (K1 _ _ _ _ _ eq_refl) as O1.
  match goal with |- context [child_value ?a (right_pt _ _ _ _) _ _ _] => set (s1' := a) end.
  destruct (child_settled s1' (right_pt (c_min c) (c_max c) (c_x c) d) M1 (lb lc) b21 O1) as [Se2 K2].
  destruct (child_value s1' (right_pt (c_min c) (c_max c) (c_x c) d) M1 (lb lc) b21) as [[[[[s2 fd] sd] M2] b22]| | |] eqn:E2; cbn [ibind];
    try (split; [split; destruct Se2; congruence|discriminate]).
  pose proof (K2 _ _ _ _ _ eq_refl) as O2.
  match goal with |- context [best_obs ?a] => set (s3 := a); destruct (best_obs_some s3 O2) as [bv Eb] end. rewrite Eb.
  split; [apply settled_fine|]. intros s' l' b2' H. injection H as <- _ _. exact O2.
Qed.
Lemma splits_settled ims : forall bs h s new lc b2, tinv s new -> cands (tree s) h ims -> okobs s -> h + length ims < length (tree s) ->
  settled (splits ims bs h s lc b2) /\
  forall s' l', splits ims bs h s lc b2 = Fine (s', l') -> okobs s' /\ (depth lc <= depth l' <= max (depth lc) (h + length ims)).
Proof.
  induction ims as [|im ims IH]; intros bs h s new lc b2 T C O L; cbn [ImgpoModel.splits].
  - split; [apply settled_fine|]. intros s' l' H. injection H as <- <-. split; [exact O|lia].
  - destruct bs as [|b bs]; [split; [apply settled_fine|]; intros s' l' H; injection H as <- <-; split; [exact O|lia]|].
    assert (Ct : forall t, (forall h' im, h < h' -> cand (tree s) h' im -> cand t h' im) -> cands t (S h) ims).
    { intros t Q k im0 Hk. cbn. rewrite <- Nat.add_succ_r. apply Q; [lia|]. apply C. exact Hk. }
    cbn [length] in L |- *.
    assert (Skip : settled (splits ims bs (S h) s lc b2) /\ forall s' l', splits ims bs (S h) s lc b2 = Fine (s', l') -> okobs s' /\ depth lc <= depth l' <= max (depth lc) (h + S (length ims))).
    { destruct (IH bs (S h) s new lc b2 T ltac:(apply Ct; auto) O ltac:(lia)) as [A B]. split; [exact A|]. intros s' l' H. destruct (B s' l' H). split; [auto|lia]. }
    destruct im as [i|]; [|exact Skip]. destruct (flt b2 b); [|exact Skip].
    assert (C0 : cand (tree s) h (Some i)) by (rewrite <- (Nat.add_0_r h); apply (C 0 (Some i)); reflexivity).
    destruct (split_settled s new lc h i b2 T C0 O ltac:(lia)) as [Se K].
    destruct (split s lc h i b2) as [[[s1 l1] b21]| | |] eqn:E; cbn [ibind]; try (split; [split; destruct Se; congruence|discriminate]).
    destruct (split_tinv _ _ _ _ _ _ _ _ _ T C0 E) as (n1 & lv & c & l & m & r & T1 & _ & _ & _ & _ & _ & _ & _ & _ & _ & Dp).
    assert (Lt : length (tree s1) = length (tree s)) by (rewrite (i_len _ _ T1), (i_len _ _ T); reflexivity).
    assert (C1 : cands (tree s1) (S h) ims) by (apply Ct; intros h' im0 Lh Kh; exact (split_keeps _ _ _ _ _ _ _ _ _ _ _ T C0 E Lh Kh)).
    destruct (IH bs (S h) s1 n1 l1 b21 T1 C1 (K _ _ _ eq_refl) ltac:(lia)) as [A B]. split; [exact A|].
    intros s' l' H. destruct (B s' l' H) as [B1 B2]. split; [exact B1|]. lia.
Qed.
Lemma iteration_settled s new lc : tinv s new -> okobs s -> S (depth lc) < h_upper ->
  settled (iteration s lc) /\ forall s' l', iteration s lc = Fine (s', l') -> okobs s' /\ depth lc <= depth l' <= S (depth lc).
Proof.
  intros T O L. unfold ImgpoModel.iteration. pose proof (i_len _ _ T) as Lt.
  destruct (levels_loop_ok (S (depth lc)) 0 s finf_neg ltac:(lia) O) as [Se K].
  destruct (levels_loop (S (depth lc)) 0 s finf_neg) as [[[s1 ims] bs]| | |] eqn:E1; cbn [ibind]; try (split; [split; destruct Se; congruence|discriminate]).
  destruct (K _ _ _ eq_refl) as (O1 & Lt1 & Li & Lb).
  destruct (levels_loop_inv _ _ _ _ _ _ _ _ T E1) as (n1 & T1 & C1 & _).
  pose proof (prune_settled ims bs 0 s1 (Nat.min (Z.to_nat ((xi2 lc + 1) / 2)) 4) (bigM lc) ltac:(lia) C1) as Se2.
  destruct (prune acq ims bs 0 s1 (Nat.min (Z.to_nat ((xi2 lc + 1) / 2)) 4) (bigM lc)) as [[ims' M']| | |] eqn:E2; cbn [ibind fst snd];
    try (split; [split; destruct Se2; congruence|discriminate]).
  apply prune_sub in E2 as [Li' Sub].
  set (lc1 := mkLoc (depth lc) M' (xi2 lc) (lb lc) (lb_old lc)).
  destruct (splits_settled ims' bs 0 s1 n1 lc1 finf_neg T1 (cands_sub _ _ _ _ C1 Sub) O1 ltac:(lia)) as [Se3 K3].
  destruct (splits ims' bs 0 s1 lc1 finf_neg) as [[s2 l2]| | |] eqn:E3; cbn [ibind]; try (split; [split; destruct Se3; congruence|discriminate]).
  split; [apply settled_fine|]. intros s' l' H. injection H as <- <-. destruct (K3 _ _ eq_refl) as [A B]. cbn [depth]. subst lc1. cbn [depth] in B. split; [exact A|lia].
Qed.
Lemma main_loop_safe fuel : forall s new lc, tinv s new -> okobs s -> depth lc + fuel < h_upper -> main_loop fuel s lc <> Bad.
Proof.
  induction fuel as [|fuel IH]; intros s new lc T O L; cbn [ImgpoModel.main_loop].
  - destruct (negb (length (t_samples s) =? 0) && stop s); discriminate.
  - destruct (negb (length (t_samples s) =? 0) && stop s); [discriminate|].
    destruct (iteration_settled s new lc T O ltac:(lia)) as [Se K].
    destruct (iteration s lc) as [[s1 l1]| | |] eqn:E; cbn [ibind fst snd]; try (destruct Se; congruence).
    destruct (K _ _ eq_refl) as [O1 D1]. destruct (iteration_inv _ _ _ _ _ T E) as [n1 T1]. eapply IH; eauto. lia.
Qed.
End Run.
