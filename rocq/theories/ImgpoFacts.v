(** Facts about the IMGPO tree. *)
From Coq Require Import Reals List Bool ZArith Arith Lia Lra Permutation.
From Coq Require Import Floats.SpecFloat.
From Verif Require Import F64 BOModel ImgpoModel ImgpoSpec.
Import ListNotations.
Local Open Scope nat_scope.

(** ** Coordinates *)
Lemma set_coord_length p i v : i < length p -> length (set_coord p i v) = length p.
Proof. intro H. unfold set_coord. rewrite app_length, firstn_length, Nat.min_l by lia. cbn [length]. rewrite skipn_length. lia. Qed.
Lemma coord_set p i v j : i < length p -> coord (set_coord p i v) j = if j =? i then v else coord p j.
Proof.
  intro H. unfold coord, set_coord. destruct (Nat.eqb_spec j i) as [->|N].
  - rewrite app_nth2; rewrite firstn_length, Nat.min_l by lia; [|lia]. rewrite Nat.sub_diag. reflexivity.
  - destruct (Nat.lt_ge_cases j i) as [L|L].
    + rewrite app_nth1 by (rewrite firstn_length; lia).
      rewrite <- (firstn_skipn i p) at 2. rewrite app_nth1 by (rewrite firstn_length; lia). reflexivity.
    + rewrite app_nth2; rewrite firstn_length, Nat.min_l by lia; [|lia].
      replace (j - i) with (S (j - S i)) by lia. cbn [nth].
      rewrite <- (firstn_skipn (S i) p) at 2. rewrite app_nth2; rewrite firstn_length, Nat.min_l by lia; [|lia]. reflexivity.
Qed.

(** ** Longest side *)
Lemma argmax_from_spec l : forall i best m,
  let r := argmax_from l i best m in
  (r = best \/ (i <= r < i + length l)) /\
  let v := if r =? best then m else nth (r - i) l 0%R in
  best < i -> (m <= v)%R /\ forall j, j < length l -> (nth j l 0 <= v)%R.
Proof.
  induction l as [|x l IH]; intros i best m; cbn zeta.
  - cbn. split; [auto|]. intros _. rewrite Nat.eqb_refl. split; [lra|intros; lia].
  - cbn [argmax_from]. destruct (Rlt_dec m x) as [L|L].
    + destruct (IH (S i) i x) as [A B]. cbn [length]. set (r := argmax_from l (S i) i x) in *.
      split; [lia|]. intro Hb. specialize (B ltac:(lia)).
      destruct (Nat.eqb_spec r best) as [E|E]; [lia|].
      destruct (Nat.eqb_spec r i) as [E2|E2].
      * rewrite E2, Nat.sub_diag. cbn [nth]. destruct B as [B1 B2]. split; [lra|].
        intros [|j] Hj; cbn [nth length] in *; [lra|]. apply B2; lia.
      * destruct B as [B1 B2]. replace (r - i) with (S (r - S i)) by lia. cbn [nth]. split; [lra|].
        intros [|j] Hj; cbn [nth length] in *; [lra|]. apply B2; lia.
    + destruct (IH (S i) best m) as [A B]. cbn [length]. set (r := argmax_from l (S i) best m) in *.
      split; [lia|]. intro Hb. specialize (B ltac:(lia)).
      destruct (Nat.eqb_spec r best) as [E|E].
      * destruct B as [B1 B2]. split; [lra|]. intros [|j] Hj; cbn [nth length] in *; [lra|]. apply B2; lia.
      * destruct B as [B1 B2]. replace (r - i) with (S (r - S i)) by lia. cbn [nth]. split; [lra|].
        intros [|j] Hj; cbn [nth length] in *; [lra|]. apply B2; lia.
Qed.
Lemma argmax_spec l : l <> [] -> argmax l < length l /\ forall j, j < length l -> (nth j l 0 <= nth (argmax l) l 0)%R.
Proof.
  destruct l as [|x l]; [congruence|]. intros _. cbn [argmax length].
  destruct (argmax_from_spec l 1 0 x) as [A B]. set (r := argmax_from l 1 0 x) in *. cbn zeta in B.
  specialize (B ltac:(lia)). split; [lia|].
  destruct (Nat.eqb_spec r 0) as [E|E].
  - rewrite E. cbn [nth]. destruct B as [B1 B2]. intros [|j] Hj; cbn [nth length] in *; [lra|]. apply B2; lia.
  - replace r with (S (r - 1)) by lia. cbn [nth]. destruct B as [B1 B2]. intros [|j] Hj; cbn [nth length] in *; [lra|]. apply B2; lia.
Qed.
Lemma widths_nth mn mx j : length mn = length mx -> j < length mn -> nth j (widths mn mx) 0%R = (coord mx j - coord mn j)%R.
Proof.
  unfold widths, coord. revert mx j. induction mn as [|a mn IH]; intros [|b mx] j E L; cbn in *; try lia.
  destruct j; [reflexivity|]. apply IH; lia.
Qed.
Lemma widths_length mn mx : length mn = length mx -> length (widths mn mx) = length mn.
Proof. intro E. unfold widths. rewrite map_length, combine_length. lia. Qed.
Lemma split_dim_spec mn mx n : 0 < n -> length mn = n -> length mx = n ->
  split_dim mn mx < n /\ forall j, j < n ->
    (coord mx j - coord mn j <= coord mx (split_dim mn mx) - coord mn (split_dim mn mx))%R.
Proof.
  intros N E1 E2. unfold split_dim.
  assert (W : widths mn mx <> []) by (intro H; apply (f_equal (@length R)) in H; rewrite widths_length in H; cbn in H; lia).
  destruct (argmax_spec _ W) as [A B]. rewrite widths_length in A by lia. split; [lia|].
  intros j Hj. specialize (B j). rewrite widths_length in B by lia.
  rewrite !widths_nth in B by lia. apply B; lia.
Qed.

(** ** Good cells *)
Section Cells.
Variable n : nat.
Record good (h : nat) (c : cell) : Prop := {
  g_min : length (c_min c) = n; g_max : length (c_max c) = n;
  g_bal : balanced n h c; g_centre : is_centre n c;
  g_cube : forall i, i < n -> (0 <= coord (c_min c) i /\ coord (c_max c) i <= 1)%R }.

Lemma good_pos h c i : good h c -> i < n -> (coord (c_min c) i < coord (c_max c) i)%R.
Proof.
  intros G Hi. destruct (g_bal _ _ G) as (k & _ & _ & K & _). specialize (K i Hi). unfold side in K.
  assert (0 < (/ 3) ^ nth i k 0%nat)%R by (apply pow_lt; lra). lra.
Qed.
Lemma centre_in h c : good h c -> in_interior n c (c_x c).
Proof.
  intro G. destruct (g_centre _ _ G) as [L C]. split; [exact L|]. intros i Hi. pose proof (good_pos _ _ _ G Hi).
  rewrite (C i Hi). lra.
Qed.

(** a cell with one third of the side [d] of [c] *)
Definition third_of (c : cell) (d : nat) (q : nat) (c' : cell) : Prop :=
  length (c_min c') = n /\ length (c_max c') = n /\ length (c_x c') = n /\
  (forall j, j < n -> j <> d -> coord (c_min c') j = coord (c_min c) j /\ coord (c_max c') j = coord (c_max c) j /\ coord (c_x c') j = coord (c_x c) j) /\
  (coord (c_min c') d = coord (c_min c) d + INR q * side c d / 3 /\
   coord (c_max c') d = coord (c_min c) d + (INR q + 1) * side c d / 3 /\
   coord (c_x c') d = coord (c_min c) d + (2 * INR q + 1) * side c d / 6)%R.

Lemma list_sum_upd k d : d < length k -> list_sum (firstn d k ++ S (nth d k 0) :: skipn (S d) k) = S (list_sum k).
Proof.
  intro H. rewrite <- (firstn_skipn d k) at 4. rewrite !list_sum_app.
  assert (E : skipn d k = nth d k 0 :: skipn (S d) k).
  { clear -H. revert d H. induction k as [|a k IH]; intros [|d] H; cbn in *; try lia; [reflexivity|]. apply IH. lia. }
  rewrite E. cbn. lia.
Qed.
Lemma nth_upd_nat k d v j : d < length k -> nth j (firstn d k ++ v :: skipn (S d) k) 0 = if j =? d then v else nth j k 0.
Proof.
  intro H. destruct (Nat.eqb_spec j d) as [->|N].
  - rewrite app_nth2; rewrite firstn_length, Nat.min_l by lia; [|lia]. rewrite Nat.sub_diag. reflexivity.
  - destruct (Nat.lt_ge_cases j d) as [L|L].
    + rewrite app_nth1 by (rewrite firstn_length; lia).
      rewrite <- (firstn_skipn d k) at 2. rewrite app_nth1 by (rewrite firstn_length; lia). reflexivity.
    + rewrite app_nth2; rewrite firstn_length, Nat.min_l by lia; [|lia].
      replace (j - d) with (S (j - S d)) by lia. cbn [nth].
      rewrite <- (firstn_skipn (S d) k) at 2. rewrite app_nth2; rewrite firstn_length, Nat.min_l by lia; [|lia]. reflexivity.
Qed.
Lemma pow3_le a b : ((/ 3) ^ a <= (/ 3) ^ b)%R -> b <= a.
Proof.
  intro H. destruct (Nat.le_gt_cases b a) as [L|L]; [exact L|].
  assert (((/ 3) ^ b < (/ 3) ^ a)%R); [|lra].
  replace b with (a + S (b - S a)) by lia. rewrite pow_add.
  assert (0 < (/ 3) ^ a)%R by (apply pow_lt; lra).
  assert ((/ 3) ^ S (b - S a) < 1)%R by (apply pow_lt_1_compat; [lra|lia]). nra.
Qed.

Lemma third_good h c d q c' : good h c -> d < n -> (forall j, j < n -> (side c j <= side c d)%R) -> q <= 2 ->
  third_of c d q c' -> good (S h) c'.
Proof.
  intros G Hd Hmax Hq (L1 & L2 & L3 & O & D1 & D2 & D3).
  assert (Q : (0 <= INR q <= 2)%R) by (split; [apply pos_INR|replace 2%R with (INR 2) by (cbn; lra); apply le_INR; lia]).
  assert (P : (0 < side c d)%R) by (unfold side; pose proof (good_pos _ _ d G Hd); lra).
  split; auto.
  - destruct (g_bal _ _ G) as (k & Lk & Sk & K & B).
    exists (firstn d k ++ S (nth d k 0) :: skipn (S d) k). rewrite <- Lk in Hd.
    assert (Hmin : forall j, j < n -> nth d k 0 <= nth j k 0).
    { intros j Hj. apply pow3_le. rewrite <- !K by lia. apply Hmax. exact Hj. }
    repeat split.
    + rewrite app_length, firstn_length, Nat.min_l by lia. cbn [length]. rewrite skipn_length. lia.
    + rewrite list_sum_upd by exact Hd. lia.
    + intros i Hi. rewrite nth_upd_nat by exact Hd. destruct (Nat.eqb_spec i d) as [->|N].
      * unfold side. rewrite D1, D2. rewrite (K d) by lia. cbn [pow]. lra.
      * unfold side. destruct (O i Hi N) as (-> & -> & _). apply (K i Hi).
    + intros i j Hi Hj. rewrite !nth_upd_nat by exact Hd. pose proof (B i j Hi Hj). pose proof (Hmin i Hi). pose proof (Hmin j Hj).
      destruct (Nat.eqb_spec i d); destruct (Nat.eqb_spec j d); subst; try lia.
  - split; [exact L3|]. intros i Hi. destruct (Nat.eq_dec i d) as [->|N].
    + rewrite D1, D2, D3. lra.
    + destruct (O i Hi N) as (-> & -> & ->). apply (proj2 (g_centre _ _ G) i Hi).
  - intros i Hi. destruct (g_cube _ _ G i Hi) as [A B]. destruct (Nat.eq_dec i d) as [->|N].
    + rewrite D1, D2. unfold side in *. split; nra.
    + destruct (O i Hi N) as (-> & -> & _). auto.
Qed.
Lemma third_sub h c d q c' p : good h c -> d < n -> q <= 2 -> third_of c d q c' -> in_interior n c' p -> in_interior n c p.
Proof.
  intros G Hd Hq (L1 & L2 & L3 & O & D1 & D2 & D3) [Lp I]. split; [exact Lp|]. intros i Hi. specialize (I i Hi).
  destruct (Nat.eq_dec i d) as [->|N].
  - assert (Q : (0 <= INR q <= 2)%R) by (split; [apply pos_INR|replace 2%R with (INR 2) by (cbn; lra); apply le_INR; lia]).
    assert (P : (0 < side c d)%R) by (unfold side; pose proof (good_pos _ _ d G Hd); lra).
    rewrite D1, D2 in I. unfold side in *. split; nra.
  - destruct (O i Hi N) as (A & B & _). rewrite A, B in I. exact I.
Qed.
Lemma third_apart h c d q q' c1 c2 : good h c -> d < n -> q < q' -> third_of c d q c1 -> third_of c d q' c2 -> apart n c1 c2.
Proof.
  intros G Hd Hq (_ & _ & _ & _ & D1 & D2 & _) (_ & _ & _ & _ & E1 & E2 & _) p [_ I] [_ J].
  specialize (I d Hd). specialize (J d Hd).
  assert (Q : (INR q + 1 <= INR q')%R) by (rewrite <- S_INR; apply le_INR; lia).
  assert (P : (0 < side c d)%R) by (unfold side; pose proof (good_pos _ _ d G Hd); lra). nra.
Qed.
Lemma third_cover h c d c0 c1 c2 p : good h c -> d < n -> third_of c d 0 c0 -> third_of c d 1 c1 -> third_of c d 2 c2 ->
  in_box n c p -> in_box n c0 p \/ in_box n c1 p \/ in_box n c2 p.
Proof.
  intros G Hd (_ & _ & _ & O0 & A1 & A2 & _) (_ & _ & _ & O1 & B1 & B2 & _) (_ & _ & _ & O2 & C1 & C2 & _) [L I].
  cbn [INR] in *. pose proof (I d Hd) as Id. unfold side in *.
  set (a := coord (c_min c) d) in *. set (b := coord (c_max c) d) in *. set (y := coord p d) in *.
  assert (K : forall c', (forall j, j < n -> j <> d -> coord (c_min c') j = coord (c_min c) j /\ coord (c_max c') j = coord (c_max c) j /\ coord (c_x c') j = coord (c_x c) j) ->
     (coord (c_min c') d <= y <= coord (c_max c') d)%R -> in_box n c' p).
  { intros c' O H. split; [exact L|]. intros i Hi. destruct (Nat.eq_dec i d) as [->|N]; [exact H|].
    destruct (O i Hi N) as (-> & -> & _). apply I, Hi. }
  destruct (Rle_dec y (a + (b - a) / 3)); [left; apply K; auto; lra|].
  destruct (Rle_dec y (a + 2 * (b - a) / 3)); [right; left; apply K; auto; lra|].
  right; right; apply K; auto; lra.
Qed.

(** ** Leaves and evaluated points *)
Definition pairwise (L : list cell) : Prop := ForallOrdPairs (apart n) L.
Lemma apart_sym c c' : apart n c c' -> apart n c' c.
Proof. intros H p A B. exact (H p B A). Qed.
Lemma pairwise_perm L L' : Permutation L L' -> pairwise L -> pairwise L'.
Proof.
  unfold pairwise. induction 1; intro P; auto.
  - inversion P; subst. constructor; auto. eapply Permutation_Forall; eauto.
  - inversion P; subst. inversion H2; subst. inversion H1; subst. constructor; [constructor; [apply apart_sym; auto|auto]|constructor; auto].
Qed.

Record LI (L : list cell) (new : list point) : Prop := {
  l_good : forall c, In c L -> exists h, good h c;
  l_cover : forall p, in_cube n p -> exists c, In c L /\ in_box n c p;
  l_apart : pairwise L;
  l_samp : forall c, In c L -> c_samp c = true -> In (c_x c) new;
  l_unsamp : forall c, In c L -> c_samp c = false -> ~ In (c_x c) new;
  l_nodup : NoDup new;
  l_from : forall x, In x new -> exists c, In c L /\ c_x c = x }.

Lemma LI_perm L L' new : Permutation L L' -> LI L new -> LI L' new.
Proof.
  intros P [A B C D E F G]. assert (I : forall c, In c L' -> In c L) by (intros c H; apply Permutation_sym in P; eapply Permutation_in; eauto).
  assert (J : forall c, In c L -> In c L') by (intros c H; eapply Permutation_in; eauto).
  split; auto.
  - intros p Hp. destruct (B p Hp) as (c & H1 & H2). eauto.
  - eapply pairwise_perm; eauto.
  - intros x Hx. destruct (G x Hx) as (c & H1 & H2). eauto.
Qed.

Lemma apart_ne h h' c c' : good h c -> good h' c' -> apart n c c' -> c_x c <> c_x c'.
Proof. intros G G' A E. apply (A (c_x c)); [eapply centre_in; eauto|rewrite E; eapply centre_in; eauto]. Qed.

Lemma mark_LI c R new : LI (c :: R) new -> c_samp c = false -> LI (mark_sampled c :: R) (new ++ [c_x c]).
Proof.
  intros [A B C D E F G] S. 
  assert (NR : forall c', In c' R -> c_x c' <> c_x c).
  { intros c' H. destruct (A c (or_introl eq_refl)) as [h Gc]. destruct (A c' (or_intror H)) as [h' Gc'].
    inversion C as [|? ? H1 H2]; subst. rewrite Forall_forall in H1. intro Q. symmetry in Q. revert Q. eapply apart_ne; eauto. }
  split.
  - intros c' [<-|H]; [|apply A; right; exact H]. destruct (A c (or_introl eq_refl)) as [h [G1 G2 G3 G4 G5]]. exists h. split; auto.
  - intros p Hp. destruct (B p Hp) as (c' & [<-|H1] & H2); [exists (mark_sampled c); split; [left; reflexivity|exact H2]|exists c'; split; [right; exact H1|exact H2]].
  - inversion C as [|? ? H1 H2]; subst. constructor; [|exact H2]. exact H1.
  - intros c' [<-|H] S'; rewrite in_app_iff; [right; left; reflexivity|]. left. apply D; [right; exact H|exact S'].
  - intros c' [<-|H] S'; [discriminate|]. rewrite in_app_iff. intros [K|[K|[]]]; [exact (E c' (or_intror H) S' K)|]. exact (NR c' H (eq_sym K)).
  - apply (Permutation_NoDup (l := c_x c :: new)); [apply Permutation_cons_append|]. constructor; [apply E; [left; reflexivity|exact S]|exact F].
  - intros x. rewrite in_app_iff. intros [K|[<-|[]]].
    + destruct (G x K) as (c' & [<-|H1] & H2); [exists (mark_sampled c); split; [left; reflexivity|exact H2]|exists c'; split; [right; exact H1|exact H2]].
    + exists (mark_sampled c). split; [left; reflexivity|reflexivity].
Qed.

Definition picked (c : cell) : list point := if c_samp c then [c_x c] else [].

Lemma split_LI h c d R new l m r : LI (c :: R) new -> good h c -> c_samp c = true -> d < n -> (forall j, j < n -> (side c j <= side c d)%R) ->
  third_of c d 0 l -> third_of c d 1 m -> third_of c d 2 r -> c_x m = c_x c -> c_samp m = true ->
  LI (l :: r :: m :: R) (new ++ picked l ++ picked r).
Proof.
  intros [A B C D E F G] Gc Sc Hd Hmax T0 T1 T2 Xm Sm.
  assert (Gl := third_good _ _ _ 0 _ Gc Hd Hmax ltac:(lia) T0).
  assert (Gm := third_good _ _ _ 1 _ Gc Hd Hmax ltac:(lia) T1).
  assert (Gr := third_good _ _ _ 2 _ Gc Hd Hmax ltac:(lia) T2).
  inversion C as [|? ? C1 C2]; subst. rewrite Forall_forall in C1.
  assert (AR : forall q c', q <= 2 -> third_of c d q c' -> forall c'', In c'' R -> apart n c' c'').
  { intros q c' Hq T c'' H p I J. eapply C1; eauto. eapply third_sub; eauto. }
  assert (PW : pairwise (l :: r :: m :: R)).
  { constructor; [constructor; [|constructor]|constructor; [constructor|constructor]].
    - exact (third_apart h c d 0 2 l r Gc Hd ltac:(lia) T0 T2).
    - exact (third_apart h c d 0 1 l m Gc Hd ltac:(lia) T0 T1).
    - apply Forall_forall. intros c' H; exact (AR 0 _ ltac:(lia) T0 c' H).
    - apply apart_sym. exact (third_apart h c d 1 2 m r Gc Hd ltac:(lia) T1 T2).
    - apply Forall_forall. intros c' H; exact (AR 2 _ ltac:(lia) T2 c' H).
    - apply Forall_forall. intros c' H; exact (AR 1 _ ltac:(lia) T1 c' H).
    - exact C2. }
  assert (AG : forall c', In c' (l :: r :: m :: R) -> exists h, good h c') by (intros c' [<-|[<-|[<-|H]]]; eauto; apply A; right; exact H).
  assert (NE : forall i j c1 c2, nth_error (l :: r :: m :: R) i = Some c1 -> nth_error (l :: r :: m :: R) j = Some c2 -> i < j -> c_x c1 <> c_x c2).
  { intros i j c1 c2 H1 H2 L. destruct (AG c1 (nth_error_In _ _ H1)) as [h1 G1]. destruct (AG c2 (nth_error_In _ _ H2)) as [h2 G2].
    assert (apart n c1 c2); [|eapply apart_ne; eauto].
    clear -PW H1 H2 L. revert i j H1 H2 L. induction PW as [|a L' H P IH]; intros i j H1 H2 L; [destruct i; discriminate|].
    destruct i as [|i]; destruct j as [|j]; try lia; cbn in H1, H2.
    - injection H1 as <-. rewrite Forall_forall in H. apply H. eapply nth_error_In; eauto.
    - eapply IH; eauto. lia. }
  assert (Nlr : c_x l <> c_x r) by (apply (NE 0 1); auto; lia).
  assert (Nlm : c_x l <> c_x m) by (apply (NE 0 2); auto; lia).
  assert (Nrm : c_x r <> c_x m) by (apply (NE 1 2); auto; lia).
  assert (NlR : forall c', In c' R -> c_x l <> c_x c') by (intros c' H; apply In_nth_error in H as [j H]; apply (NE 0 (S (S (S j)))); auto; lia).
  assert (NrR : forall c', In c' R -> c_x r <> c_x c') by (intros c' H; apply In_nth_error in H as [j H]; apply (NE 1 (S (S (S j)))); auto; lia).
  assert (NmR : forall c', In c' R -> c_x m <> c_x c') by (intros c' H; apply In_nth_error in H as [j H]; apply (NE 2 (S (S (S j)))); auto; lia).
  assert (Old : forall x, In x new -> x = c_x m \/ exists c', In c' R /\ c_x c' = x).
  { intros x Hx. destruct (G x Hx) as (c' & [<-|H] & <-); [left; congruence|right; eauto]. }
  assert (Fl : ~ In (c_x l) new) by (intro H; destruct (Old _ H) as [K|(c' & K1 & K2)]; [congruence|exact (NlR c' K1 (eq_sym K2))]).
  assert (Fr : ~ In (c_x r) new) by (intro H; destruct (Old _ H) as [K|(c' & K1 & K2)]; [congruence|exact (NrR c' K1 (eq_sym K2))]).
  assert (PL : forall x, In x (picked l) -> x = c_x l) by (intro x; unfold picked; destruct (c_samp l); cbn; [intros [<-|[]]; reflexivity|tauto]).
  assert (PR : forall x, In x (picked r) -> x = c_x r) by (intro x; unfold picked; destruct (c_samp r); cbn; [intros [<-|[]]; reflexivity|tauto]).
  split; auto.
  - intros p Hp. destruct (B p Hp) as (c' & [<-|H1] & H2).
    + destruct (third_cover _ _ _ _ _ _ _ Gc Hd T0 T1 T2 H2) as [K|[K|K]]; [exists l|exists m|exists r]; cbn; auto.
    + exists c'. cbn. auto.
  - intros c' H S'. rewrite !in_app_iff. destruct H as [<-|[<-|[<-|H]]].
    + right; left. unfold picked. rewrite S'. left. reflexivity.
    + right; right. unfold picked. rewrite S'. left. reflexivity.
    + left. rewrite Xm. apply D; [left; reflexivity|exact Sc].
    + left. apply D; [right; exact H|exact S'].
  - intros c' H S'. rewrite !in_app_iff. destruct H as [<-|[<-|[<-|H]]].
    + intros [K|[K|K]]; [exact (Fl K)| |exact (Nlr (PR _ K))]. unfold picked in K. rewrite S' in K. exact K.
    + intros [K|[K|K]]; [exact (Fr K)|exact (Nlr (eq_sym (PL _ K)))|]. unfold picked in K. rewrite S' in K. exact K.
    + congruence.
    + intros [K|[K|K]]; [exact (E c' (or_intror H) S' K)|exact (NlR c' H (eq_sym (PL _ K)))|exact (NrR c' H (eq_sym (PR _ K)))].
  - assert (forall a b : list point, NoDup a -> NoDup b -> (forall x, In x a -> ~ In x b) -> NoDup (a ++ b)) as ND.
    { clear. induction a as [|y a IH]; intros b Ha Hb H; [exact Hb|]. inversion Ha; subst. cbn. constructor.
      - rewrite in_app_iff. intros [K|K]; [auto|exact (H y (or_introl eq_refl) K)].
      - apply IH; auto. intros x Hx. apply H. right. exact Hx. }
    apply ND; [exact F|apply ND|].
    + unfold picked. destruct (c_samp l); repeat constructor. intros [].
    + unfold picked. destruct (c_samp r); repeat constructor. intros [].
    + intros x H1 H2. apply PL in H1. apply PR in H2. congruence.
    + intros x H1 H2. rewrite in_app_iff in H2. destruct H2 as [H2|H2]; [apply PL in H2|apply PR in H2]; subst; auto.
  - intros x. rewrite !in_app_iff. intros [K|[K|K]].
    + destruct (Old x K) as [->|(c' & K1 & K2)]; [exists m|exists c']; cbn; auto.
    + exists l. split; [left; reflexivity|symmetry; apply PL, K].
    + exists r. split; [right; left; reflexivity|symmetry; apply PR, K].
Qed.
End Cells.
