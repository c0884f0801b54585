(** C57: the hypervolume computed by src/hv/hypervol.c and logged by stat::HyperVolume. *)
From Coq Require Import Reals List Bool Arith Lia Lra Permutation.
From Coquelicot Require Import Coquelicot.
From Verif Require Import HvModel.
Import ListNotations.
Open Scope R_scope.

(** ** Specification *)
Definition coord (p : point) (k : nat) : R := nth k p 0.
(** [p] is at least as good as [q] in the first [m] objectives *)
Definition covers (m : nat) (p q : point) : Prop := forall k, (k < m)%nat -> coord q k <= coord p k.
Definition dominates (m : nat) (p q : point) : Prop := covers m p q /\ exists k, (k < m)%nat /\ coord q k < coord p k.
(** the points that reach the height [t] in objective [k] *)
Definition reaching (k : nat) (t : R) (P : list point) : list point :=
  filter (fun p => if Rle_dec t (coord p k) then true else false) P.
(** the volume of the part of the positive orthant of R^d that some point of [P] covers, by Cavalieri's principle:
    the integral over the height [t] of the last coordinate of the volume of the slice at height [t] *)
Fixpoint is_vol (d : nat) (P : list point) (v : R) : Prop :=
  match d with
  | O => v = match P with [] => 0 | _ => 1 end
  | S d' => exists f : R -> R, (forall t, is_vol d' (reaching d' t P) (f t)) /\
                               is_RInt_gen f (at_point 0) (Rbar_locally p_infty) v
  end.

(** ** Arrays *)
Lemma get_app (A : list point) x B : get (A ++ x :: B) (length A) = Ok x.
Proof. unfold get. rewrite nth_error_app2 by lia. now rewrite Nat.sub_diag. Qed.
Lemma upd_app {X} (A : list X) x B z : upd (A ++ x :: B) (length A) z = A ++ z :: B.
Proof. induction A as [|a A IH]; cbn; [reflexivity|]. now rewrite IH. Qed.
Lemma get_in {X} (l : list X) i x : nth_error l i = Some x -> forall T, get (l ++ T) i = Ok x.
Proof. intros H T. unfold get. rewrite nth_error_app1, H; [reflexivity|]. apply nth_error_Some. congruence. Qed.
Lemma nth_ex {X} (l : list X) i : (i < length l)%nat -> exists x, nth_error l i = Some x.
Proof. intro H. destruct (nth_error l i) eqn:E; [eauto|]. apply nth_error_None in E. lia. Qed.

Lemma Swap_last (L T : list point) (i : nat) : (i < length L)%nat ->
  exists x L', nth_error L i = Some x /\ Swap (L ++ T) i (length L - 1) = Ok (L' ++ x :: T) /\
    Permutation L (x :: L') /\ (forall k, (k < i)%nat -> nth_error L' k = nth_error L k).
Proof.
  intro Hi. destruct (nth_ex L i Hi) as (x & Hx). destruct (nth_error_split _ _ Hx) as (A & B & HL & HA).
  exists x. destruct B as [|b B0 _] using rev_ind.
  - exists A. subst i. rewrite HL. split; [rewrite <- HL; exact Hx|]. rewrite app_length. cbn [length].
    replace (length A + 1 - 1)%nat with (length A) by lia. unfold Swap. rewrite <- app_assoc. cbn [app].
    rewrite !get_app. cbn [bnd]. rewrite !upd_app. split; [reflexivity|]. split.
    + apply Permutation_sym, Permutation_cons_append.
    + intros k Hk. now rewrite nth_error_app1 by lia.
  - exists (A ++ b :: B0). subst i. split; [exact Hx|]. rewrite HL.
    assert (Hlast : get ((A ++ x :: B0 ++ [b]) ++ T) (length (A ++ x :: B0 ++ [b]) - 1) = Ok b).
    { replace ((A ++ x :: B0 ++ [b]) ++ T) with ((A ++ x :: B0) ++ b :: T) by (rewrite <- !app_assoc; cbn; now rewrite <- app_assoc).
      replace (length (A ++ x :: B0 ++ [b]) - 1)%nat with (length (A ++ x :: B0)) by (rewrite !app_length; cbn [length]; rewrite !app_length; cbn [length]; lia).
      apply get_app. }
    unfold Swap. rewrite Hlast. replace ((A ++ x :: B0 ++ [b]) ++ T) with (A ++ x :: B0 ++ b :: T) by (rewrite <- !app_assoc; cbn; now rewrite <- app_assoc).
    rewrite get_app. cbn [bnd]. rewrite upd_app.
    replace (A ++ b :: B0 ++ b :: T) with ((A ++ b :: B0) ++ b :: T) by now rewrite <- app_assoc.
    replace (length (A ++ x :: B0 ++ [b]) - 1)%nat with (length (A ++ b :: B0)) by (rewrite !app_length; cbn [length]; rewrite !app_length; cbn [length]; lia).
    rewrite upd_app. split; [reflexivity|]. split.
    + transitivity (x :: A ++ B0 ++ [b]). { apply Permutation_sym, Permutation_middle. }
      constructor. apply Permutation_app_head. apply Permutation_sym, Permutation_cons_append.
    + intros k Hk. now rewrite !nth_error_app1 by lia.
Qed.

(** ** Dominance *)
Lemma covers_refl m p : covers m p p. Proof. intros k _. lra. Qed.
Lemma covers_trans m p q r : covers m p q -> covers m q r -> covers m p r.
Proof. intros A B k Hk. specialize (A k Hk). specialize (B k Hk). lra. Qed.
Lemma dominates_trans m p q r : dominates m p q -> dominates m q r -> dominates m p r.
Proof.
  intros [A (k & Hk & A')] [B _]. split; [eapply covers_trans; eassumption|]. exists k. split; [exact Hk|]. specialize (B k Hk). lra.
Qed.
Lemma dominates_irrefl m p : ~ dominates m p p.
Proof. intros [_ (k & _ & H)]. lra. Qed.
Definition nd m p q := ~ dominates m p q /\ ~ dominates m q p.
Lemma nd_refl m p : nd m p p. Proof. split; apply dominates_irrefl. Qed.
Lemma nd_sym m p q : nd m p q -> nd m q p. Proof. unfold nd. tauto. Qed.

Lemma dom_loop_spec m : forall p q b, (m <= length p)%nat -> (m <= length q)%nat ->
  exists r, dom_loop m p q b = Ok r /\
    (r = true <-> covers m p q /\ (b = true \/ exists k, (k < m)%nat /\ coord q k < coord p k)).
Proof.
  induction m as [|m IH]; intros p q b Hp Hq.
  - exists b. split; [reflexivity|]. split.
    + intros ->. split; [intros k Hk; lia|now left].
    + intros [_ [H|(k & Hk & _)]]; [exact H|lia].
  - destruct p as [|x p], q as [|y q]; cbn in Hp, Hq; try lia. cbn [dom_loop]. destruct (Rle_dec y x) as [Hyx|Hyx].
    + destruct (IH p q (if Rlt_dec y x then true else b) ltac:(lia) ltac:(lia)) as (r & Hr & Hs). exists r. split; [exact Hr|].
      rewrite Hs. split.
      * intros [Hc Ho]. split. { intros [|k] Hk; [exact Hyx|]. apply (Hc k). lia. }
        destruct Ho as [Ho|(k & Hk & Ho)].
        -- destruct (Rlt_dec y x); [right; exists 0%nat; split; [lia|exact r0]|now left].
        -- right. exists (S k). split; [lia|exact Ho].
      * intros [Hc Ho]. split. { intros k Hk. apply (Hc (S k)). lia. }
        destruct Ho as [Ho|([|k] & Hk & Ho)].
        -- left. destruct (Rlt_dec y x); [reflexivity|exact Ho].
        -- left. change (y < x) in Ho. destruct (Rlt_dec y x); [reflexivity|contradiction].
        -- right. exists k. split; [lia|exact Ho].
    + exists false. split; [reflexivity|]. split; [discriminate|]. intros [Hc _]. exfalso. apply Hyx. apply (Hc 0%nat). lia.
Qed.
Lemma Dominates_spec m p q : (m <= length p)%nat -> (m <= length q)%nat ->
  exists r, Dominates p q m = Ok r /\ (r = true <-> dominates m p q).
Proof.
  intros Hp Hq. destruct (dom_loop_spec m p q false Hp Hq) as (r & Hr & Hs). exists r. split; [exact Hr|]. rewrite Hs.
  unfold dominates. split; intros [A B]; (split; [exact A|]); [destruct B as [B|B]; [discriminate|exact B]|now right].
Qed.

(** ** FilterNondominatedSet *)
Definition wide (m : nat) (L : list point) : Prop := forall p, In p L -> (m <= length p)%nat.
Lemma wide_perm m L L' D : wide m L -> Permutation L (L' ++ D) -> wide m L'.
Proof. intros H HP p Hp. apply H. eapply Permutation_in; [apply Permutation_sym; exact HP|]. apply in_or_app. now left. Qed.

Lemma filter_in_spec m i : forall fuel L T j, wide m L -> (i < j)%nat -> (i < length L)%nat -> (j <= length L)%nat -> (length L - j < fuel)%nat ->
  (forall k x y, (i < k < j)%nat -> nth_error L i = Some x -> nth_error L k = Some y -> nd m x y) ->
  exists L' D b, filter_in fuel m i (L ++ T) (length L) j = Ok (L' ++ D ++ T, length L', b) /\ Permutation L (L' ++ D) /\
    (forall x, In x D -> exists y, In y L' /\ dominates m y x) /\
    (forall k, (k < i)%nat -> nth_error L' k = nth_error L k) /\
    (if b then (length L' < length L)%nat else
       (i < length L')%nat /\ forall k x y, (i < k)%nat -> nth_error L' i = Some x -> nth_error L' k = Some y -> nd m x y).
Proof.
  induction fuel as [|fuel IH]; intros L T j Hw Hij Hi Hj Hf Hnd; [lia|]. cbn [filter_in].
  destruct (Nat.ltb_spec j (length L)) as [Hjn|Hjn].
  - destruct (nth_ex L i Hi) as (fi & Hfi). destruct (nth_ex L j Hjn) as (fj & Hfj).
    rewrite (get_in L i fi Hfi), (get_in L j fj Hfj). cbn [bnd].
    assert (Wi : (m <= length fi)%nat) by (apply Hw; eapply nth_error_In; eassumption).
    assert (Wj : (m <= length fj)%nat) by (apply Hw; eapply nth_error_In; eassumption).
    destruct (Dominates_spec m fi fj Wi Wj) as (d1 & -> & H1). cbn [bnd]. destruct d1.
    + destruct (Swap_last L T j Hjn) as (x & L1 & Hx & -> & HP & Hk). rewrite Hfj in Hx. injection Hx as <-. cbn [bnd].
      assert (HL1 : length L = S (length L1)) by (rewrite (Permutation_length HP); reflexivity).
      replace (length L - 1)%nat with (length L1) by lia.
      destruct (IH L1 (fj :: T) j) as (L' & D & b & E & HP' & HD & HK & HB); try lia.
      { intros p Hp. apply Hw. eapply Permutation_in; [apply Permutation_sym; exact HP|]. now right. }
      { intros k x y Hkk A B. rewrite Hk in A by lia. rewrite Hk in B by lia. eapply Hnd; eassumption. }
      exists L', (D ++ [fj]), b. split.
      { rewrite E. rewrite <- app_assoc. reflexivity. }
      split.
      { rewrite HP. rewrite HP'. rewrite app_assoc. apply Permutation_cons_append. }
      split.
      { intros z Hz. apply in_app_or in Hz. destruct Hz as [Hz|[<-|[]]]; [now apply HD|].
        assert (Hin : In fi (L' ++ D)).
        { eapply Permutation_in; [exact HP'|]. apply (nth_error_In L1 i). rewrite Hk by lia. exact Hfi. }
        apply in_app_or in Hin. destruct Hin as [Hin|Hin]; [exists fi; split; [exact Hin|now apply H1]|].
        destruct (HD fi Hin) as (y & Hy & Hd). exists y. split; [exact Hy|]. eapply dominates_trans; [exact Hd|]. now apply H1. }
      split. { intros k Hkk. rewrite HK by lia. apply Hk. lia. }
      destruct b; [lia|exact HB].
    + destruct (Dominates_spec m fj fi Wj Wi) as (d2 & -> & H2). cbn [bnd]. destruct d2.
      * destruct (Swap_last L T i Hi) as (x & L1 & Hx & -> & HP & Hk). rewrite Hfi in Hx. injection Hx as <-. cbn [bnd].
        assert (HL1 : length L = S (length L1)) by (rewrite (Permutation_length HP); reflexivity).
        exists L1, [fi], true. replace (length L - 1)%nat with (length L1) by lia. split; [reflexivity|]. split.
        { rewrite HP. apply Permutation_cons_append. }
        split.
        { intros z [<-|[]]. exists fj. split; [|now apply H2]. assert (Hin : In fj (fi :: L1)).
          { eapply Permutation_in; [exact HP|]. eapply nth_error_In; eassumption. }
          destruct Hin as [->|Hin]; [|exact Hin]. exfalso. apply (dominates_irrefl m fj). now apply H2. }
        split; [exact Hk|lia].
      * apply IH; try lia; try assumption. intros k x y Hkk A B. destruct (Nat.eq_dec k j) as [->|Hne].
        -- rewrite Hfi in A. injection A as <-. rewrite Hfj in B. injection B as <-. split; intro C.
           ++ apply H1 in C. discriminate.
           ++ apply H2 in C. discriminate.
        -- eapply (Hnd k); eauto. lia.
  - exists L, [], false. split; [reflexivity|]. rewrite app_nil_r. split; [apply Permutation_refl|]. split; [intros x []|].
    split; [reflexivity|]. split; [exact Hi|]. intros k x y Hk A B. apply (Hnd k x y); try assumption. split; [exact Hk|].
    assert (k < length L)%nat by (apply nth_error_Some; congruence). lia.
Qed.

Lemma filter_out_spec m : forall fuel L T i, wide m L -> (i <= length L)%nat -> (length L - i < fuel)%nat ->
  (forall a x y, (a < i)%nat -> nth_error L a = Some x -> In y L -> nd m x y) ->
  exists L' D, filter_out fuel m (L ++ T) (length L) i = Ok (L' ++ D ++ T, length L') /\ Permutation L (L' ++ D) /\
    (forall x, In x D -> exists y, In y L' /\ dominates m y x) /\ (forall x y, In x L' -> In y L' -> ~ dominates m x y).
Proof.
  induction fuel as [|fuel IH]; intros L T i Hw Hi Hf Hnd; [lia|]. cbn [filter_out].
  destruct (Nat.ltb_spec i (length L)) as [Hin|Hin].
  - destruct (filter_in_spec m i (S fuel) L T (S i) Hw ltac:(lia) Hin ltac:(lia) ltac:(lia)) as (L1 & D1 & b & -> & HP & HD & HK & HB).
    { intros k x y Hk. lia. }
    cbn [bnd]. assert (HlenP := Permutation_length HP). rewrite app_length in HlenP.
    assert (Hw1 : wide m L1) by (eapply wide_perm; eassumption).
    assert (Hsub : forall y, In y L1 -> In y L) by (intros y Hy; eapply Permutation_in; [apply Permutation_sym; exact HP|]; apply in_or_app; now left).
    assert (Hlow : forall a x y, (a < i)%nat -> nth_error L1 a = Some x -> In y L1 -> nd m x y).
    { intros a x y Ha Hx Hy. rewrite HK in Hx by exact Ha. eapply Hnd; eauto. }
    assert (Hres : forall i', (i' = if b then i else S i) -> exists L' D, filter_out fuel m (L1 ++ D1 ++ T) (length L1) i' = Ok (L' ++ D ++ D1 ++ T, length L') /\
       Permutation L1 (L' ++ D) /\ (forall x, In x D -> exists y, In y L' /\ dominates m y x) /\ (forall x y, In x L' -> In y L' -> ~ dominates m x y)).
    { intros i' ->. destruct b.
      - apply IH; try assumption; try lia. destruct (Nat.le_gt_cases i (length L1)) as [|Hgt]; [assumption|]. exfalso.
        destruct (nth_ex L (length L1) ltac:(lia)) as (z & Hz). rewrite <- HK in Hz by lia.
        assert (length L1 < length L1)%nat by (apply nth_error_Some; congruence). lia.
      - destruct HB as [Hil HB]. apply IH; try assumption; try lia. intros a x y Ha Hx Hy.
        destruct (Nat.eq_dec a i) as [->|Hne]; [|apply (Hlow a); try assumption; lia].
        destruct (In_nth_error _ _ Hy) as (k & Hk). destruct (Nat.lt_trichotomy k i) as [Hki|[->|Hki]].
        + apply nd_sym. apply (Hlow k); try assumption. eapply nth_error_In; eassumption.
        + rewrite Hx in Hk. injection Hk as <-. apply nd_refl.
        + eapply HB; eassumption. }
    destruct (Hres _ eq_refl) as (L' & D & E & HP' & HD' & HN). exists L', (D ++ D1). split. { rewrite E. now rewrite <- app_assoc. }
    split. { rewrite HP, HP'. now rewrite app_assoc. }
    split; [|exact HN]. intros x Hx. apply in_app_or in Hx. destruct Hx as [Hx|Hx]; [now apply HD'|].
    destruct (HD x Hx) as (y & Hy & Hyx). assert (Hy' : In y (L' ++ D)) by (eapply Permutation_in; eassumption).
    apply in_app_or in Hy'. destruct Hy' as [Hy'|Hy']; [eauto|]. destruct (HD' y Hy') as (z & Hz & Hzy). exists z. split; [exact Hz|].
    eapply dominates_trans; eassumption.
  - assert (i = length L) by lia. subst i. exists L, []. split; [reflexivity|]. rewrite app_nil_r. split; [apply Permutation_refl|].
    split; [intros x []|]. intros x y Hx Hy. destruct (In_nth_error _ _ Hx) as (a & Ha). apply (Hnd a x y); try assumption.
    apply nth_error_Some. congruence.
Qed.

(** ** SurfaceUnchangedTo and ReduceNondominatedSet *)
Lemma get_coord p k : (k < length p)%nat -> get p k = Ok (coord p k).
Proof. intro H. unfold get, coord. destruct (nth_ex p k H) as (x & Hx). rewrite Hx. f_equal. symmetry. now apply nth_error_nth. Qed.
Lemma min_loop_spec o : forall l v, wide (S o) l -> exists w, min_loop o l v = Ok w /\ w <= v /\ (forall p, In p l -> w <= coord p o) /\
  (w = v \/ exists p, In p l /\ w = coord p o).
Proof.
  induction l as [|p l IH]; intros v Hw.
  - exists v. split; [reflexivity|]. split; [lra|]. split; [intros p []|now left].
  - cbn [min_loop]. rewrite get_coord by (specialize (Hw p (or_introl eq_refl)); lia). cbn [bnd].
    destruct (IH (if Rlt_dec (coord p o) v then coord p o else v)) as (w & Hm & Hv & Hl & Ho). { intros q Hq. apply Hw. now right. }
    exists w. split; [exact Hm|]. destruct (Rlt_dec (coord p o) v) as [Hlt|Hlt].
    + split; [lra|]. split; [intros q [<-|Hq]; [lra|now apply Hl]|]. right. destruct Ho as [->|(q & Hq & ->)]; [exists p; split; [now left|reflexivity]|exists q; split; [now right|reflexivity]].
    + split; [lra|]. split; [intros q [<-|Hq]; [lra|now apply Hl]|]. destruct Ho as [->|(q & Hq & ->)]; [now left|right; exists q; split; [now right|reflexivity]].
Qed.
Lemma surface_spec o L T : wide (S o) L -> L <> [] -> exists w, SurfaceUnchangedTo (L ++ T) (length L) o = Ok w /\
  (forall p, In p L -> w <= coord p o) /\ exists p, In p L /\ w = coord p o.
Proof.
  intros Hw Hn. destruct L as [|p L]; [congruence|]. unfold SurfaceUnchangedTo. change (length (p :: L)) with (S (length L)).
  change (S (length L) <? 1)%nat with false. cbv iota.
  assert (Hlen : (length ((p :: L) ++ T) <? S (length L))%nat = false) by (apply Nat.ltb_ge; rewrite app_length; cbn; lia).
  rewrite Hlen. change (get ((p :: L) ++ T) 0) with (Ok p). cbn [bnd]. rewrite get_coord by (specialize (Hw p (or_introl eq_refl)); lia). cbn [bnd].
  replace (skipn 1 (firstn (S (length L)) ((p :: L) ++ T))) with L.
  2:{ cbn. rewrite firstn_app, Nat.sub_diag, firstn_all. cbn. now rewrite app_nil_r. }
  destruct (min_loop_spec o L (coord p o)) as (w & Hm & Hv & Hl & Ho). { intros q Hq. apply Hw. now right. }
  exists w. split; [exact Hm|]. split; [intros q [<-|Hq]; [exact Hv|now apply Hl]|].
  destruct Ho as [->|(q & Hq & ->)]; [exists p; split; [now left|reflexivity]|exists q; split; [now right|reflexivity]].
Qed.
Lemma reduce_spec o w : forall fuel L T i, wide (S o) L -> (length L - i < fuel)%nat ->
  exists L' D, reduce_loop fuel o w (L ++ T) (length L) i = Ok (L' ++ D ++ T, length L') /\ Permutation L (L' ++ D) /\
    (forall p, In p D -> coord p o <= w) /\
    ((exists k p, (i <= k)%nat /\ nth_error L k = Some p /\ coord p o <= w) -> (length L' < length L)%nat).
Proof.
  induction fuel as [|fuel IH]; intros L T i Hw Hf; [lia|]. cbn [reduce_loop].
  destruct (Nat.ltb_spec i (length L)) as [Hi|Hi].
  - destruct (nth_ex L i Hi) as (p & Hp). rewrite (get_in L i p Hp). cbn [bnd].
    rewrite get_coord by (specialize (Hw p (nth_error_In _ _ Hp)); lia). cbn [bnd]. destruct (Rle_dec (coord p o) w) as [Hle|Hgt].
    + destruct (Swap_last L T i Hi) as (x & L1 & Hx & -> & HP & Hk). rewrite Hp in Hx. injection Hx as <-. cbn [bnd].
      assert (HL1 : length L = S (length L1)) by (rewrite (Permutation_length HP); reflexivity).
      replace (length L - 1)%nat with (length L1) by lia.
      destruct (IH L1 (p :: T) (S i)) as (L' & D & E & HP' & HD & HS); [|lia|].
      { intros q Hq. apply Hw. eapply Permutation_in; [apply Permutation_sym; exact HP|]. now right. }
      exists L', (D ++ [p]). split. { rewrite E. now rewrite <- app_assoc. }
      split. { rewrite HP, HP', app_assoc. apply Permutation_cons_append. }
      split. { intros q Hq. apply in_app_or in Hq. destruct Hq as [Hq|[<-|[]]]; [now apply HD|exact Hle]. }
      intros _. pose proof (Permutation_length HP') as Hl. rewrite app_length in Hl. lia.
    + destruct (IH L T (S i) Hw ltac:(lia)) as (L' & D & E & HP & HD & HS). exists L', D. repeat (split; [assumption|]).
      intros (k & q & Hk & Hq & Hqw). apply HS. exists k, q. split; [|now split]. destruct (Nat.eq_dec k i) as [->|]; [|lia].
      rewrite Hp in Hq. injection Hq as <-. contradiction.
  - exists L, []. split; [reflexivity|]. rewrite app_nil_r. split; [apply Permutation_refl|]. split; [intros p []|].
    intros (k & q & Hk & Hq & _). assert (k < length L)%nat by (apply nth_error_Some; congruence). lia.
Qed.

(** ** Volumes *)
Lemma reaching_in k t P p : In p (reaching k t P) <-> In p P /\ t <= coord p k.
Proof. unfold reaching. rewrite filter_In. destruct (Rle_dec t (coord p k)); intuition discriminate. Qed.
Definition veq (d : nat) (P Q : list point) : Prop :=
  (forall p, In p P -> exists q, In q Q /\ covers d q p) /\ (forall q, In q Q -> exists p, In p P /\ covers d p q).
Lemma veq_sym d P Q : veq d P Q -> veq d Q P. Proof. unfold veq. tauto. Qed.
Lemma veq_same d P Q : (forall p, In p P <-> In p Q) -> veq d P Q.
Proof. intro H. split; intros p Hp; exists p; (split; [now apply H|apply covers_refl]). Qed.
Lemma veq_reaching d P Q t : veq (S d) P Q -> veq d (reaching d t P) (reaching d t Q).
Proof.
  intros [A B]. split; intros p Hp; apply reaching_in in Hp; destruct Hp as [Hp Ht].
  - destruct (A p Hp) as (q & Hq & Hc). exists q. split; [|intros k Hk; apply Hc; lia]. apply reaching_in. split; [exact Hq|]. specialize (Hc d ltac:(lia)). lra.
  - destruct (B p Hp) as (q & Hq & Hc). exists q. split; [|intros k Hk; apply Hc; lia]. apply reaching_in. split; [exact Hq|]. specialize (Hc d ltac:(lia)). lra.
Qed.
Lemma vol_veq d : forall P Q v, veq d P Q -> is_vol d P v -> is_vol d Q v.
Proof.
  induction d as [|d IH]; intros P Q v H.
  - cbn. intros ->. destruct H as [A B], P as [|p P], Q as [|q Q]; try reflexivity.
    + destruct (B q (or_introl eq_refl)) as (? & [] & _).
    + destruct (A p (or_introl eq_refl)) as (? & [] & _).
  - intros (f & Hf & Hi). exists f. split; [|exact Hi]. intro t. apply (IH (reaching d t P)); [|apply Hf]. now apply veq_reaching.
Qed.
Lemma gen_unique (f : R -> R) u v : is_RInt_gen f (at_point 0) (Rbar_locally p_infty) u -> is_RInt_gen f (at_point 0) (Rbar_locally p_infty) v -> u = v.
Proof. intros Hu Hv. transitivity (RInt_gen f (at_point 0) (Rbar_locally p_infty)); [symmetry|]; now apply is_RInt_gen_unique. Qed.
Lemma gen_ext (f g : R -> R) v : (forall t, f t = g t) -> is_RInt_gen f (at_point 0) (Rbar_locally p_infty) v -> is_RInt_gen g (at_point 0) (Rbar_locally p_infty) v.
Proof. intros H. apply is_RInt_gen_ext. apply filter_forall. intros x y _. apply H. Qed.
(** the volume is determined by the points *)
Lemma vol_unique d : forall P u v, is_vol d P u -> is_vol d P v -> u = v.
Proof.
  induction d as [|d IH]; intros P u v; [cbn; congruence|]. intros (f & Hf & Hi) (g & Hg & Hj). apply (gen_unique g); [|exact Hj].
  apply (gen_ext f); [|exact Hi]. intro t. eapply IH; [apply Hf|apply Hg].
Qed.
Lemma const_int (f : R -> R) a b c : a <= b -> (forall t, a < t < b -> f t = c) -> is_RInt f a b (c * (b - a)).
Proof.
  intros Hab Hc. apply (is_RInt_ext (V := R_NormedModule) (fun _ => c)).
  - intros t Ht. rewrite Rmin_left, Rmax_right in Ht by lra. symmetry. now apply Hc.
  - rewrite Rmult_comm. apply (is_RInt_const (V := R_NormedModule) a b c).
Qed.
Lemma gen_of (f : R -> R) M v : 0 <= M -> is_RInt f 0 M v -> (forall t, M < t -> f t = 0) -> is_RInt_gen f (at_point 0) (Rbar_locally p_infty) v.
Proof.
  intros HM Hi Hz. intros Pr [eps He]. exists (fun x => x = 0) (fun y => M < y).
  - reflexivity.
  - exists M. intros y Hy. exact Hy.
  - intros x y -> Hy. exists v. split; [|apply He; apply ball_center]. replace v with (v + 0) by ring.
    apply (is_RInt_Chasles (V := R_NormedModule) f 0 M y); [exact Hi|].
    rewrite <- (Rmult_0_l (y - M)). apply const_int; [lra|]. intros t Ht. apply Hz. lra.
Qed.
(** a function with the volumes as values *)
Fixpoint Vol (d : nat) (P : list point) : R :=
  match d with
  | O => match P with [] => 0 | _ => 1 end
  | S d' => RInt_gen (fun t => Vol d' (reaching d' t P)) (at_point 0) (Rbar_locally p_infty)
  end.
Lemma Vol_eq d : forall P v, is_vol d P v -> Vol d P = v.
Proof.
  induction d as [|d IH]; intros P v H; [cbn in *; now rewrite H|]. destruct H as (f & Hf & Hi). cbn [Vol].
  apply is_RInt_gen_unique. apply (gen_ext f); [|exact Hi]. intro t. symmetry. apply IH, Hf.
Qed.
Lemma vol_nil d : is_vol d [] 0.
Proof.
  induction d as [|d IH]; [reflexivity|]. exists (fun _ => 0). split; [intro t; exact IH|]. apply (gen_of _ 0); [lra| |reflexivity].
  pose proof (const_int (fun _ => 0) 0 0 0 ltac:(lra) (fun _ _ => eq_refl)) as H. rewrite Rmult_0_l in H. exact H.
Qed.

(** points with at least [d] coordinates, the first [d] of which are not negative *)
Definition good (d : nat) (L : list point) : Prop := forall p, In p L -> (d <= length p)%nat /\ forall k, (k < d)%nat -> 0 <= coord p k.
Lemma good_wide d L : good d L -> wide d L. Proof. intros H p Hp. apply H, Hp. Qed.
Lemma good_sub d L L' : good d L -> (forall p, In p L' -> In p L) -> good d L'.
Proof. intros H HS p Hp. apply H, HS, Hp. Qed.
Lemma good_less d L : good (S d) L -> good d L.
Proof. intros H p Hp. destruct (H p Hp) as [A B]. split; [lia|]. intros k Hk. apply B. lia. Qed.
Lemma perm_sub {X} (L L' D : list X) : Permutation L (L' ++ D) -> forall p, In p L' -> In p L.
Proof. intros HP p Hp. eapply Permutation_in; [apply Permutation_sym; exact HP|]. apply in_or_app. now left. Qed.

(** the computation of [tempVolume] is right for [o] objectives *)
Definition rec_ok (o F : nat) (rec : list point -> nat -> res (list point * R)) : Prop :=
  forall L T, good o L -> (length L < F)%nat -> L <> [] -> (forall x y, In x L -> In y L -> ~ dominates o x y) ->
    exists L' v, rec (L ++ T) (length L) = Ok (L' ++ T, v) /\ Permutation L L' /\ is_vol o L v.
Definition has_vol (o : nat) : Prop := forall P, good o P -> is_vol o P (Vol o P).

Lemma hv_loop_spec o F rec : rec_ok o F rec -> has_vol o -> forall fuel L T volume distance,
  good (S o) L -> (length L < F)%nat -> (length L < fuel)%nat -> (forall p, In p L -> distance <= coord p o) ->
  exists L' v M, hv_loop F fuel o rec (L ++ T) (length L) volume distance = Ok (L' ++ T, v) /\ Permutation L L' /\
    distance <= M /\ is_RInt (fun t => Vol o (reaching o t L)) distance M (v - volume) /\ (forall t, M < t -> reaching o t L = []).
Proof.
  intros Hrec Hvol. induction fuel as [|fuel IH]; intros L T volume distance Hg HF Hf Hd; [lia|].
  cbn [hv_loop]. destruct L as [|p0 L0] eqn:EL.
  { exists [], volume, distance. cbn [length Nat.ltb Nat.leb app]. split; [reflexivity|]. split; [apply Permutation_refl|]. split; [lra|].
    split; [|reflexivity]. replace (volume - volume) with (0 * (distance - distance)) by ring. apply const_int; [lra|]. intros t Ht. lra. }
  rewrite <- EL in *. assert (HN : L <> []) by (rewrite EL; discriminate). 
  assert (Hpos : (0 <? length L)%nat = true) by (rewrite EL; reflexivity). rewrite Hpos.
  clear p0 L0 EL Hpos.
  destruct (filter_out_spec o F L T 0) as (L1 & D1 & E1 & HP1 & HD1 & HN1).
  { apply good_wide, good_less, Hg. } { lia. } { lia. } { intros a x y Ha. lia. }
  unfold FilterNondominatedSet. rewrite E1. cbn [bnd].
  assert (Hlen1 := Permutation_length HP1). rewrite app_length in Hlen1.
  assert (Hsub1 := perm_sub _ _ _ HP1).
  assert (V1 : veq o L1 L).
  { split; intros p Hp.
    - exists p. split; [now apply Hsub1|apply covers_refl].
    - assert (Hp' : In p (L1 ++ D1)) by (eapply Permutation_in; eassumption). apply in_app_or in Hp'.
      destruct Hp' as [Hp'|Hp']; [exists p; split; [exact Hp'|apply covers_refl]|]. destruct (HD1 p Hp') as (y & Hy & Hc & _). eauto. }
  assert (N1 : L1 <> []).
  { intros ->. destruct L as [|q L]; [congruence|]. destruct V1 as [_ V1]. destruct (V1 q (or_introl eq_refl)) as (? & [] & _). }
  destruct (Hrec L1 (D1 ++ T)) as (L1' & v1 & E2 & HP2 & Hv1); try assumption.
  { eapply good_sub; [apply good_less, Hg|exact Hsub1]. } { lia. }
  rewrite E2. cbn [bnd]. rewrite app_assoc. set (L2 := L1' ++ D1).
  assert (HP3 : Permutation L L2) by (rewrite HP1; apply Permutation_app_tail, HP2).
  assert (Hg2 : good (S o) L2) by (eapply good_sub; [exact Hg|]; intros p Hp; eapply Permutation_in; [apply Permutation_sym, HP3|exact Hp]).
  rewrite (Permutation_length HP3). destruct (surface_spec o L2 T) as (w & E3 & Hw & (pw & Hpw & Hwe)).
  { now apply good_wide. } { intro E. rewrite E in HP3. apply HN. now apply Permutation_nil, Permutation_sym. }
  rewrite E3. cbn [bnd]. unfold ReduceNondominatedSet.
  destruct (reduce_spec o w F L2 T 0) as (L3 & D3 & E4 & HP4 & HD3 & HS). { now apply good_wide. } { rewrite <- (Permutation_length HP3). lia. }
  rewrite E4. cbn [bnd].
  assert (Hlt : (length L3 < length L2)%nat). { apply HS. destruct (In_nth_error _ _ Hpw) as (k & Hk). exists k, pw. repeat split; [lia|exact Hk|lra]. }
  assert (HlL := Permutation_length HP3).
  assert (Hsub3 := perm_sub _ _ _ HP4).
  assert (Hdw : distance <= w). { rewrite Hwe. apply Hd. eapply Permutation_in; [apply Permutation_sym, HP3|exact Hpw]. }
  destruct (IH L3 (D3 ++ T) (volume + v1 * (w - distance)) w) as (L' & v & M & E5 & HP5 & HM & HI & HZ).
  { eapply good_sub; [exact Hg2|exact Hsub3]. } { lia. } { lia. } { intros p Hp. apply Hw, Hsub3, Hp. }
  exists (L' ++ D3), v, M. split. { rewrite E5. now rewrite <- app_assoc. }
  split. { rewrite HP3, HP4. apply Permutation_app_tail, HP5. }
  split; [lra|].
  assert (Hmem : forall p, In p L <-> In p L3 \/ In p D3).
  { intro p. split; intro Hp.
    - apply in_app_or. eapply Permutation_in; [exact HP4|]. eapply Permutation_in; [exact HP3|exact Hp].
    - eapply Permutation_in; [apply Permutation_sym, HP3|]. eapply Permutation_in; [apply Permutation_sym, HP4|]. now apply in_or_app. }
  assert (Hup : forall t p, w < t -> (In p (reaching o t L) <-> In p (reaching o t L3))).
  { intros t p Ht. rewrite !reaching_in, Hmem. split; [|tauto]. intros [[Hp|Hp] Hc]; [tauto|]. specialize (HD3 p Hp). lra. }
  split.
  - replace (v - volume) with (v1 * (w - distance) + (v - (volume + v1 * (w - distance)))) by ring.
    apply (is_RInt_Chasles (V := R_NormedModule) _ distance w M).
    + apply const_int; [exact Hdw|]. intros t Ht. apply Vol_eq. apply (vol_veq o L1); [|exact Hv1].
      assert (V2 : veq o L (reaching o t L)).
      { apply veq_same. intro p. rewrite reaching_in. split; [|tauto]. intro Hp. split; [exact Hp|].
        assert (w <= coord p o) by (apply Hw; eapply Permutation_in; [exact HP3|exact Hp]). lra. }
      split; intros p Hp.
      * destruct V1 as [V1 _], V2 as [V2 _]. destruct (V1 p Hp) as (q & Hq & Hc). destruct (V2 q Hq) as (r & Hr & Hc'). exists r. split; [exact Hr|]. eapply covers_trans; eassumption.
      * destruct V1 as [_ V1], V2 as [_ V2]. destruct (V2 p Hp) as (q & Hq & Hc). destruct (V1 q Hq) as (r & Hr & Hc'). exists r. split; [exact Hr|]. eapply covers_trans; eassumption.
    + apply (is_RInt_ext (V := R_NormedModule) (fun t => Vol o (reaching o t L3))); [|exact HI].
      intros t Ht. rewrite Rmin_left, Rmax_right in Ht by lra. symmetry. apply Vol_eq.
      apply (vol_veq o (reaching o t L3)). { apply veq_sym, veq_same. intro p. apply Hup. lra. }
      apply Hvol. eapply good_sub; [apply good_less, Hg|]. intros p Hp. apply reaching_in in Hp. apply Hmem. now left.
  - intros t Ht. destruct (reaching o t L) as [|p l] eqn:E; [reflexivity|]. exfalso.
    assert (Hp : In p (reaching o t L)) by (rewrite E; now left). rewrite Hup in Hp by lra. rewrite HZ in Hp by exact Ht. exact Hp.
Qed.

Lemma vol1 L p : good 1 L -> In p L -> (forall q, In q L -> coord q 0 <= coord p 0) -> is_vol 1 L (coord p 0).
Proof.
  intros Hg Hp Hmax. exists (fun t => match reaching 0 t L with [] => 0 | _ => 1 end). split; [intro t; reflexivity|].
  assert (H0 : 0 <= coord p 0) by (apply (Hg p Hp); lia). apply (gen_of _ (coord p 0)); [exact H0| |].
  - replace (coord p 0) with (1 * (coord p 0 - 0)) at 2 by ring. apply const_int; [exact H0|]. intros t Ht.
    destruct (reaching 0 t L) eqn:E; [|reflexivity]. assert (In p (reaching 0 t L)) by (apply reaching_in; split; [exact Hp|lra]). rewrite E in H. destruct H.
  - intros t Ht. destruct (reaching 0 t L) as [|q l] eqn:E; [reflexivity|]. assert (Hq : In q (reaching 0 t L)) by (rewrite E; now left).
    apply reaching_in in Hq. destruct Hq as [Hq Hc]. specialize (Hmax q Hq). lra.
Qed.
Lemma max_ex (L : list point) : L <> [] -> exists p, In p L /\ forall q, In q L -> coord q 0 <= coord p 0.
Proof.
  induction L as [|a L IH]; [congruence|]. intros _. destruct L as [|b L]; [exists a; split; [now left|]; intros q [<-|[]]; lra|].
  destruct IH as (p & Hp & Hm); [discriminate|]. destruct (Rle_dec (coord a 0) (coord p 0)).
  - exists p. split; [now right|]. intros q [<-|Hq]; [assumption|now apply Hm].
  - exists a. split; [now left|]. intros q [<-|Hq]; [lra|]. specialize (Hm q Hq). lra.
Qed.
Lemma has_vol1 : has_vol 1.
Proof.
  intros P Hg. destruct P as [|a P0] eqn:E; [rewrite (Vol_eq 1 [] 0 (vol_nil 1)); apply vol_nil|]. rewrite <- E in *.
  destruct (max_ex P) as (p & Hp & Hm); [rewrite E; discriminate|]. rewrite (Vol_eq 1 _ _ (vol1 P p Hg Hp Hm)). now apply vol1.
Qed.
Lemma small_ok F : rec_ok 1 F small.
Proof.
  intros L T Hg HF HN Hnd. destruct L as [|p L]; [congruence|]. exists (p :: L), (coord p 0). split; [|split; [apply Permutation_refl|]].
  - unfold small. change (length (p :: L) <? 1)%nat with false. change (get ((p :: L) ++ T) 0) with (Ok p). cbn [bnd].
    rewrite get_coord; [reflexivity|]. specialize (Hg p (or_introl eq_refl)). lia.
  - apply vol1; [exact Hg|now left|]. intros q Hq. destruct (Rle_dec (coord q 0) (coord p 0)); [assumption|]. exfalso.
    apply (Hnd q p Hq (or_introl eq_refl)). split; [intros k Hk; replace k with 0%nat by lia; lra|exists 0%nat; split; [lia|lra]].
Qed.
Lemma calc_spec F : forall o, (1 <= o)%nat -> has_vol (S o) /\ forall L T, good (S o) L -> (length L < F)%nat ->
    exists L' v, CalculateHypervolume F (S o) (L ++ T) (length L) = Ok (L' ++ T, v) /\ Permutation L L' /\ is_vol (S o) L v.
Proof.
  assert (Hstep : forall o F' rec, rec_ok o F' rec -> has_vol o -> forall L T, good (S o) L -> (length L < F')%nat ->
    exists L' v, hv_loop F' F' o rec (L ++ T) (length L) 0 0 = Ok (L' ++ T, v) /\ Permutation L L' /\ is_vol (S o) L v).
  { intros o F' rec Hr Hv L T Hg HF. destruct (hv_loop_spec o F' rec Hr Hv F' L T 0 0 Hg HF HF) as (L' & v & M & E & HP & HM & HI & HZ).
    { intros p Hp. apply (Hg p Hp). lia. }
    exists L', v. split; [exact E|]. split; [exact HP|]. exists (fun t => Vol o (reaching o t L)). split.
    - intro t. apply Hv. eapply good_sub; [apply good_less, Hg|]. intros p Hp. now apply reaching_in in Hp.
    - apply (gen_of _ M); [exact HM| |].
      + replace v with (v - 0) by ring. exact HI.
      + intros t Ht. rewrite HZ by exact Ht. apply Vol_eq, vol_nil. }
  (* the volumes exist whatever the fuel of the statement *)
  assert (Hex : forall o, (forall F', exists rec, rec_ok o F' rec) -> has_vol o -> has_vol (S o)).
  { intros o Hr Hv P Hg. destruct (Hr (S (length P))) as (rec & Hrec). destruct (Hstep o _ rec Hrec Hv P [] Hg ltac:(lia)) as (_ & v & _ & _ & H). now rewrite (Vol_eq _ _ _ H). }
  assert (Hall : forall o, (1 <= o)%nat -> has_vol o /\ forall F', rec_ok o F' (if (S o <? 3)%nat then small else CalculateHypervolume F' o)).
  { induction o as [|o IH]; intro Ho; [lia|]. destruct o as [|o]; [split; [apply has_vol1|intro F'; apply small_ok]|].
    destruct (IH ltac:(lia)) as [Hv Hr]. split.
    - apply Hex; [|exact Hv]. intro F'. eexists. apply Hr.
    - intro F'. change (S (S (S o)) <? 3)%nat with false. cbv iota. intros L T Hg HF HN Hnd.
      apply (Hstep (S o) F' _ (Hr F') Hv L T Hg HF). }
  intros o Ho. destruct (Hall o Ho) as [Hv Hr]. split.
  - apply Hex; [|exact Hv]. intro F'. eexists. apply Hr.
  - intros L T Hg HF. apply (Hstep o F _ (Hr F) Hv L T Hg HF).
Qed.

(** ** Theorems *)
(** FilterNondominatedSet reorders the front, puts the points that no other point dominates first and returns their number;
    each point it drops is dominated by one it keeps *)
Theorem C57_filter (fuel : nat) (front : list point) (m : nat) : wide m front -> (length front < fuel)%nat ->
  exists kept dropped, FilterNondominatedSet fuel front (length front) m = Ok (kept ++ dropped, length kept) /\
    Permutation front (kept ++ dropped) /\ (forall x y, In x kept -> In y front -> ~ dominates m y x) /\
    (forall x, In x dropped -> exists y, In y kept /\ dominates m y x).
Proof.
  intros Hw Hf. destruct (filter_out_spec m fuel front [] 0 Hw ltac:(lia) ltac:(lia)) as (L' & D & E & HP & HD & HN). { intros a x y Ha. lia. }
  rewrite !app_nil_r in E. exists L', D. split; [exact E|]. split; [exact HP|]. split; [|exact HD].
  intros x y Hx Hy Hd. assert (Hy' : In y (L' ++ D)) by (eapply Permutation_in; eassumption). apply in_app_or in Hy'.
  destruct Hy' as [Hy'|Hy']; [apply (HN y x Hy' Hx Hd)|]. destruct (HD y Hy') as (z & Hz & Hzy). apply (HN z x Hz Hx). eapply dominates_trans; eassumption.
Qed.

(** CalculateHypervolume returns the volume that the points dominate, for two objectives or more and points above the reference *)
Theorem C57_hypervolume (fuel d : nat) (front : list point) : (2 <= d)%nat -> good d front -> (length front < fuel)%nat ->
  exists front' v, CalculateHypervolume fuel d front (length front) = Ok (front', v) /\ Permutation front front' /\ is_vol d front v.
Proof.
  intros Hd Hg Hf. destruct d as [|o]; [lia|]. destruct (calc_spec fuel o ltac:(lia)) as [_ H].
  destruct (H front [] Hg Hf) as (L' & v & E & HP & HV). rewrite !app_nil_r in E. eauto.
Qed.

(** what the points are measured from: [- ref] *)
Definition above (ref obs : point) : point := map (fun k => coord obs k - (- coord ref k)) (seq 0 (length obs)).
Lemma shifted_spec ref : forall obs, (length obs <= length ref)%nat -> exists p, shifted ref obs = Ok p /\ length p = length obs /\
  forall k, (k < length obs)%nat -> coord p k = coord obs k + coord ref k.
Proof.
  induction ref as [|x r IH]; intros [|y o] Hl; cbn in Hl; try lia.
  - exists []. split; [reflexivity|]. split; [reflexivity|]. intros k Hk. cbn in Hk. lia.
  - exists []. split; [reflexivity|]. split; [reflexivity|]. intros k Hk. cbn in Hk. lia.
  - destruct (IH o ltac:(lia)) as (p & E & Hlen & Hk). exists (y + x :: p). split.
    + change (shifted (x :: r) (y :: o)) with (do t <- shifted r o; Ok (y + x :: t)). rewrite E. reflexivity.
    + split; [cbn; now rewrite Hlen|]. intros [|k] Hkk; [reflexivity|]. cbn in Hkk. apply (Hk k). lia.
Qed.
Lemma coord_above ref obs k : (k < length obs)%nat -> coord (above ref obs) k = coord obs k + coord ref k.
Proof.
  intro H. unfold above. set (g := fun k => coord obs k - (- coord ref k)). unfold coord at 1. rewrite (nth_indep _ 0 (g 0%nat)) by (rewrite map_length, seq_length; exact H).
  rewrite map_nth, seq_nth by exact H. unfold g. cbn [Nat.add]. ring.
Qed.
Lemma shifted_above ref obs : (length obs <= length ref)%nat -> shifted ref obs = Ok (above ref obs).
Proof.
  intro H. destruct (shifted_spec ref obs H) as (p & E & Hl & Hk). rewrite E. f_equal. apply (nth_ext _ _ 0 0).
  - unfold above. now rewrite map_length, seq_length.
  - intros k Hkk. rewrite Hl in Hkk. change (coord p k = coord (above ref obs) k). rewrite coord_above by exact Hkk. now apply Hk.
Qed.
(** stat::HyperVolume logs the volume between [- ref] and the observations, if none of them is below [- ref] *)
Theorem C57_stat (fuel : nat) (ref : point) (observations : list point) (d : nat) : (2 <= d <= length ref)%nat -> observations <> [] -> (length observations < fuel)%nat ->
  (forall o, In o observations -> length o = d /\ forall k, (k < d)%nat -> - coord ref k <= coord o k) ->
  exists v, hyper_volume fuel true ref observations = Ok (Some v) /\ is_vol d (map (above ref) observations) v.
Proof.
  intros Hd Hn Hf Ho. unfold hyper_volume. destruct observations as [|o0 obs] eqn:E; [congruence|]. cbn [negb]. rewrite <- E in *.
  assert (H0 : length o0 = d) by (apply Ho; rewrite E; now left). rewrite H0. clear E o0 obs H0 Hn.
  assert (Hs : shift_all ref observations = Ok (map (above ref) observations)).
  { clear Hf. induction observations as [|o l IH]; [reflexivity|]. cbn [shift_all map]. rewrite shifted_above.
    2:{ destruct (Ho o (or_introl eq_refl)) as [-> _]. lia. }
    cbn [bnd]. rewrite IH; [reflexivity|]. intros q Hq. apply Ho. now right. }
  rewrite Hs. cbn [bnd]. set (P := map (above ref) observations). assert (HlP : length P = length observations) by apply map_length. rewrite <- HlP.
  assert (Hg : good d P).
  { intros p Hp. apply in_map_iff in Hp. destruct Hp as (o & <- & Hin). destruct (Ho o Hin) as [Hl Hk]. split.
    - unfold above. rewrite map_length, seq_length. lia.
    - intros k Hkk. rewrite coord_above by lia. specialize (Hk k Hkk). lra. }
  destruct (C57_filter fuel P d (good_wide d P Hg) ltac:(lia)) as (kept & dropped & -> & HP & HN & HD). cbn [bnd].
  destruct d as [|o]; [lia|]. destruct (calc_spec fuel o ltac:(lia)) as [_ H].
  assert (Hsub := perm_sub _ _ _ HP). pose proof (Permutation_length HP) as Hlen. rewrite app_length in Hlen.
  destruct (H kept dropped) as (L' & v & -> & _ & HV). { eapply good_sub; [exact Hg|exact Hsub]. } { lia. }
  cbn [bnd]. exists v. split; [reflexivity|]. apply (vol_veq (S o) kept); [|exact HV]. split; intros p Hp.
  - exists p. split; [now apply Hsub|apply covers_refl].
  - assert (Hp' : In p (kept ++ dropped)) by (eapply Permutation_in; eassumption). apply in_app_or in Hp'.
    destruct Hp' as [Hp'|Hp']; [exists p; split; [exact Hp'|apply covers_refl]|]. destruct (HD p Hp') as (y & Hy & Hc & _). eauto.
Qed.

(** *** The specification on known cases *)
(** the volume of a box is the product of its sides *)
Fixpoint sides (d : nat) (p : point) : R := match d with O => 1 | S d' => sides d' p * coord p d' end.
Lemma vol_box d p : (forall k, (k < d)%nat -> 0 <= coord p k) -> is_vol d [p] (sides d p).
Proof.
  induction d as [|d IH]; intro H; [reflexivity|]. exists (fun t => if Rle_dec t (coord p d) then sides d p else 0). split.
  - intro t. unfold reaching. cbn [filter]. destruct (Rle_dec t (coord p d)); [apply IH; intros k Hk; apply H; lia|apply vol_nil].
  - assert (H0 : 0 <= coord p d) by (apply H; lia). apply (gen_of _ (coord p d)); [exact H0| |].
    + cbn [sides]. replace (sides d p * coord p d) with (sides d p * (coord p d - 0)) by ring. apply const_int; [exact H0|].
      intros t Ht. destruct (Rle_dec t (coord p d)); [reflexivity|lra].
    + intros t Ht. destruct (Rle_dec t (coord p d)); [lra|reflexivity].
Qed.
(** two overlapping boxes: 2 + 2 - 1 *)
Definition two_points : list point := [[2; 1]; [1; 2]].
Lemma vol_two : is_vol 2 two_points 3.
Proof.
  exists (fun t => if Rle_dec t 1 then 2 else if Rle_dec t 2 then 1 else 0). split.
  - intro t. unfold reaching, two_points. cbn [filter coord nth]. destruct (Rle_dec t 1), (Rle_dec t 2); try lra; [| |apply vol_nil].
    + apply (vol1 _ [2; 1]); [|now left|].
      * intros p [<-|[<-|[]]]; (split; [cbn; lia|]; intros k Hk; replace k with 0%nat by lia; cbn; lra).
      * intros q [<-|[<-|[]]]; cbn; lra.
    + apply (vol1 _ [1; 2]); [|now left|].
      * intros p [<-|[]]; (split; [cbn; lia|]; intros k Hk; replace k with 0%nat by lia; cbn; lra).
      * intros q [<-|[]]; cbn; lra.
  - apply (gen_of _ 2); [lra| |intros t Ht; destruct (Rle_dec t 1), (Rle_dec t 2); lra].
    replace 3 with (2 * (1 - 0) + 1 * (2 - 1)) by ring. apply (is_RInt_Chasles (V := R_NormedModule) _ 0 1 2).
    + apply const_int; [lra|]. intros t Ht. destruct (Rle_dec t 1); lra.
    + apply const_int; [lra|]. intros t Ht. destruct (Rle_dec t 1), (Rle_dec t 2); lra.
Qed.
Example C57_hypervolume_nonvacuous : good 2 two_points /\ exists front', CalculateHypervolume 3 2 two_points 2 = Ok (front', 3).
Proof.
  assert (Hg : good 2 two_points).
  { intros p [<-|[<-|[]]]; (split; [cbn; lia|]; intros [|[|k]] Hk; cbn; try lra; lia). }
  split; [exact Hg|]. destruct (C57_hypervolume 3 2 two_points (le_n _) Hg) as (f & v & E & _ & Hv); [cbn; lia|].
  exists f. rewrite <- (vol_unique 2 _ _ _ Hv vol_two). exact E.
Qed.
Example C57_stat_nonvacuous : exists v, hyper_volume 3 true [10; 10] [[-8; -9]; [-9; -8]] = Ok (Some v) /\ v = 3.
Proof.
  destruct (C57_stat 3 [10; 10] [[-8; -9]; [-9; -8]] 2) as (v & E & Hv).
  - cbn. lia. - discriminate. - cbn. lia.
  - intros o [<-|[<-|[]]]; (split; [reflexivity|]; intros [|[|k]] Hk; cbn; try lra; lia).
  - exists v. split; [exact E|]. apply (vol_unique 2 (map (above [10; 10]) [[-8; -9]; [-9; -8]])); [exact Hv|].
    replace (map (above [10; 10]) [[-8; -9]; [-9; -8]]) with two_points; [exact vol_two|].
    unfold two_points, above. cbn. repeat (f_equal; try lra).
Qed.

Ltac plain x := lazymatch x with context [Rlt_dec _ _] => fail | context [Rle_dec _ _] => fail | _ => idtac end.
Ltac decide_all := repeat (cbn; match goal with
  | |- context [Rle_dec ?a ?b] => plain a; plain b; destruct (Rle_dec a b); [try (exfalso; lra)|try (exfalso; lra)]
  | |- context [Rlt_dec ?a ?b] => plain a; plain b; destruct (Rlt_dec a b); [try (exfalso; lra)|try (exfalso; lra)] end).
(** *** Where it is wrong *)
(** one objective: one observation that is 3 above the reference gives 9 *)
Theorem C57_one_objective_refuted : exists obs v w, hyper_volume 3 true [10; 10] obs = Ok (Some v) /\ is_vol 1 (map (above [10; 10]) obs) w /\ v = 9 /\ w = 3.
Proof.
  exists [[-7]]. eexists. exists 3. split.
  { unfold hyper_volume. decide_all. reflexivity. }
  split; [|split; [ring|reflexivity]]. cbn [map]. replace 3 with (coord (above [10; 10] [-7]) 0) by (cbn; ring).
  apply vol1; [|now left|intros q [<-|[]]; lra]. intros p [<-|[]]. split; [cbn; lia|]. intros k Hk. replace k with 0%nat by lia. cbn. lra.
Qed.
(** an observation below the reference in the last objective: adding it turns the volume 4 into 3 *)
Theorem C57_below_reference_refuted : exists obs bad v w, hyper_volume 3 true [10; 10] obs = Ok (Some v) /\ is_vol 2 (map (above [10; 10]) obs) v /\
  hyper_volume 3 true [10; 10] (obs ++ [bad]) = Ok (Some w) /\ is_vol 2 (map (above [10; 10]) (obs ++ [bad])) v /\ w < v.
Proof.
  destruct (C57_stat 3 [10; 10] [[-8; -8]] 2) as (v & E & Hv).
  - cbn. lia. - discriminate. - cbn. lia. - intros o [<-|[]]; (split; [reflexivity|]; intros [|[|k]] Hk; cbn; try lra; lia).
  - assert (Ev : v = 4).
    { apply (vol_unique 2 (map (above [10; 10]) [[-8; -8]])); [exact Hv|]. cbn [map]. replace 4 with (sides 2 (above [10; 10] [-8; -8])) by (cbn; ring).
      apply vol_box. intros [|[|k]] Hk; cbn; try lra; lia. }
    subst v. exists [[-8; -8]], [-7; -11], 4. eexists. split; [exact E|]. split; [exact Hv|]. split.
    { unfold hyper_volume. decide_all. reflexivity. }
    split; [|lra]. cbn [app map]. destruct Hv as (f & Hf & Hi). exists (fun t => if Rle_dec t (-1) then 3 else f t). split.
    + intro t. destruct (Rle_dec t (-1)) as [Ht|Ht].
      * replace (reaching 1 t [above [10; 10] [-8; -8]; above [10; 10] [-7; -11]]) with [above [10; 10] [-8; -8]; above [10; 10] [-7; -11]].
        2:{ unfold reaching. cbn [filter]. destruct (Rle_dec t _) as [_|H]; [|exfalso; apply H; cbn; lra]. destruct (Rle_dec t _) as [_|H]; [reflexivity|exfalso; apply H; cbn; lra]. }
        replace 3 with (coord (above [10; 10] [-7; -11]) 0) by (cbn; ring).
        apply vol1; [|right; now left|intros q [<-|[<-|[]]]; cbn; lra].
        intros p [<-|[<-|[]]]; (split; [cbn; lia|]; intros k Hk; replace k with 0%nat by lia; cbn; lra).
      * specialize (Hf t). replace (reaching 1 t [above [10; 10] [-8; -8]; above [10; 10] [-7; -11]]) with (reaching 1 t [above [10; 10] [-8; -8]]); [exact Hf|].
        unfold reaching. cbn [filter]. destruct (Rle_dec t (coord (above [10; 10] [-7; -11]) 1)) as [H|_]; [exfalso; cbn in H; lra|]. reflexivity.
    + revert Hi. apply is_RInt_gen_ext. exists (fun x => x = 0) (fun y => 0 < y); [reflexivity|exists 0; intros y Hy; exact Hy|].
      intros x y -> Hy t Ht. cbn in Ht. rewrite Rmin_left in Ht by lra. destruct (Rle_dec t (-1)); [lra|reflexivity].
Qed.
