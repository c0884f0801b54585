(** Proofs about the optimizers of [OptModel]. *)
From Coq Require Import ZArith List Bool Lia Permutation.
From Coq Require Import Floats.SpecFloat.
From Verif Require Import F64 OptModel OptSpec.
Import ListNotations.
Open Scope nat_scope.

(** * clamping *)
Lemma clamp1_box x : isnan (clamp1 x) = true \/ in_unit (clamp1 x).
Proof.
  unfold clamp1, in_unit. destruct (notnan_dec x) as [N|N].
  - right. destruct (flt x f0) eqn:E0.
    + assert (E : flt f1 f0 = false) by reflexivity. rewrite E. split; reflexivity.
    + destruct (flt f1 x) eqn:E1; [split; reflexivity|].
      split; apply fle_flt; repeat split; auto; discriminate.
  - subst. left. reflexivity.
Qed.

Lemma clamp1_unit x : notnan x -> in_unit (clamp1 x).
Proof.
  intro N. destruct (clamp1_box x) as [H|H]; auto.
  exfalso. unfold clamp1 in H. apply isnan_spec in H.
  destruct (flt x f0); [destruct (flt f1 f0); discriminate|].
  destruct (flt f1 x); [discriminate|contradiction].
Qed.

Lemma clamp_box v : in_box_or_nan (clamp true v).
Proof. unfold in_box_or_nan, clamp. apply Forall_forall. intros y H.
  apply in_map_iff in H. destruct H as (x & <- & _). apply clamp1_box. Qed.

Lemma clamp_length b v : length (clamp b v) = length v.
Proof. unfold clamp. destruct b; auto. apply map_length. Qed.

Lemma map2_length {A B C} (g : A -> B -> C) u v : length (map2 g u v) = Nat.min (length u) (length v).
Proof. revert v. induction u; destruct v; simpl; auto. Qed.

(** * Rprop *)
Section RpropFacts.
  Variable f : nat -> vec -> F * option vec.
  Variable norm : vec -> F.
  Variable eps : F.

  Lemma rprop_coords_box gold g delta p d' g' p' :
    rprop_coords true gold g delta p = (d', g', p') -> in_box_or_nan p'.
  Proof.
    revert g delta p d' g' p'.
    induction gold as [|a gold IH]; intros [|b g] [|c delta] [|d p] d' g' p' E; simpl in E;
      try (injection E; intros; subst; constructor).
    destruct (rprop_coord true (fmul a b) b c d) as [[d1 g1] p1] eqn:E1.
    destruct (rprop_coords true gold g delta p) as [[ds gs] ps] eqn:E2.
    injection E; intros; subst. constructor; [|eapply IH; eauto].
    unfold rprop_coord in E1.
    destruct (if flt f0 (fmul a b) then _ else _) as [dd gg]. injection E1; intros; subst.
    apply clamp1_box.
  Qed.

  Lemma rprop_coords_length b gold g delta p d' g' p' :
    rprop_coords b gold g delta p = (d', g', p') ->
    length g = length gold -> length delta = length gold -> length p = length gold ->
    length d' = length gold /\ length g' = length gold /\ length p' = length gold.
  Proof.
    revert g delta p d' g' p'.
    induction gold as [|x gold IH]; intros [|y g] [|z delta] [|t p] d' g' p' E A1 A2 A3; simpl in *;
      try discriminate; try (injection E; intros; subst; now simpl).
    destruct (rprop_coord b (fmul x y) y z t) as [[d1 g1] p1] eqn:E1.
    destruct (rprop_coords b gold g delta p) as [[ds gs] ps] eqn:E2.
    injection E; intros; subst. injection A1; injection A2; injection A3; intros.
    destruct (IH _ _ _ _ _ _ E2) as (X & Y & Z); auto. simpl. repeat split; lia.
  Qed.

  (** one iteration of the loop, as an induction principle: [Inv] on
      (iteration, gold, delta, p, best, best_p, trace) *)
  Lemma rprop_loop_ind (b : bool) (Inv : nat -> vec -> vec -> vec -> F -> vec -> otrace -> Prop)
        (Step : forall i gold delta p best bp tr lik g0 delta' g' p',
            Inv i gold delta p best bp tr ->
            f i p = (lik, Some g0) -> length g0 = length gold ->
            rprop_coords b gold (map fopp g0) delta p = (delta', g', p') ->
            Inv (S i) g' delta' p' (if flt best lik then lik else best) (if flt best lik then p else bp)
                (tr ++ [(p, lik)])) :
    forall k i gold delta p best bp tr r,
      Inv i gold delta p best bp tr ->
      rprop_loop f norm eps b k i gold delta p best bp tr = Some r ->
      exists j gold' delta' p' best', (i <= j <= i + k) /\ Inv j gold' delta' p' best' (fst r) (snd r).
  Proof.
    induction k as [|k IH]; intros i gold delta p best bp tr r I E; simpl in E.
    - injection E; intros; subst. exists i, gold, delta, p, best. split; [lia|exact I].
    - destruct (f i p) as [lik [g0|]] eqn:Ef; [|discriminate].
      destruct (length g0 =? length gold) eqn:El; [|discriminate]. simpl in E.
      apply Nat.eqb_eq in El.
      destruct (rprop_coords b gold (map fopp g0) delta p) as [[d' g'] p'] eqn:Ec.
      pose proof (Step _ _ _ _ _ _ _ _ _ _ _ _ I Ef El Ec) as I'.
      destruct (flt best lik) eqn:Eb;
        (destruct (flt (norm g') eps); [injection E; intros; subst; exists (S i), g', d', p'; eexists;
                                        split; [lia|exact I']|]);
        destruct (IH _ _ _ _ _ _ _ _ I' E) as (j & ? & ? & ? & ? & Hj & ?);
        (exists j; do 4 eexists; split; [lia|eassumption]).
  Qed.

  (** everything recorded and returned is in the box *)
  Lemma rprop_box iterations init p tr :
    rprop f norm eps true iterations init = Some (p, tr) ->
    in_box_or_nan p /\ Forall (fun e => in_box_or_nan (fst e)) tr.
  Proof.
    intro E. unfold rprop in E.
    destruct (rprop_loop_ind true
       (fun _ _ _ p _ bp tr => in_box_or_nan p /\ in_box_or_nan bp /\ Forall (fun e => in_box_or_nan (fst e)) tr))
      with (3 := E) as (j & ? & ? & ? & ? & _ & _ & B & C); [| |split; auto].
    - intros i gold delta q best bp t lik g0 d' g' p' (A & B & C) Ef El Ec.
      split; [eapply rprop_coords_box; eauto|]. split; [destruct (flt best lik); auto|].
      apply Forall_app. split; auto.
    - repeat split; auto using clamp_box.
  Qed.

  (** best point returned *)
  Definition best_inv (start : vec) (p : vec) (best : F) (bp : vec) (tr : otrace) : Prop :=
    (best = fninf /\ bp = start /\ Forall (fun e => flt fninf (snd e) = false) tr)
    \/ (flt fninf best = true /\ first_best tr bp best).

  Lemma best_inv_step start p best bp tr lik :
    best_inv start p best bp tr ->
    forall p', best_inv start p' (if flt best lik then lik else best) (if flt best lik then p else bp) (tr ++ [(p, lik)]).
  Proof.
    intros [(-> & -> & H)|(A & l1 & l2 & -> & N & B & C)] p'.
    - destruct (flt fninf lik) eqn:E.
      + right. split; auto. exists tr, []. split; auto.
        assert (Nl : notnan lik) by (now apply flt_spec in E).
        split; auto. split.
        * apply Forall_app. split.
          -- eapply Forall_impl; [|exact H]. intros [x v]; simpl. intro K.
             destruct (flt lik v) eqn:K'; auto.
             rewrite (flt_trans _ _ _ E K') in K. discriminate.
          -- constructor; auto. simpl. apply flt_irrefl.
        * eapply Forall_impl; [|exact H]. intros [x v]; simpl. intro K.
          destruct (isnan v) eqn:Nv; auto. right.
          apply nflt_flt_trans with fninf; auto.
          intro; subst; discriminate.
      + left. repeat split. apply Forall_app. split; auto.
    - destruct (flt best lik) eqn:E.
      + right. split; [eapply flt_trans; eauto|].
        exists (l1 ++ (bp, best) :: l2), []. split; auto.
        assert (Nl : notnan lik) by (now apply flt_spec in E).
        split; auto. split.
        * apply Forall_app. split.
          -- eapply Forall_impl; [|exact B]. intros [x v]; simpl. intro K.
             destruct (flt lik v) eqn:K'; auto.
             rewrite (flt_trans _ _ _ E K') in K. discriminate.
          -- constructor; auto. simpl. apply flt_irrefl.
        * eapply Forall_impl; [|exact B]. intros [x v]; simpl. intro K.
          destruct (isnan v) eqn:Nv; auto. right.
          apply nflt_flt_trans with best; auto.
          intro; subst; discriminate.
      + right. split; auto. exists l1, (l2 ++ [(p, lik)]).
        split; [now rewrite <- app_assoc|]. split; auto. split; auto.
        apply Forall_app. split; auto.
  Qed.

  Lemma rprop_best b iterations init p tr :
    rprop f norm eps b iterations init = Some (p, tr) ->
    (exists v, flt fninf v = true /\ first_best tr p v)
    \/ (p = clamp b init /\ Forall (fun e => flt fninf (snd e) = false) tr).
  Proof.
    intro E. unfold rprop in E.
    destruct (rprop_loop_ind b (fun _ _ _ p best bp tr => best_inv (clamp b init) p best bp tr))
      with (3 := E) as (j & ? & ? & ? & ? & _ & I); [| |cbn [fst snd] in *].
    - intros. eapply best_inv_step; eauto.
    - left. repeat split; constructor.
    - destruct I as [(A & B & C)|(A & B)]; [right|left]; eauto.
  Qed.

  (** evaluations recorded are real evaluations of f, at most [iterations], the first one at the
      (clamped) initial point *)
  Lemma rprop_trace b iterations init p tr :
    rprop f norm eps b iterations init = Some (p, tr) ->
    (length tr <= Z.to_nat iterations) /\
    (forall i x v, nth_error tr i = Some (x, v) -> fst (f i x) = v /\ length x = length init) /\
    ((0 < iterations)%Z -> exists v, nth_error tr 0 = Some (clamp b init, v)).
  Proof.
    intro E. unfold rprop in E.
    destruct (rprop_loop_ind b (fun i gold delta p _ _ tr =>
       length tr = i /\ length gold = length init /\ length delta = length init /\ length p = length init /\
       (forall i x v, nth_error tr i = Some (x, v) -> fst (f i x) = v /\ length x = length init) /\
       (match tr with [] => p = clamp b init | (x, _) :: _ => x = clamp b init end)))
      with (3 := E) as (j & ? & ? & ? & ? & Hj & A & B & C & D & G & H); [| |].
    - intros i gold delta q best bp t lik g0 d' g' p' (A & B & C & D & G & H) Ef El Ec.
      apply rprop_coords_length in Ec; try lia; [|rewrite map_length; lia].
      split; [rewrite app_length; simpl; lia|]. repeat (split; [lia|]). split.
      + intros k x v Hk. destruct (Nat.lt_ge_cases k (length t)).
        * rewrite nth_error_app1 in Hk by lia. auto.
        * rewrite nth_error_app2 in Hk by lia.
          destruct (k - length t) eqn:Ek; simpl in Hk; [|destruct n; discriminate].
          injection Hk; intros; subst. replace k with (length t) by lia.
          rewrite Ef. auto.
      + destruct t as [|[y w] t]; simpl; auto.
    - rewrite repeat_length. rewrite repeat_length, clamp_length. repeat split; auto.
      + destruct i; discriminate.
      + destruct i; discriminate.
    - cbn [fst snd] in *. split; [lia|]. split; [exact G|]. intro Hp.
      destruct tr as [|[xx vv] tr].
      + exfalso. simpl in A. subst j.
        destruct (Z.to_nat iterations) eqn:Ei; [lia|]. cbn [rprop_loop] in E.
        clear - E Ei.
        destruct (f 0 (clamp b init)) as [lik [g0|]]; [|discriminate].
        destruct (negb _); [discriminate|].
        destruct (if flt fninf lik then _ else _) as [c1 c2].
        destruct (rprop_coords _ _ _ _ _) as [[w1 w2] w3].
        assert (Inc : forall k i gold delta p best bp tr r,
                   rprop_loop f norm eps b k i gold delta p best bp tr = Some r -> length tr <= length (snd r)).
        { induction k as [|k IH]; intros i gold delta p0 best bp tr r Er; cbn [rprop_loop] in Er.
          - injection Er; intros; subst; cbn [snd]; lia.
          - destruct (f i p0) as [lik' [g0'|]]; [|discriminate].
            destruct (negb _); [discriminate|].
            destruct (if flt best lik' then _ else _) as [b1 b2].
            destruct (rprop_coords _ _ _ _ _) as [[u1 u2] u3].
            destruct (flt (norm u2) eps).
            + injection Er; intros; subst; cbn [snd]. rewrite app_length; lia.
            + apply IH in Er; rewrite app_length in Er; lia. }
        destruct (flt (norm w2) eps); [discriminate|].
        apply Inc in E; cbn in E; lia.
      + subst xx. exists vv. reflexivity.
  Qed.
End RpropFacts.

(** * Adam, gradient ascent *)
Section AdamFacts.
  Variable f : nat -> vec -> F * option vec.
  Variable norm : vec -> F.

  Lemma adam_loop_box b1 b2 alpha stop k :
    forall i m v p x y tr r, in_box_or_nan p -> Forall (fun e => in_box_or_nan (fst e)) tr ->
    adam_loop f norm b1 b2 alpha stop true k i m v p x y tr = Some r ->
    in_box_or_nan (fst r) /\ Forall (fun e => in_box_or_nan (fst e)) (snd r).
  Proof.
    induction k as [|k IH]; intros i m v p x y tr r Hp Ht E; simpl in E.
    - injection E; intros; subst; auto.
    - destruct (f i p) as [lik [g|]]; [|discriminate].
      destruct (negb _); [discriminate|].
      destruct (flt (norm _) stop).
      + injection E; intros; subst; simpl. split; [apply (clamp_box)|].
        apply Forall_app; split; auto.
      + apply IH in E; auto; [apply (clamp_box)|]. apply Forall_app; split; auto.
  Qed.

  Lemma adam_box b1 b2 alpha stop iterations init p tr :
    adam f norm b1 b2 alpha stop true iterations init = Some (p, tr) ->
    in_box_or_nan p /\ Forall (fun e => in_box_or_nan (fst e)) tr.
  Proof. intro E. apply adam_loop_box in E; auto using clamp_box. Qed.

  Lemma ga_loop_box gamma alpha stop nesterov k :
    forall i v p tr r, in_box_or_nan p -> Forall (fun e => in_box_or_nan (fst e)) tr ->
    ga_loop f norm gamma alpha stop nesterov true k i v p tr = Some r ->
    in_box_or_nan (fst r) /\ Forall (fun e => in_box_or_nan (fst e)) (snd r).
  Proof.
    induction k as [|k IH]; intros i v p tr r Hp Ht E; cbn [ga_loop] in E.
    - injection E; intros; subst; auto.
    - set (q := if nesterov then _ else _) in *.
      assert (Hq : in_box_or_nan q) by (unfold q; destruct nesterov; auto using clamp_box).
      destruct (f i q) as [lik [g|]]; [|discriminate].
      destruct (negb _); [discriminate|].
      destruct (flt (norm _) stop).
      + injection E; intros; subst; cbn [fst snd]. split; [apply (clamp_box)|].
        apply Forall_app; split; auto.
      + apply IH in E; auto; [apply (clamp_box)|]. apply Forall_app; split; auto.
  Qed.

  Lemma ga_box gamma alpha stop nesterov iterations init p tr :
    gradient_ascent f norm gamma alpha stop nesterov true iterations init = Some (p, tr) ->
    in_box_or_nan p /\ Forall (fun e => in_box_or_nan (fst e)) tr.
  Proof. intro E. apply ga_loop_box in E; auto using clamp_box. Qed.
End AdamFacts.

(** * Grid search *)
Section GridFacts.
  Variable f : vec -> F.
  Variable xs : list F.

  Lemma grid_scan_spec cand l : forall best res r,
    notnan best ->
    grid_scan f cand l best res = r -> r <> GUB ->
    (forall x, In x l -> exists t, cand x = GVec t) /\
    ((r = res /\ (forall x t, In x l -> cand x = GVec t -> flt best (f t) = false)) \/
     (exists x t, In x l /\ cand x = GVec t /\ r = GVec t /\ flt best (f t) = true /\
        forall x' t', In x' l -> cand x' = GVec t' -> flt (f t) (f t') = false)).
  Proof.
    induction l as [|x l IH]; intros best res r N E NU; simpl in E.
    - subst. split; [intros x []|]. left. split; auto. intros x t [].
    - destruct (cand x) as [t| |] eqn:Ex; try congruence.
      destruct (flt best (f t)) eqn:Eb.
      + assert (Nt : notnan (f t)) by (now apply flt_spec in Eb).
        destruct (IH _ _ _ Nt E NU) as [A B]. split.
        * intros y [<-|Hy]; eauto.
        * right. destruct B as [(B1 & B2)|(x1 & t1 & B1 & B2 & B3 & B4 & B5)].
          -- exists x, t. repeat split; auto; [now left|].
             intros x' t' [<-|Hx'] Ht'; [rewrite Ex in Ht'; injection Ht'; intros; subst; apply flt_irrefl|eauto].
          -- exists x1, t1. repeat split; auto; [now right|eapply flt_trans; eauto|].
             intros x' t' [<-|Hx'] Ht'; [|eauto].
             rewrite Ex in Ht'; injection Ht'; intros; subst. now apply flt_asym.
      + destruct (IH _ _ _ N E NU) as [A B]. split.
        * intros y [<-|Hy]; eauto.
        * destruct B as [(B1 & B2)|(x1 & t1 & B1 & B2 & B3 & B4 & B5)].
          -- left. split; auto. intros x' t' [<-|Hx'] Ht'; [|eauto].
             rewrite Ex in Ht'; injection Ht'; intros; subst. auto.
          -- right. exists x1, t1. repeat split; auto; [now right|].
             intros x' t' [<-|Hx'] Ht'; [|eauto].
             rewrite Ex in Ht'; injection Ht'; intros; subst t'.
             destruct (flt (f t1) (f t)) eqn:K; auto.
             rewrite (flt_trans _ _ _ B4 K) in Eb. discriminate.
  Qed.

  (** points explored from [cur] at [depth] *)
  Definition below (depth : nat) (cur q : vec) : Prop :=
    length q = length cur /\ firstn depth q = firstn depth cur /\ Forall (fun x => In x xs) (skipn depth q).

  Lemma set_nth_length n x v : length (set_nth n x v) = length v.
  Proof. revert n; induction v; destruct n; simpl; auto. Qed.

  Lemma set_nth_firstn n x v : firstn n (set_nth n x v) = firstn n v.
  Proof. revert n; induction v; destruct n; simpl; auto. now rewrite IHv. Qed.

  Lemma set_nth_firstn_S n x v : n < length v -> firstn (S n) (set_nth n x v) = firstn n v ++ [x].
  Proof.
    revert n; induction v; destruct n; simpl; auto; try lia. intros. f_equal.
    rewrite <- IHv by lia. reflexivity.
  Qed.

  Lemma set_nth_skipn n x v : n < length v -> skipn n (set_nth n x v) = x :: skipn (S n) v.
  Proof. revert n; induction v; destruct n; simpl; auto; try lia. intros. apply IHv. lia. Qed.

  Lemma below_last depth cur q :
    S depth = length cur -> below depth cur q -> exists x, In x xs /\ q = set_nth depth x cur.
  Proof.
    intros L (A & B & C).
    rewrite <- (firstn_skipn depth q) in *.
    assert (Lk : length (skipn depth q) = 1) by (rewrite skipn_length; rewrite (firstn_skipn depth q) in A; lia).
    rewrite (firstn_skipn depth q) in *.
    destruct (skipn depth q) as [|x [|]] eqn:Es; simpl in Lk; try lia.
    inversion C; subst. exists x. split; auto.
    rewrite <- (firstn_skipn depth q), Es, B.
    rewrite <- (firstn_skipn depth (set_nth depth x cur)).
    rewrite set_nth_firstn, set_nth_skipn by lia. f_equal. f_equal.
    symmetry. apply skipn_all2. lia.
  Qed.

  Lemma below_step depth cur q :
    depth < length cur -> below depth cur q -> exists x, In x xs /\ below (S depth) (set_nth depth x cur) q.
  Proof.
    intros L (A & B & C).
    destruct (skipn depth q) as [|x r] eqn:Es.
    - exfalso. assert (length (skipn depth q) = 0) by (now rewrite Es). rewrite skipn_length in H. lia.
    - inversion C; subst. exists x. split; auto.
      assert (Ef : firstn (S depth) q = firstn depth q ++ [x] /\ skipn (S depth) q = r).
      { clear - Es. revert q Es. induction depth as [|n IH]; intros [|y q] Es; simpl in Es; try discriminate.
        - injection Es; intros; subst. split; reflexivity.
        - destruct (IH _ Es) as [E1 E2]. split; [|exact E2].
          change (firstn (S (S n)) (y :: q)) with (y :: firstn (S n) q). rewrite E1. reflexivity. }
      destruct Ef as [E1 E2]. repeat split.
      + now rewrite set_nth_length.
      + rewrite E1, B, set_nth_firstn_S by lia. reflexivity.
      + now rewrite E2.
  Qed.

  Lemma below_step_inv depth cur x q :
    depth < length cur -> In x xs -> below (S depth) (set_nth depth x cur) q -> below depth cur q.
  Proof.
    intros L I (A & B & C). rewrite set_nth_length in A. repeat split; auto.
    - rewrite set_nth_firstn_S in B by lia.
      assert (E : firstn depth q = firstn depth (firstn (S depth) q))
        by (rewrite firstn_firstn; f_equal; lia).
      rewrite E, B. rewrite firstn_app, firstn_firstn, firstn_length.
      replace (depth - Nat.min depth (length cur)) with 0 by lia. simpl.
      rewrite app_nil_r. f_equal. lia.
    - assert (E : skipn depth q = nth depth q f0 :: skipn (S depth) q).
      { assert (Hl : depth < length q) by lia. clear - Hl. revert q Hl.
        induction depth as [|n IH]; intros [|y q] Hl; simpl in *; try lia; auto.
        apply (IH q); lia. }
      rewrite E. constructor; auto.
      rewrite set_nth_firstn_S in B by lia.
      assert (En : nth depth q f0 = x); [|now rewrite En].
      assert (nth depth (firstn (S depth) q) f0 = x).
      { rewrite B. rewrite app_nth2; rewrite firstn_length; [|lia].
        replace (depth - Nat.min depth (length cur)) with 0 by lia. reflexivity. }
      rewrite <- H. assert (Hl : depth < length q) by lia. clear - Hl. revert q Hl.
      induction depth as [|n IH]; intros [|y q] Hl; simpl in *; try lia; auto. apply (IH q). lia.
  Qed.

  Lemma f_lowest_num : notnan f_lowest.
  Proof. discriminate. Qed.

  Lemma inner_search_best d : forall depth cur t,
    depth + S d = length cur ->
    inner_search f xs d depth cur = GVec t ->
    below depth cur t /\ flt f_lowest (f t) = true /\
    forall q, below depth cur q -> flt (f t) (f q) = false.
  Proof.
    induction d as [|d IH]; intros depth cur t L E; cbn [inner_search] in E.
    - destruct (grid_scan_spec _ _ _ _ _ f_lowest_num E) as [_ [[A _]|(x & t' & Hx & Ht & Et & Hb & Hm)]];
        [discriminate|discriminate|].
      injection Et; intros; subst t'. injection Ht; intros; subst t.
      split; [|split; auto].
      + repeat split; [apply set_nth_length|apply set_nth_firstn|].
        rewrite set_nth_skipn by lia. constructor; auto.
        rewrite skipn_all2 by lia. constructor.
      + intros q Hq. destruct (below_last depth cur q) as (y & Hy & ->); auto; [lia|]. eapply Hm; eauto.
    - destruct (grid_scan_spec _ _ _ _ _ f_lowest_num E) as [Hall [[A _]|(x & t' & Hx & Ht & Et & Hb & Hm)]];
        [discriminate|discriminate|].
      injection Et; intros; subst t'.
      destruct (IH (S depth) (set_nth depth x cur) t) as (B1 & B2 & B3); auto;
        [rewrite set_nth_length; lia|].
      split; [|split; auto].
      + eapply below_step_inv; eauto. lia.
      + intros q Hq. destruct (below_step depth cur q) as (y & Hy & Hq'); auto; [lia|].
        destruct (Hall y Hy) as (t' & Ht').
        destruct (IH (S depth) (set_nth depth y cur) t') as (D1 & D2 & D3); auto;
          [rewrite set_nth_length; lia|].
        pose proof (Hm _ _ Hy Ht') as K.
        eapply nflt_trans; [|exact K|exact (D3 _ Hq')].
        now apply flt_spec in D2.
  Qed.

  Lemma below_grid cur q : below 0 cur q <-> on_grid xs (length cur) q.
  Proof. unfold below, on_grid. simpl. tauto. Qed.

  Lemma grid_search_best dim p :
    grid_search f xs dim = GVec p ->
    on_grid xs dim p /\ flt f_lowest (f p) = true /\ forall q, on_grid xs dim q -> flt (f p) (f q) = false.
  Proof.
    destruct dim as [|d]; [discriminate|]. unfold grid_search. intro E.
    apply inner_search_best in E; [|simpl; rewrite repeat_length; reflexivity].
    rewrite below_grid in E. rewrite repeat_length in E.
    destruct E as (A & B & C). repeat split; auto; try apply A.
    intros q Hq. apply C. apply below_grid. now rewrite repeat_length.
  Qed.

  (** when every line along the last dimension has an acceptable value, a vector is returned *)
  Definition lines_good (dim : nat) : Prop :=
    forall pre, S (length pre) = dim -> Forall (fun x => In x xs) pre ->
    exists x, In x xs /\ flt f_lowest (f (pre ++ [x])) = true.

  Lemma grid_scan_total cand l best res :
    (forall x, In x l -> exists t, cand x = GVec t) -> grid_scan f cand l best res <> GUB \/ res = GUB.
  Proof.
    revert best res. induction l as [|x l IH]; intros best res H; simpl.
    - destruct res; [left|left|right]; congruence.
    - destruct (H x (or_introl eq_refl)) as (t & ->).
      destruct (flt best (f t)).
      + destruct (IH (f t) (GVec t)) as [A|A]; auto; [intros; apply H; now right|discriminate].
      + apply IH. intros; apply H; now right.
  Qed.

  Lemma inner_search_total d : forall depth cur,
    depth + S d = length cur -> Forall (fun x => In x xs) (firstn depth cur) -> xs <> [] ->
    lines_good (length cur) -> exists t, inner_search f xs d depth cur = GVec t.
  Proof.
    induction d as [|d IH]; intros depth cur L P NE G; cbn [inner_search].
    - set (cand := fun x => GVec (set_nth depth x cur)).
      destruct (grid_scan_total cand xs f_lowest GUninit) as [A|A]; [intros; eexists; reflexivity| |discriminate].
      destruct (grid_scan_spec cand xs f_lowest GUninit _ f_lowest_num eq_refl A) as [_ [[B1 B2]|(x & t & _ & _ & B & _)]]; eauto.
      exfalso. destruct (G (firstn depth cur)) as (x & Hx & Hf); auto; [rewrite firstn_length; lia|].
      pose proof (B2 x _ Hx eq_refl) as K.
      assert (E : set_nth depth x cur = firstn depth cur ++ [x]).
      { rewrite <- (firstn_skipn depth (set_nth depth x cur)), set_nth_firstn, set_nth_skipn by lia.
        f_equal. f_equal. apply skipn_all2. lia. }
      rewrite E in K. congruence.
    - set (cand := fun x => inner_search f xs d (S depth) (set_nth depth x cur)).
      assert (Hc : forall x, In x xs -> exists t, cand x = GVec t).
      { intros x Hx. apply IH; auto; rewrite ?set_nth_length; auto; [lia|].
        rewrite set_nth_firstn_S by lia. apply Forall_app. split; auto. }
      destruct (grid_scan_total cand xs f_lowest GUninit) as [A|A]; [auto| |discriminate].
      destruct (grid_scan_spec cand xs f_lowest GUninit _ f_lowest_num eq_refl A) as [_ [[B1 B2]|(x & t & _ & _ & B & _)]]; eauto.
      exfalso.
      assert (Hx0 : exists x0, In x0 xs) by (clear - NE; destruct xs as [|x0 r]; [congruence|exists x0; now left]).
      destruct Hx0 as (x0 & Hx0). destruct (Hc x0 Hx0) as (t & Ht).
      pose proof (B2 x0 t Hx0 Ht) as K.
      destruct (inner_search_best d (S depth) (set_nth depth x0 cur) t) as (_ & D & _);
        [rewrite set_nth_length; lia|exact Ht|congruence].
  Qed.

  Lemma grid_search_total dim : 1 <= dim -> xs <> [] -> lines_good dim -> exists p, grid_search f xs dim = GVec p.
  Proof.
    intros D NE G. destruct dim as [|d]; [lia|]. unfold grid_search.
    apply inner_search_total; auto; [rewrite repeat_length; reflexivity|constructor|].
    now rewrite repeat_length.
  Qed.

  (** conversely, a line without any acceptable value: no vector comes back *)
  Lemma grid_search_bad_line dim p :
    grid_search f xs dim = GVec p -> lines_good dim.
  Proof.
    destruct dim as [|d]; [discriminate|]. unfold grid_search. intro E.
    assert (K : forall d depth cur t, depth + S d = length cur -> inner_search f xs d depth cur = GVec t ->
      forall pre, S (length pre) = length cur -> firstn depth pre = firstn depth cur ->
                  Forall (fun x => In x xs) (skipn depth pre) ->
                  exists x, In x xs /\ flt f_lowest (f (pre ++ [x])) = true).
    { clear. induction d as [|d IH]; intros depth cur t L E pre Lp Ep Fp; cbn [inner_search] in E.
      - destruct (grid_scan_spec _ _ _ _ _ f_lowest_num E) as [_ [[A _]|(x & t' & Hx & Ht & Et & Hb & Hm)]];
          [discriminate|discriminate|].
        exists x. split; auto. injection Ht; intros; subst t'.
        assert (Q : set_nth depth x cur = pre ++ [x]).
        { rewrite <- (firstn_skipn depth (set_nth depth x cur)), set_nth_firstn, set_nth_skipn by lia.
          rewrite <- Ep, firstn_all2 by lia. f_equal. f_equal. apply skipn_all2. lia. }
        now rewrite <- Q.
      - destruct (grid_scan_spec _ _ _ _ _ f_lowest_num E) as [Hall _]; [discriminate|].
        destruct (skipn depth pre) as [|x r] eqn:Es.
        + exfalso. assert (length (skipn depth pre) = 0) by (now rewrite Es). rewrite skipn_length in H. lia.
        + inversion Fp; subst. destruct (Hall x H1) as (t' & Ht').
          apply (IH (S depth) (set_nth depth x cur) t'); auto; rewrite ?set_nth_length; auto; [lia| |].
          * rewrite set_nth_firstn_S by lia. rewrite <- Ep.
            clear - Es. revert pre Es. induction depth as [|n IHn]; intros [|y q] Es; simpl in Es; try discriminate.
            -- injection Es; intros; subst. reflexivity.
            -- change (firstn (S (S n)) (y :: q)) with (y :: firstn (S n) q). now rewrite (IHn _ Es).
          * assert (E2 : skipn (S depth) pre = r); [|now rewrite E2].
            clear - Es. revert pre Es. induction depth as [|n IHn]; intros [|y q] Es; simpl in Es; try discriminate.
            -- injection Es; intros; subst. reflexivity.
            -- apply (IHn q Es). }
    intros pre Lp Fp. eapply (K d 0); eauto; [simpl; now rewrite repeat_length|].
    simpl. now rewrite repeat_length.
  Qed.
End GridFacts.

(** * Parallel maximum *)
Section ParMaxFacts.
  Context {T : Type}.
  Variable value : T -> F.
  Variable comp : T -> T -> bool.
  Hypothesis comp_value : forall a b, comp a b = flt (value b) (value a).
  Variable g : nat -> T.
  Variable init : T.
  Hypothesis init_num : notnan (value init).

  (** [r] is a best element among the start [a], possibly [init], and the indices of [lo, lo+n) *)
  Definition best_of (lo n : nat) (a r : T) : Prop :=
    notnan (value r) /\
    (r = a \/ r = init \/ exists i, lo <= i < lo + n /\ r = g i) /\
    flt (value r) (value a) = false /\
    (forall i, lo <= i < lo + n -> flt (value r) (value (g i)) = false).

  Lemma scan_best n : forall lo a, notnan (value a) -> best_of lo n a (scan comp g lo n a).
  Proof.
    induction n as [|n IH]; intros lo a N; cbn [scan].
    - split; [auto|split; [auto|split; [apply flt_irrefl|intros; lia]]].
    - rewrite comp_value. destruct (flt (value a) (value (g lo))) eqn:E.
      + assert (Ng : notnan (value (g lo))) by (now apply flt_spec in E).
        destruct (IH (S lo) (g lo) Ng) as (A & B & C & D).
        split; [auto|split; [|split]].
        * destruct B as [->|[->|(i & Hi & ->)]]; [right; right; exists lo; split; [lia|auto]|auto|].
          right; right. exists i. split; [lia|auto].
        * destruct (flt (value _) (value a)) eqn:K; auto.
          rewrite (flt_trans _ _ _ K E) in C. discriminate.
        * intros i Hi. destruct (Nat.eq_dec i lo) as [->|]; auto. apply D. lia.
      + destruct (IH (S lo) a N) as (A & B & C & D).
        split; [auto|split; [|split]]; auto.
        * destruct B as [B|[B|(i & Hi & B)]]; auto. right; right. exists i. split; [lia|auto].
        * intros i Hi. destruct (Nat.eq_dec i lo) as [->|]; [|apply D; lia].
          eapply nflt_trans; [exact N|exact C|exact E].
  Qed.

  Lemma reduce_best lo n a r : notnan (value a) -> reduce comp g init lo n a r -> best_of lo n a r.
  Proof.
    intros N R. induction R as [lo n a|lo n1 n2 a b c R1 IH1 R2 IH2|lo n1 n2 a b c R1 IH1 R2 IH2].
    - now apply scan_best.
    - destruct (IH1 N) as (A & B & C & D). destruct (IH2 A) as (A' & B' & C' & D').
      split; [auto|split; [|split]].
      + destruct B' as [->|[->|(i & Hi & ->)]]; auto.
        * destruct B as [->|[->|(i & Hi & ->)]]; auto. right; right. exists i; split; [lia|auto].
        * right; right. exists i; split; [lia|auto].
      + eapply nflt_trans; [exact A|exact C'|exact C].
      + intros i Hi. destruct (Nat.lt_ge_cases i (lo + n1)); [|apply D'; lia].
        eapply nflt_trans; [exact A|exact C'|apply D; lia].
    - destruct (IH1 N) as (A & B & C & D). destruct (IH2 init_num) as (A' & B' & C' & D').
      unfold joint. rewrite comp_value.
      destruct (flt (value c) (value b)) eqn:E.
      + split; [auto|split; [|split]]; auto.
        * destruct B as [->|[->|(i & Hi & ->)]]; auto. right; right. exists i; split; [lia|auto].
        * intros i Hi. destruct (Nat.lt_ge_cases i (lo + n1)); [apply D; lia|].
          eapply nflt_trans; [exact A'|apply flt_asym; exact E|apply D'; lia].
      + split; [auto|split; [|split]]; auto.
        * destruct B' as [->|[->|(i & Hi & ->)]]; auto. right; right. exists i; split; [lia|auto].
        * eapply nflt_trans; [exact A|exact E|exact C].
        * intros i Hi. destruct (Nat.lt_ge_cases i (lo + n1)); [|apply D'; lia].
          eapply nflt_trans; [exact A|exact E|apply D; lia].
  Qed.

  Lemma par_max_seq_tbb n : par_max_tbb comp g init n (par_max_seq comp g init n).
  Proof. apply red_scan. Qed.

  Lemma par_max_best n r : par_max_tbb comp g init n r ->
    (r = init \/ exists i, i < n /\ r = g i) /\ notnan (value r) /\
    flt (value r) (value init) = false /\ (forall i, i < n -> flt (value r) (value (g i)) = false).
  Proof.
    intro R. apply reduce_best in R; auto. destruct R as (A & B & C & D).
    split; [|split; [auto|split; [auto|intros; apply D; lia]]].
    destruct B as [B|[B|(i & Hi & B)]]; auto. right. exists i. split; [lia|auto].
  Qed.

  (** anything selected other than [init] is strictly better than [init] *)
  Definition init_or_better (a : T) : Prop := a = init \/ flt (value init) (value a) = true.

  Lemma scan_strict n : forall lo a, init_or_better a -> init_or_better (scan comp g lo n a).
  Proof.
    induction n as [|n IH]; intros lo a H; cbn [scan]; auto.
    apply IH. rewrite comp_value. destruct (flt (value a) (value (g lo))) eqn:E; auto.
    right. destruct H as [->|H]; auto. eapply flt_trans; eauto.
  Qed.

  Lemma reduce_strict lo n a r : reduce comp g init lo n a r -> init_or_better a -> init_or_better r.
  Proof.
    intro R. induction R; intro H; auto using scan_strict.
    unfold joint. destruct (comp b c); auto. apply IHR2. now left.
  Qed.

  Lemma par_max_strict n r : par_max_tbb comp g init n r -> init_or_better r.
  Proof. intro R. eapply reduce_strict; [exact R|now left]. Qed.

  Lemma par_max_same_value n r r' :
    par_max_tbb comp g init n r -> par_max_tbb comp g init n r' -> feq (value r) (value r') = true.
  Proof.
    intros R R'. apply par_max_best in R. apply par_max_best in R'.
    destruct R as (A & B & C & D), R' as (A' & B' & C' & D').
    apply feq_flt. split; [auto|split; [auto|split]].
    - destruct A' as [->|(i & Hi & ->)]; auto.
    - destruct A as [->|(i & Hi & ->)]; auto.
  Qed.
End ParMaxFacts.

(** * Repeater *)
Lemma repeater_best f opt eps rnd init repeats r :
  repeater f opt eps rnd init repeats r ->
  let res i := opt i (repeater_start eps rnd init i) in
  (exists i, i < repeats /\ r = res i /\ flt f_float_lowest (f r) = true /\
     forall j, j < repeats -> flt (f r) (f (res j)) = false)
  \/ (r = init /\ forall j, j < repeats -> flt f_float_lowest (f (res j)) = false).
Proof.
  intros (v & R) res.
  pose proof (par_max_best snd repeater_comp (fun a b => eq_refl) _ _
                (ltac:(simpl; discriminate) : notnan (snd (init, f_float_lowest))) _ _ R) as (A & B & C & D).
  pose proof (par_max_strict snd repeater_comp (fun a b => eq_refl) _ _ _ _ R) as S.
  simpl in B, C, D, S.
  destruct S as [S|S].
  - right. injection S; intros; subst. split; auto.
  - destruct A as [A|(i & Hi & A)].
    + injection A; intros; subst. simpl in S. rewrite flt_irrefl in S. discriminate.
    + left. unfold repeater_body in A. injection A; intros; subst. exists i. repeat split; auto.
Qed.

(** * Chained *)
Lemma chained_fold o os init : chained o os init = fold_left (fun x g => g x) (o :: os) init.
Proof. revert o init. induction os as [|o' os IH]; intros o init; simpl; auto. apply IH. Qed.
