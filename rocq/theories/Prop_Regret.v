(** C83: the regret of whole optimizer runs in double precision: all but few of the chosen samples nearly maximise
    the objective, and a bound on the sum of the losses. *)
From Coq Require Import ZArith List Bool Lia Permutation Reals Lra.
From Coq Require Import Floats.SpecFloat.
From Flocq Require Import Core IEEE754.BinarySingleNaN.
From Verif Require Import F64 F64R AdamFloat OptFloat OptModel OptSpec Prop_Opt FpModel FpErr LinAlgModel LinAlg FpAlg FpChol FpSolve FpGp FpFin Prop_Fp.
From Verif Require Import KernelModel KernelFacts FpKerModel FpKer FpKer2 Prop_FpKer FpAcqModel FpAcq Prop_FpAcq FpLip Prop_Next FpMeanModel FpHpModel FpLife FpImpl Prop_FpMean.
From Verif Require Import FpLikModel FpLik Prop_FpLik InitModel InitFacts BOModel BOSpec BOFacts Prop_BO BORun BOCount FpBand Prop_BoFp Prop_Conv Prop_Any.
From Verif Require Import AcquiModelF Prop_AcquiF.
From Verif Require Import BOLater Prop_Hp Prop_GpUcb.
Import ListNotations.
Open Scope R_scope.

(** the point [q] is worse than [w] by more than [L] *)
Definition worse (O : F64.vec -> R) (L : R) (w q : F64.vec) : bool := if Rlt_dec (O q + L) (O w) then true else false.
(** all but [n] of the points of [l] are within [L] of the value at [w], and so the losses add up to at most [n] times
    the largest loss [D] plus [L] for each point *)
Definition small_regret (O : F64.vec -> R) (L : R) (n : nat) (w : F64.vec) (l : list F64.vec) (inbox : F64.vec -> Prop) : Prop :=
  (length (filter (worse O L w) l) <= n)%nat /\
  forall D, 0 <= L -> (forall q, inbox q -> O w - O q <= D) -> lsum (fun q => O w - O q) l <= INR n * D + INR (length l) * L.

Lemma lsum_loss O L w D (l : list F64.vec) : 0 <= L -> 0 <= D -> (forall q, In q l -> O w - O q <= D) -> lsum (fun q => O w - O q) l <= INR (length (filter (worse O L w) l)) * D + INR (length l) * L.
Proof.
  intros HL HD H. induction l as [|q l IH]; [cbn; lra|]. cbn [lsum filter]. specialize (IH (fun q Hq => H q (or_intror Hq))). pose proof (H q (or_introl eq_refl)) as Hq.
  change (length (q :: l)) with (S (length l)). rewrite S_INR. unfold worse at 1. destruct (Rlt_dec (O q + L) (O w)) as [Hw|Hw]; [cbn [length]; rewrite S_INR; lra|lra].
Qed.
(** in a list of points of [R] cells, where a point is good when [k] earlier ones are in its cell *)
Lemma few_new (ky : F64.vec -> nat) (bad : F64.vec -> bool) (R k : nat) (l : list F64.vec) : (forall q, In q l -> (ky q < R)%nat) ->
  (forall l1 q l2, l = l1 ++ q :: l2 -> (k <= length (filter (fun v => (ky v =? ky q)%nat) l1))%nat -> bad q = false) -> (length (filter bad l) <= k * R)%nat.
Proof.
  intros HR H.
  assert (Cell : forall c, (length (filter (fun v => bad v && (ky v =? c)%nat) l) <= k)%nat).
  { intros c. clear HR. revert H. induction l as [|q l' IH] using rev_ind; intros H; [cbn; lia|].
    assert (IH' : (length (filter (fun v => bad v && (ky v =? c)%nat) l') <= k)%nat).
    { apply IH. intros l1 q1 l2 E. apply (H l1 q1 (l2 ++ [q])). rewrite E, <- app_assoc. reflexivity. }
    rewrite filter_app, app_length. cbn [filter]. destruct (bad q && (ky q =? c)%nat) eqn:B; [|cbn [length]; rewrite Nat.add_0_r; exact IH'].
    apply andb_prop in B. destruct B as (B1 & B2). apply Nat.eqb_eq in B2. destruct (Nat.le_gt_cases k (length (filter (fun v => (ky v =? ky q)%nat) l'))) as [Le|Gt].
    - rewrite (H l' q [] eq_refl Le) in B1. discriminate.
    - cbn [length]. assert (Q : (length (filter (fun v => bad v && (ky v =? c)%nat) l') <= length (filter (fun v => (ky v =? ky q)%nat) l'))%nat).
      { rewrite B2. clear. induction l' as [|a l' IH]; [cbn; lia|]. cbn [filter]. destruct (bad a), (ky a =? c)%nat; cbn [andb length]; lia. }
      lia. }
  assert (Sum : forall n, (length (filter (fun v => bad v && (ky v <? n)%nat) l) <= k * n)%nat).
  { induction n as [|n IH].
    - replace (filter _ l) with (@nil F64.vec); [cbn; lia|]. symmetry. clear. induction l as [|a l IH]; [reflexivity|]. cbn [filter]. rewrite IH. now rewrite andb_false_r.
    - specialize (Cell n). assert (Q : length (filter (fun v => bad v && (ky v <? S n)%nat) l) = (length (filter (fun v => bad v && (ky v <? n)%nat) l) + length (filter (fun v => bad v && (ky v =? n)%nat) l))%nat).
      { clear. induction l as [|a l IH]; [reflexivity|]. cbn [filter]. destruct (bad a); cbn [andb]; [|exact IH].
        destruct (Nat.ltb_spec (ky a) (S n)), (Nat.ltb_spec (ky a) n), (Nat.eqb_spec (ky a) n); cbn [length]; try lia. }
      rewrite Q. lia. }
  specialize (Sum R). replace (filter bad l) with (filter (fun v => bad v && (ky v <? R)%nat) l); [exact Sum|].
  apply filter_ext_in. intros v Hv. apply HR in Hv. apply Nat.ltb_lt in Hv. now rewrite Hv, andb_true_r.
Qed.
Lemma few_revisit (bad : F64.vec -> bool) (l P : list F64.vec) k : incl l P ->
  (forall l1 q l2, l = l1 ++ q :: l2 -> (k <= count_occ vec_dec l1 q)%nat -> bad q = false) -> (length (filter bad l) <= k * length P)%nat.
Proof.
  intros HP H.
  assert (Occ : forall p, (count_occ vec_dec (filter bad l) p <= k)%nat).
  { intros p. clear HP. revert H. induction l as [|q l' IH] using rev_ind; intros H; [cbn; lia|].
    assert (IH' : (count_occ vec_dec (filter bad l') p <= k)%nat).
    { apply IH. intros l1 q1 l2 E. apply (H l1 q1 (l2 ++ [q])). rewrite E, <- app_assoc. reflexivity. }
    rewrite filter_app, count_occ_app. cbn [filter]. destruct (bad q) eqn:B; [|cbn [count_occ]; rewrite Nat.add_0_r; exact IH'].
    cbn [count_occ]. destruct (vec_dec q p) as [->|]; [|rewrite Nat.add_0_r; exact IH'].
    destruct (Nat.le_gt_cases k (count_occ vec_dec l' p)) as [Le|Gt]; [rewrite (H l' p [] eq_refl Le) in B; discriminate|].
    assert (Q : (count_occ vec_dec (filter bad l') p <= count_occ vec_dec l' p)%nat).
    { clear. induction l' as [|a l' IH]; [cbn; lia|]. cbn [filter]. destruct (bad a); cbn [count_occ]; destruct (vec_dec a p); lia. }
    lia. }
  assert (HP' : incl (filter bad l) P) by (intros q Hq; apply filter_In in Hq; now apply HP).
  destruct (occ_sum (filter bad l) P HP') as (p & [(_ & Hp)|E]); [|rewrite E; cbn; lia].
  apply Nat.le_trans with (1 := Hp). rewrite Nat.mul_comm. apply Nat.mul_le_mono_r, Occ.
Qed.

Section Runs.
  Context {W E T : Type}.
  Variables (fexp : F -> F) (mk d : nat) (par : T -> hyper) (m : nat) (mf : meanf) (M lam : R).
  Notation vec := F64.vec.
  Notation mdl := (T * fgp)%type.
  Notation sf2 t := (hy_sf2 (par t)).
  Notation noise t := (hy_noise (par t)).
  Notation kp t := (hy_p (par t)).
  Variable sfun : W -> vec -> (vec + E) * W.
  Variable m_fresh : mdl.
  Variable m_compute : W -> mdl -> list vec -> list vec -> mdl * W.
  Variable m_add : W -> mdl -> vec -> vec -> mdl * W.
  Variable m_hp : W -> mdl -> mdl * W.
  Variable acq : W -> mdl -> Z -> vec * W.
  Variable init_n : nat.
  Variable init_pt : nat -> W -> vec * W.
  Variable hp_period : Z.
  Notation run := (run_ops sfun m_fresh m_compute m_add m_hp acq init_n init_pt hp_period).
  Notation life t := (gp_life fexp mk (sf2 t) (noise t) (kp t) m mf).
  (** UCB, any nearly maximising inner optimizer, learnt hyper-parameters: of the points chosen since the last reset,
      at most [k * r^d] are worse than any point of the box by more than [Lo + 2 del]. *)
  Theorem C83_regret : forall alpha O (Lam : T -> R) del eps zeta Lo cs os g0 w s r k,
    (forall t, gp_setting fexp mk d (sf2 t) (noise t) (kp t) m mf M lam) -> fixed mf -> dbl (2 ^ 20) alpha -> 0 <= eps ->
    (forall t, exists h, norm_le d (sf2 t) (kp t) h (Lam t) /\ forall v, point d v -> Rabs (O v - objective (sf2 t) (kp t) (prior mf []) h v) <= del) ->
    runs_hgp fexp mk d par m mf M m_fresh m_compute m_add m_hp -> runs_hinner fexp mk d par m mf M acq (fun t => computes_ucb fexp mk d (sf2 t) (noise t) (kp t) m alpha) zeta ->
    objective_ok d sfun (measured d M eps O) -> (forall i w, point d (fst (init_pt i w))) -> List.Forall (op_ok d (measured d M eps O)) os ->
    run cs os (new_bo g0 w) = Some s -> (length (samples s) <= 1000)%nat ->
    (forall t, Lam t + sqrt (INR (length (samples s)) / nugget (noise t)) * (eps + del) <= fval alpha /\
       any_loss alpha (sf2 t) (noise t) (kp t) (length (samples s)) d m M lam r k zeta <= Lo) ->
    (1 <= r)%nat -> (1 <= k)%nat ->
    forall v, box d v -> small_regret O (Lo + 2 * del) (k * r ^ d) v (picks (trace s)) (box d).
  Proof.
    intros alpha H Lam del eps zeta Lo cs os g0 w s r k HS Hfix HA He Hh HG HQ HO HI Hops Hrun Hlen Hal Hr Hk z0 Hz0.
    set (Ok := measured d M eps H) in *. assert (HOk : forall x y, Ok x y -> datum d M x y) by (intros x y O; apply O).
    destruct (run_hyper fexp mk d par m mf M sfun m_fresh m_compute m_add m_hp acq init_n init_pt hp_period Ok (fun g X _ q => box d q /\ (X <> [] -> exists f, computes_ucb fexp mk d (sf2 (fst g)) (noise (fst g)) (kp (fst g)) m alpha (snd g) f /\ forall v, box d v -> fval (f v) <= fval (f q) + zeta))
      cs os g0 w s HOk HG) as ((DL & HD) & HS2); auto.
    { intros w1 g c xs ys HL Hd. destruct (HQ w1 g c xs ys HL Hd) as (B1 & B2). split; [now apply box_point|]. auto. }
    specialize (HD Hlen).
    destruct (run_counted sfun m_fresh m_compute m_add m_hp acq init_n init_pt hp_period cs os g0 w s Hrun) as (CA & CB & CC & CD).
    (* every completed iteration *)
    assert (Pick : forall xs0, In xs0 (stats (trace s)) -> exists X Y g c q, xs0 = X ++ [q] /\ (length X <= length (samples s))%nat /\ List.Forall2 Ok X Y /\
      life (fst g) X (firsts Y) (snd g) /\ box d q /\
      (X <> [] -> exists f, computes_ucb fexp mk d (sf2 (fst g)) (noise (fst g)) (kp (fst g)) m alpha (snd g) f /\ forall v, box d v -> fval (f v) <= fval (f q) + zeta) /\ In (EvAcq X Y g c q) (trace s)).
    { intros xs0 Hin. destruct (CA xs0 Hin) as (rr & Er). destruct (CD xs0 Hin) as (X & Y & g & c & q & -> & Ha).
      assert (Lx : (length X <= length (samples s))%nat) by (rewrite Er, !app_length; lia).
      destruct (HS2 X Y g c q Ha (Nat.le_trans _ _ _ Lx Hlen)) as (F1 & F2 & _ & F3 & F4).
      exists X, Y, g, c, q. auto 10. }
    assert (Bp : forall q, In q (picks (trace s)) -> box d q).
    { intros q Hq. apply in_map_iff in Hq. destruct Hq as (xs0 & <- & Hq). destruct (Pick xs0 Hq) as (X & Y & g & c & q & -> & _ & _ & _ & Gq & _). now rewrite last_last. }
    enough (Few : (length (filter (worse H (Lo + 2 * del) z0) (picks (trace s))) <= k * r ^ d)%nat).
    { split; [exact Few|]. intros D L0 HD'. assert (Dp : 0 <= D) by (specialize (HD' z0 Hz0); lra).
      apply Rle_trans with (1 := lsum_loss H (Lo + 2 * del) z0 D (picks (trace s)) L0 Dp (fun q Hq => HD' q (Bp q Hq))).
      apply Rplus_le_compat_r, Rmult_le_compat_r; [exact Dp|]. apply le_INR. exact Few. }
    apply few_new with (key r).
    { intros q Hq. destruct (Bp q Hq) as (<- & _). now apply key_lt. }
    intros l1 q l2 El Hocc.
    assert (B1 : forall v, In v l1 -> box d v) by (intros v Hv; apply Bp; rewrite El; apply in_or_app; now left).
    unfold picks in El. destruct (map_eq_app _ _ _ _ El) as (L1 & LL & ES & El1 & El2). destruct LL as [|xs0 L2]; [discriminate|]. cbn [map] in El2. injection El2 as Eq _.
    assert (Hin : In xs0 (stats (trace s))) by (rewrite ES; apply in_elt).
    destruct (Pick xs0 Hin) as (X & Y & g & c & q' & -> & Lx & FX & Lf & Bq & Fc & Ha). rewrite last_last in Eq. subst q'.
    set (inb := fun v : vec => (length v =? d)%nat && forallb (fun a => if Rle_dec 0 (fval a) then if Rle_dec (fval a) 1 then true else false else false) v).
    set (b := fun v : vec => inb v && (key r v =? key r q)%nat).
    assert (Ko : (k <= length (filter b X))%nat).
    { apply Nat.le_trans with (1 := Hocc). apply Nat.le_trans with (length (filter b l1)).
      - apply Nat.eq_le_incl. f_equal. apply filter_ext_in. intros v Hv. unfold b. replace (inb v) with true; [reflexivity|]. symmetry.
        destruct (B1 v Hv) as (V1 & V2). unfold inb. rewrite V1, Nat.eqb_refl. apply forallb_forall. intros a Ia. destruct (V2 a Ia) as (_ & _ & A1 & A2).
        destruct (Rle_dec 0 (fval a)); [|contradiction]. destruct (Rle_dec (fval a) 1); [reflexivity|contradiction].
      - apply occ_filter. intros v. pose proof (CC L1 _ L2 ES v) as Oc. rewrite removelast_last in Oc. rewrite <- El1. exact Oc. }
    assert (Xn : X <> []) by (intros ->; cbn in Ko; lia).
    destruct (Fc Xn) as (f & Hf & Hmax).
    assert (Fd : List.Forall2 (datum d M) X Y) by (clear - FX HOk; induction FX; constructor; auto).
    destruct (datum_points d M X Y Fd) as (Px & Py).
    assert (Ln : (0 < length X <= 1000)%nat) by (split; [destruct X; [congruence|cbn; lia]|exact (Nat.le_trans _ _ _ Lx Hlen)]).
    assert (Hobs : forall i, (i < length X)%nat -> Rabs (fval (nth i (firsts Y) f0) - H (ptsf X i)) <= eps).
    { assert (Q : forall dd i, (i < length X)%nat -> Rabs (fval (nth i (firsts Y) f0) - H (nth i X dd)) <= eps); [|intros i Hi; now apply Q].
      clear - FX. induction FX as [|x y X Y O _ IH]; intros dd i Hi; [cbn in Hi; lia|]. destruct i as [|i]; cbn [firsts map nth]; [apply O|]. apply IH. cbn in Hi. lia. }
    assert (Nb : forall x, In x X -> b x = true -> near_pt (/ INR r) x q).
    { intros x Ix Hb. unfold b, inb in Hb. apply andb_prop in Hb. destruct Hb as (Hb & Hkq). apply andb_prop in Hb. destruct Hb as (L1' & Fb).
      apply Nat.eqb_eq in L1', Hkq. rewrite forallb_forall in Fb. rewrite List.Forall_forall in Px. destruct (Px x Ix) as (_ & Px2).
      apply key_near with d; auto. split; auto. intros a Ia. destruct (Px2 a Ia) as (A1 & A2 & _). specialize (Fb a Ia).
      destruct (Rle_dec 0 (fval a)); [|discriminate]. destruct (Rle_dec (fval a) 1); [|discriminate]. auto. }
    set (t := fst g) in *. destruct (Hh t) as (h & Hno & Hap). destruct (Hal t) as (Hal1 & Hal2).
    assert (D0 : 0 <= del) by (apply Rle_trans with (2 := Hap q (box_point d q Bq)); apply Rabs_pos).
    assert (Hobs' : forall i, (i < length X)%nat -> Rabs (fval (nth i (firsts Y) f0) - objective (sf2 t) (kp t) (prior mf []) h (ptsf X i)) <= eps + del).
    { intros i Hi. pose proof (Hobs i Hi) as O1. assert (Pi : point d (ptsf X i)) by (rewrite List.Forall_forall in Px; apply Px; unfold ptsf; now apply nth_In).
      pose proof (Hap _ Pi) as O2. apply Rabs_le_inv in O1, O2. apply Rabs_le. lra. }
    pose proof (any_regret fexp mk d (sf2 t) (noise t) (kp t) m mf M lam (HS t) X (firsts Y) (snd g) Lf Ln Px Py Hfix h (Lam t) (eps + del) alpha (length (samples s)) Hno ltac:(lra) Hobs' Lx HA Hal1
      f q b r k zeta Hf Bq Hmax Hr Nb (conj Hk Ko)) as Rg.
    specialize (Rg z0 Hz0). pose proof (Hap z0 (box_point d z0 Hz0)) as T1. pose proof (Hap q (box_point d q Bq)) as T2. apply Rabs_le_inv in T1, T2.
    unfold worse. destruct (Rlt_dec (H q + (Lo + 2 * del)) (H z0)) as [Hw|]; [exfalso; lra|reflexivity].
  Qed.

  (** GP-UCB: the same of the points chosen in iterations that were not the first of their call *)
  Variables (fpow : F -> F -> F) (flog : F -> F) (delta : F).
  Notation beta c := (gp_ucb_beta_F fpow flog delta (Z.of_nat d) c).
  Theorem C83_gp_ucb : forall O (Lam : T -> R) del eps zeta Lo cs os g0 w s r k,
    (forall t, gp_setting fexp mk d (sf2 t) (noise t) (kp t) m mf M lam) -> fixed mf -> 0 <= eps ->
    libm_pow fpow -> libm_log (fun x y => y = flog x) (/ 2 ^ 50) -> fvalid delta -> ffin delta -> / 2 ^ 20 <= fval delta <= 1 -> (d <= 64)%nat ->
    (forall t, exists h, norm_le d (sf2 t) (kp t) h (Lam t) /\ forall v, point d v -> Rabs (O v - objective (sf2 t) (kp t) (prior mf []) h v) <= del) ->
    runs_hgp fexp mk d par m mf M m_fresh m_compute m_add m_hp -> runs_gpucb fexp mk d par m mf M fpow flog delta acq zeta ->
    objective_ok d sfun (measured d M eps O) -> (forall i w, point d (fst (init_pt i w))) -> List.Forall (op_ok d (measured d M eps O)) os ->
    run cs os (new_bo g0 w) = Some s -> (length (samples s) <= 1000)%nat ->
    (forall t, Lam t + sqrt (INR (length (samples s)) / nugget (noise t)) * (eps + del) + 2 / 10 ^ 9 <= gp_weight (fval delta) d 1 /\
       gp_loss (gp_weight (fval delta) d (Z.of_nat (length (samples s))) + 2 / 10 ^ 9) (sf2 t) (noise t) (kp t) (length (samples s)) d m M lam r k zeta <= Lo) ->
    (1 <= r)%nat -> (1 <= k)%nat ->
    forall v, box d v -> small_regret O (Lo + 2 * del) (k * r ^ d) v (map (fun xs : list vec => last xs []) (later (trace s))) (box d).
  Proof.
    intros H Lam del eps zeta Lo cs os g0 w s r k HS Hfix He Hpow Hlog Vd Fd Rd Hd64 Hh HG HQ HO HI Hops Hrun Hlen Hal Hr Hk z0 Hz0.
    set (Ok := measured d M eps H) in *. assert (HOk : forall x y, Ok x y -> datum d M x y) by (intros x y O; apply O).
    destruct (run_hyper fexp mk d par m mf M sfun m_fresh m_compute m_add m_hp acq init_n init_pt hp_period Ok (fun g X c q => box d q /\ ((1 <= c <= Z.of_nat (length X))%Z ->
      exists f, computes_ucb fexp mk d (sf2 (fst g)) (noise (fst g)) (kp (fst g)) m (beta c) (snd g) f /\ forall v, box d v -> fval (f v) <= fval (f q) + zeta))
      cs os g0 w s HOk HG) as ((DL & HD) & HS2); auto.
    { intros w1 g c xs ys HL Hd. destruct (HQ w1 g c xs ys HL Hd) as (B1 & B2). split; [now apply box_point|]. auto. }
    specialize (HD Hlen).
    destruct (run_later sfun m_fresh m_compute m_add m_hp acq init_n init_pt hp_period cs os g0 w s Hrun) as ((CA & CB & CC & CD) & Cnt).
    set (L := later (trace s)) in *. set (pk := map (fun xs : list vec => last xs []) L).
    (* every completed iteration but the first ones *)
    assert (Pick : forall xs0, In xs0 L -> exists X Y g c q, xs0 = X ++ [q] /\ (1 <= c <= Z.of_nat (length X))%Z /\ (length X <= length (samples s))%nat /\ List.Forall2 Ok X Y /\
      life (fst g) X (firsts Y) (snd g) /\ box d q /\
      (exists f, computes_ucb fexp mk d (sf2 (fst g)) (noise (fst g)) (kp (fst g)) m (beta c) (snd g) f /\ forall v, box d v -> fval (f v) <= fval (f q) + zeta)).
    { intros xs0 Hin. destruct (CA xs0 Hin) as (rr & Er). destruct (CD xs0 Hin) as (X & Y & g & c & q & -> & Ha & Hc).
      assert (Lx : (length X <= length (samples s))%nat) by (rewrite Er, !app_length; lia).
      destruct (HS2 X Y g c q Ha (Nat.le_trans _ _ _ Lx Hlen)) as (F1 & F2 & _ & F3 & F4).
      exists X, Y, g, c, q. auto 10. }
    assert (Bp : forall q, In q pk -> box d q).
    { intros q Hq. apply in_map_iff in Hq. destruct Hq as (xs0 & <- & Hq). destruct (Pick xs0 Hq) as (X & Y & g & c & q & -> & _ & _ & _ & _ & Gq & _). now rewrite last_last. }
    enough (Few : (length (filter (worse H (Lo + 2 * del) z0) pk) <= k * r ^ d)%nat).
    { split; [exact Few|]. intros D L0 HD'. assert (Dp : 0 <= D) by (specialize (HD' z0 Hz0); lra).
      apply Rle_trans with (1 := lsum_loss H (Lo + 2 * del) z0 D pk L0 Dp (fun q Hq => HD' q (Bp q Hq))).
      apply Rplus_le_compat_r, Rmult_le_compat_r; [exact Dp|]. apply le_INR. exact Few. }
    apply few_new with (key r).
    { intros q Hq. destruct (Bp q Hq) as (<- & _). now apply key_lt. }
    intros l1 q l2 El Hocc.
    assert (B1 : forall v, In v l1 -> box d v) by (intros v Hv; apply Bp; rewrite El; apply in_or_app; now left).
    unfold pk in El. destruct (map_eq_app _ _ _ _ El) as (L1 & LL & ES & El1 & El2). destruct LL as [|xs0 L2]; [discriminate|]. cbn [map] in El2. injection El2 as Eq _.
    assert (Hin : In xs0 L) by (rewrite ES; apply in_elt).
    destruct (Pick xs0 Hin) as (X & Y & g & c & q' & -> & Rc & Lx & FX & Lf & Bq & f & Hf & Hmax). rewrite last_last in Eq. subst q'.
    set (inb := fun v : vec => (length v =? d)%nat && forallb (fun a => if Rle_dec 0 (fval a) then if Rle_dec (fval a) 1 then true else false else false) v).
    set (b := fun v : vec => inb v && (key r v =? key r q)%nat).
    assert (Ko : (k <= length (filter b X))%nat).
    { apply Nat.le_trans with (1 := Hocc). apply Nat.le_trans with (length (filter b l1)).
      - apply Nat.eq_le_incl. f_equal. apply filter_ext_in. intros v Hv. unfold b. replace (inb v) with true; [reflexivity|]. symmetry.
        destruct (B1 v Hv) as (V1 & V2). unfold inb. rewrite V1, Nat.eqb_refl. apply forallb_forall. intros a Ia. destruct (V2 a Ia) as (_ & _ & A1 & A2).
        destruct (Rle_dec 0 (fval a)); [|contradiction]. destruct (Rle_dec (fval a) 1); [reflexivity|contradiction].
      - apply occ_filter. intros v. pose proof (CC L1 _ L2 ES v) as Oc. rewrite removelast_last in Oc. rewrite <- El1. exact Oc. }
    assert (Xn : X <> []) by (intros ->; cbn in Ko; lia).
    assert (Fdd : List.Forall2 (datum d M) X Y) by (clear - FX HOk; induction FX; constructor; auto).
    destruct (datum_points d M X Y Fdd) as (Px & Py).
    assert (Ln : (0 < length X <= 1000)%nat) by (split; [destruct X; [congruence|cbn; lia]|exact (Nat.le_trans _ _ _ Lx Hlen)]).
    assert (Hobs : forall i, (i < length X)%nat -> Rabs (fval (nth i (firsts Y) f0) - H (ptsf X i)) <= eps).
    { assert (Q : forall dd i, (i < length X)%nat -> Rabs (fval (nth i (firsts Y) f0) - H (nth i X dd)) <= eps); [|intros i Hi; now apply Q].
      clear - FX. induction FX as [|x y X Y O _ IH]; intros dd i Hi; [cbn in Hi; lia|]. destruct i as [|i]; cbn [firsts map nth]; [apply O|]. apply IH. cbn in Hi. lia. }
    assert (Nb : forall x, In x X -> b x = true -> near_pt (/ INR r) x q).
    { intros x Ix Hb. unfold b, inb in Hb. apply andb_prop in Hb. destruct Hb as (Hb & Hkq). apply andb_prop in Hb. destruct Hb as (L1' & Fb).
      apply Nat.eqb_eq in L1', Hkq. rewrite forallb_forall in Fb. rewrite List.Forall_forall in Px. destruct (Px x Ix) as (_ & Px2).
      apply key_near with d; auto. split; auto. intros a Ia. destruct (Px2 a Ia) as (A1 & A2 & _). specialize (Fb a Ia).
      destruct (Rle_dec 0 (fval a)); [|discriminate]. destruct (Rle_dec (fval a) 1); [|discriminate]. auto. }
    set (t := fst g) in *. destruct (Hh t) as (h & Hno & Hap). destruct (Hal t) as (Hal1 & Hal2).
    assert (D0 : 0 <= del) by (apply Rle_trans with (2 := Hap q (box_point d q Bq)); apply Rabs_pos).
    assert (Hobs' : forall i, (i < length X)%nat -> Rabs (fval (nth i (firsts Y) f0) - objective (sf2 t) (kp t) (prior mf []) h (ptsf X i)) <= eps + del).
    { intros i Hi. pose proof (Hobs i Hi) as O1. assert (Pi : point d (ptsf X i)) by (rewrite List.Forall_forall in Px; apply Px; unfold ptsf; now apply nth_In).
      pose proof (Hap _ Pi) as O2. apply Rabs_le_inv in O1, O2. apply Rabs_le. lra. }
    (* the weight *)
    assert (Cl : (c <= Z.of_nat (length (samples s)))%Z) by (apply Z.le_trans with (1 := proj2 Rc); apply inj_le; exact Lx).
    assert (C3 : (c <= 1000)%Z) by (apply Z.le_trans with (1 := Cl); change 1000%Z with (Z.of_nat 1000); apply inj_le; exact Hlen).
    assert (C1 : (1 <= c)%Z) by apply Rc.
    destruct (C82_weight fpow flog delta d c Hpow Hlog Vd Fd Rd Hd64 ltac:(lia)) as (Vb & Fb & Eb & Wb1 & Wb2).
    assert (P20 : 0 < / 2 ^ 20) by (apply Rinv_0_lt_compat, pow_lt; lra).
    pose proof (weight_mono (fval delta) d 1 c ltac:(lra) ltac:(lia)) as M1. pose proof (weight_mono (fval delta) d c (Z.of_nat (length (samples s))) ltac:(lra) (conj C1 Cl)) as M2.
    apply Rabs_le_inv in Eb. pose proof (sqrt_pos 2) as Q2.
    assert (HA : dbl (2 ^ 20) (beta c)). { split; auto. split; auto. apply Rabs_le. lra. }
    assert (Hal3 : Lam t + sqrt (INR (length (samples s)) / nugget (noise t)) * (eps + del) <= fval (beta c)) by lra.
    pose proof (any_regret fexp mk d (sf2 t) (noise t) (kp t) m mf M lam (HS t) X (firsts Y) (snd g) Lf Ln Px Py Hfix h (Lam t) (eps + del) (beta c) (length (samples s)) Hno ltac:(lra) Hobs' Lx HA Hal3
      f q b r k zeta Hf Bq Hmax Hr Nb (conj Hk Ko)) as Rg.
    pose proof (any_gp_loss (beta c) (gp_weight (fval delta) d (Z.of_nat (length (samples s))) + 2 / 10 ^ 9) (sf2 t) (noise t) (kp t) (length (samples s)) d m M lam r k zeta ltac:(lra)) as Lg.
    specialize (Rg z0 Hz0). pose proof (Hap z0 (box_point d z0 Hz0)) as T1. pose proof (Hap q (box_point d q Bq)) as T2. apply Rabs_le_inv in T1, T2.
    unfold worse. destruct (Rlt_dec (H q + (Lo + 2 * del)) (H z0)) as [Hw|]; [exfalso; lra|reflexivity].
  Qed.

  (** UCB and GridSearch *)
  Variables (bins : Z) (fuel : nat).
  Theorem C83_grid_regret : forall alpha O (Lam : T -> R) del eps Lo cs os g0 w s grid k,
    (forall t, setting_ok fexp mk d (sf2 t) (noise t) (kp t) m mf M lam bins fuel) -> fixed mf -> dbl (2 ^ 20) alpha -> 0 <= eps ->
    (forall t, exists h, norm_le d (sf2 t) (kp t) h (Lam t) /\ forall v, point d v -> Rabs (O v - objective (sf2 t) (kp t) (prior mf []) h v) <= del) ->
    runs_hgp fexp mk d par m mf M m_fresh m_compute m_add m_hp -> runs_hgrid fexp mk d par m mf M bins fuel acq (fun t => computes_ucb fexp mk d (sf2 t) (noise t) (kp t) m alpha) ->
    objective_ok d sfun (measured d M eps O) -> (forall i w, point d (fst (init_pt i w))) -> List.Forall (op_ok d (measured d M eps O)) os ->
    run cs os (new_bo g0 w) = Some s -> (length (samples s) <= 1000)%nat ->
    (forall t, Lam t + sqrt (INR (length (samples s)) / nugget (noise t)) * (eps + del) <= fval alpha /\
       conv_loss alpha (sf2 t) (noise t) (kp t) (length (samples s)) d m M (Lam t) bins lam k <= Lo) ->
    grid_search_xs fuel bins = Some grid -> (1 <= k)%nat ->
    forall v, box d v -> small_regret O (Lo + 2 * del) (k * length grid ^ d) v (picks (trace s)) (point d).
  Proof.
    intros alpha H Lam del eps Lo cs os g0 w s grid k HS Hfix HA He Hh HG HQ HO HI Hops Hrun Hlen Hal Hgrid Hk z0 Hz0.
    destruct (HS (fst g0)) as (_ & _ & _ & _ & _ & _ & _ & Hd & Hb & Hfu).
    set (Ok := measured d M eps H) in *. assert (HOk : forall x y, Ok x y -> datum d M x y) by (intros x y O; apply O).
    destruct (run_hyper fexp mk d par m mf M sfun m_fresh m_compute m_add m_hp acq init_n init_pt hp_period Ok (fun g X _ q => exists f, (X <> [] -> computes_ucb fexp mk d (sf2 (fst g)) (noise (fst g)) (kp (fst g)) m alpha (snd g) f) /\
      exists grid, grid_search_xs fuel bins = Some grid /\ grid_search f grid d = GVec q) cs os g0 w s HOk HG) as ((DL & HD) & HS2); auto.
    { intros w1 g c xs ys HL Hdt. destruct (HQ w1 g c xs ys HL Hdt) as (f & Hf & gr & G1 & G2). split; [exact (grid_pt d bins fuel f gr _ Hb Hfu G1 G2)|]. exists f. split; auto. exists gr. auto. }
    specialize (HD Hlen).
    destruct (run_counted sfun m_fresh m_compute m_add m_hp acq init_n init_pt hp_period cs os g0 w s Hrun) as (CA & CB & CC & CD).
    (* every completed iteration *)
    assert (Pick : forall xs0, In xs0 (stats (trace s)) -> exists X Y g c q f, xs0 = X ++ [q] /\ (length X <= length (samples s))%nat /\ List.Forall2 Ok X Y /\
      life (fst g) X (firsts Y) (snd g) /\ (X <> [] -> computes_ucb fexp mk d (sf2 (fst g)) (noise (fst g)) (kp (fst g)) m alpha (snd g) f) /\ grid_search f grid d = GVec q /\ In (EvAcq X Y g c q) (trace s)).
    { intros xs0 Hin. destruct (CA xs0 Hin) as (r & Er). destruct (CD xs0 Hin) as (X & Y & g & c & q & -> & Ha).
      assert (Lx : (length X <= length (samples s))%nat) by (rewrite Er, !app_length; lia).
      destruct (HS2 X Y g c q Ha (Nat.le_trans _ _ _ Lx Hlen)) as (F1 & F2 & _ & f & F3 & gr & G1 & G2). rewrite Hgrid in G1. injection G1 as <-.
      exists X, Y, g, c, q, f. auto 10. }
    destruct (grid_sampling grid d) as [P|] eqn:EP; [|exfalso; clear - EP Hd; destruct d; [lia|discriminate]].
    destruct (grid_sampling_spec grid d P EP) as (P1 & _ & P3).
    assert (Hinc : incl (picks (trace s)) P).
    { intros q Hq. apply in_map_iff in Hq. destruct Hq as (xs0 & <- & Hq). destruct (Pick xs0 Hq) as (X & Y & g & c & q & f & -> & _ & _ & _ & _ & Gq & _).
      rewrite last_last. apply P1. now destruct (C15_grid_search_best f grid d q Gq) as (Q & _). }
    assert (Bp : forall q, In q (picks (trace s)) -> point d q).
    { intros q Hq. apply in_map_iff in Hq. destruct Hq as (xs0 & <- & Hq). destruct (Pick xs0 Hq) as (X & Y & g & c & q & f & -> & Lx & _ & _ & _ & _ & Ha).
      rewrite last_last. apply (HS2 X Y g c q Ha (Nat.le_trans _ _ _ Lx Hlen)). }
    enough (Few : (length (filter (worse H (Lo + 2 * del) z0) (picks (trace s))) <= k * length grid ^ d)%nat).
    { split; [exact Few|]. intros D L0 HD'. assert (Dp : 0 <= D) by (specialize (HD' z0 (box_point d z0 Hz0)); lra).
      apply Rle_trans with (1 := lsum_loss H (Lo + 2 * del) z0 D (picks (trace s)) L0 Dp (fun q Hq => HD' q (Bp q Hq))).
      apply Rplus_le_compat_r, Rmult_le_compat_r; [exact Dp|]. apply le_INR. exact Few. }
    rewrite <- P3. apply (few_revisit _ _ P k Hinc). intros l1 q l2 El Hocc.
    unfold picks in El. destruct (map_eq_app _ _ _ _ El) as (L1 & LL & ES & El1 & El2). destruct LL as [|xs0 L2]; [discriminate|]. cbn [map] in El2. injection El2 as Eq _.
    assert (Hin : In xs0 (stats (trace s))) by (rewrite ES; apply in_elt).
    destruct (Pick xs0 Hin) as (X & Y & g & c & q' & f & -> & Lx & FX & Lf & Fc & Gq & Ha). rewrite last_last in Eq. subst q'.
    pose proof (CC L1 _ L2 ES q) as Oc. rewrite removelast_last in Oc.
    assert (Ko : (k <= count_occ vec_dec X q)%nat) by (apply Nat.le_trans with (2 := Oc); rewrite <- El1 in Hocc; exact Hocc).
    assert (Xn : X <> []) by (intros ->; cbn in Ko; lia).
    assert (Fd : List.Forall2 (datum d M) X Y) by (clear - FX HOk; induction FX; constructor; auto).
    destruct (datum_points d M X Y Fd) as (Px & Py).
    assert (Ln : (0 < length X <= 1000)%nat) by (split; [destruct X; [congruence|cbn; lia]|exact (Nat.le_trans _ _ _ Lx Hlen)]).
    assert (Hobs : forall i, (i < length X)%nat -> Rabs (fval (nth i (firsts Y) f0) - H (ptsf X i)) <= eps).
    { assert (Q : forall dd i, (i < length X)%nat -> Rabs (fval (nth i (firsts Y) f0) - H (nth i X dd)) <= eps); [|intros i Hi; now apply Q].
      clear - FX. induction FX as [|x y X Y O _ IH]; intros dd i Hi; [cbn in Hi; lia|]. destruct i as [|i]; cbn [firsts map nth]; [apply O|]. apply IH. cbn in Hi. lia. }
    set (t := fst g) in *. destruct (Hh t) as (h & Hno & Hap). destruct (Hal t) as (Hal1 & Hal2).
    assert (Pq : point d q) by (destruct (HS2 X Y g c q Ha (proj2 Ln)) as (_ & _ & Pq & _); exact Pq).
    assert (D0 : 0 <= del) by (apply Rle_trans with (2 := Hap q Pq); apply Rabs_pos).
    assert (Hobs' : forall i, (i < length X)%nat -> Rabs (fval (nth i (firsts Y) f0) - objective (sf2 t) (kp t) (prior mf []) h (ptsf X i)) <= eps + del).
    { intros i Hi. pose proof (Hobs i Hi) as O1. assert (Pi : point d (ptsf X i)) by (rewrite List.Forall_forall in Px; apply Px; unfold ptsf; now apply nth_In).
      pose proof (Hap _ Pi) as O2. apply Rabs_le_inv in O1, O2. apply Rabs_le. lra. }
    pose proof (step_regret fexp mk d (sf2 t) (noise t) (kp t) m mf M lam bins fuel (HS t) X (firsts Y) (snd g) Lf Ln Px Py Hfix h (Lam t) (eps + del) alpha (length (samples s)) Hno ltac:(lra) Hobs' Lx HA Hal1
      f q k (Fc Xn) ltac:(eauto) ltac:(lia)) as Rg.
    specialize (Rg z0 Hz0). pose proof (Hap z0 (box_point d z0 Hz0)) as T1. pose proof (Hap q Pq) as T2. apply Rabs_le_inv in T1, T2.
    unfold worse. destruct (Rlt_dec (H q + (Lo + 2 * del)) (H z0)) as [Hw|]; [exfalso; lra|reflexivity].
  Qed.
End Runs.

(** the runs of 900 iterations of C81 and C82: with UCB at most 432 points are worse than the best by more than 0.28 *)
Lemma ex_loss83 t : any_loss f1 (hy_sf2 (ex_par (PExp f1) t)) ex_noise (PExp f1) (Z.to_nat 901) 2 ex_m 1 1 12 3 0 <= 28 / 100.
Proof.
  assert (E1 : fval f1 = 1) by (cbv -[IZR F2R bpow]; unfold F2R; simpl; lra).
  assert (En : 99 / 10000 <= fval ex_noise <= 101 / 10000) by (cbv -[IZR F2R bpow Rdiv Rle]; unfold F2R; simpl; lra).
  assert (Nu : 99 / 10000 <= nugget ex_noise <= 102 / 10000) by (unfold nugget; lra).
  unfold any_loss. rewrite E1. set (sf := fval (hy_sf2 (ex_par (PExp f1) t))).
  assert (Sf : 1 / 2 <= sf <= 1) by (unfold sf; rewrite ex_sf_val; destruct t; lra).
  assert (N6 : INR (Z.to_nat 901) = 901) by (rewrite INR_IZR_INZ; apply IZR_eq; reflexivity).
  assert (Im : INR ex_m = 2000) by (unfold ex_m; rewrite INR_IZR_INZ; apply IZR_eq; reflexivity).
  assert (Ce : 0 <= centre ex_m 1 <= / 10 ^ 12).
  { unfold centre. rewrite Im. assert (I1 : 0 < / 2 ^ 1075 <= / 2 ^ 60) by (split; [apply Rinv_0_lt_compat, pow_lt; lra|apply Rinv_le_contravar; [apply pow_lt; lra|apply Rle_pow; [lra|lia]]]). lra. }
  assert (Q : 901 / nugget ex_noise <= 92000). { apply Rmult_le_reg_r with (nugget ex_noise); [lra|]. unfold Rdiv. rewrite Rmult_assoc, Rinv_l, Rmult_1_r by lra. lra. }
  assert (Q0 : 0 <= 901 / nugget ex_noise) by (apply Rmult_le_pos; [lra|left; apply Rinv_0_lt_compat; lra]).
  assert (Sh : 0 <= shift ex_noise (Z.to_nat 901) ex_m 1 <= / 10 ^ 7).
  { unfold shift. rewrite N6. split; [apply Rmult_le_pos; lra|]. apply Rle_trans with (92000 * / 10 ^ 12); [apply Rmult_le_compat; lra|lra]. }
  rewrite N6 in *. set (sh := shift _ _ _ _) in *. set (ce := centre _ _) in *.
  assert (S1 : sqrt (901 / nugget ex_noise) <= 310) by (rewrite <- (sqrt_square 310) by lra; apply sqrt_le_1_alt; lra).
  assert (S3 : 0 <= gap (PExp f1) 2 (/ INR 12) 1 * gap (PExp f1) 2 (/ INR 12) 1 <= 139 / 10000).
  { split; [apply Rle_0_sqr|]. unfold gap. cbn [slope]. replace (1 * INR 2) with 2 by (cbn; ring). replace (INR 12) with 12 by (rewrite INR_IZR_INZ; reflexivity).
    replace (sqrt 2 * (/ 12 / 1) * (sqrt 2 * (/ 12 / 1))) with (sqrt 2 * sqrt 2 * (/ 12 * / 12)) by field. rewrite sqrt_sqrt by lra. lra. }
  set (gg := gap (PExp f1) 2 (/ INR 12) 1 * gap (PExp f1) 2 (/ INR 12) 1) in *.
  assert (Sg : sf * gg <= 1 * gg) by (apply Rmult_le_compat_r; lra). assert (Ssh : sf * sh <= 1 * sh) by (apply Rmult_le_compat_r; lra).
  assert (S2 : sqrt (nugget ex_noise / INR 3 + sf * gg) <= 132 / 1000).
  { replace (INR 3) with 3 by (rewrite INR_IZR_INZ; reflexivity). rewrite <- (sqrt_square (132 / 1000)) by lra. apply sqrt_le_1_alt. lra. }
  assert (S4 : 3 / 1000 <= sqrt (var_floor (hy_sf2 (ex_par (PExp f1) t)) ex_noise (Z.to_nat 901))).
  { rewrite <- (sqrt_square (3 / 1000)) by lra. apply sqrt_le_1_alt. unfold var_floor. fold sf. rewrite N6. apply Rmult_le_reg_r with (nugget ex_noise + 901 * sf); [lra|].
    unfold Rdiv. rewrite (Rmult_assoc (sf * nugget ex_noise)), Rinv_l, Rmult_1_r by lra. assert (1 / 2 * (99 / 10000) <= sf * nugget ex_noise) by (apply Rmult_le_compat; lra).
    assert (sf * (99 / 10000) <= sf * nugget ex_noise) by (apply Rmult_le_compat_l; lra). lra. }
  assert (S5 : 11 / 10 ^ 7 * 1 / sqrt (var_floor (hy_sf2 (ex_par (PExp f1) t)) ex_noise (Z.to_nat 901)) <= 11 / 10 ^ 7 * 334).
  { unfold Rdiv at 1. rewrite Rmult_1_r. apply Rmult_le_compat_l; [lra|]. apply Rle_trans with (/ (3 / 1000)); [apply Rinv_le_contravar; lra|lra]. }
  lra.
Qed.
Example C83_example : forall mf, In mf [MNull; MConst fhalf] ->
  let p := PExp f1 in let O := objective f1 p (prior mf []) ex_h in let n := Z.to_nat 900 in
  exists s, ex_hrun p mf (ex_obj2 p mf) (fun _ g _ => (ex_hinner p g, tt)) [max_iterations (Z.of_nat n)] [OpOptimize true (S n)] (new_bo (true, ex_empty) tt) = Some s /\
    length (picks (trace s)) = n /\ forall v, box 2 v -> small_regret O (28 / 100 + 2 * 0) (3 * 12 ^ 2) v (picks (trace s)) (box 2) /\ forall q, box 2 q -> O v - O q <= 1 / 2.
Proof.
  intros mf Hmf p O n. assert (Hp : In p [PExp f1; PMatern3 f1; PMatern5 f1; PArd [f1; fofZe 1 (-1)]]) by (left; reflexivity).
  destruct (C81_converges_example p mf Hp Hmf) as (H1 & H2 & H3 & H4 & H5 & H6 & H7 & H8 & _).
  destruct (ex_hrun_done p mf (ex_val p mf) (fun g _ => ex_hinner p g) n) as (s & Hr & Hi & Hcl & Hl & _).
  { intros x. destruct (ex_val_ok p mf x) as ((_ & Fx & _) & _). destruct (ex_val p mf x); try discriminate; reflexivity. }
  exists s. split; [exact Hr|]. split; [unfold picks; rewrite map_length; apply Nat2Z.inj; rewrite stats_iters; exact Hi|]. intros v Hv. split.
  - assert (E1 : fval f1 = 1) by (cbv -[IZR F2R bpow]; unfold F2R; simpl; lra).
    assert (HS1 : forall t, gp_setting best_exp 4 2 (hy_sf2 (ex_par p t)) (hy_noise (ex_par p t)) (hy_p (ex_par p t)) ex_m mf 1 1).
    { intros t. generalize (H1 t). unfold gp_setting. assert (forall l, In l (scales (hy_p (ex_par p t))) -> 1 <= fval l) by (intros l [<-|[]]; rewrite E1; lra). pose proof Rlt_0_1. tauto. }
    assert (I50 : 0 < / 2 ^ 50 <= / 10000) by (split; [apply Rinv_0_lt_compat, pow_lt; lra|apply Rinv_le_contravar; lra]).
    refine (C83_regret best_exp 4 2 (ex_par p) ex_m mf 1 1 (ex_obj2 p mf) (true, ex_empty) (ex_hcomp p mf) (ex_hadd p mf) (ex_hp p) (fun _ g _ => (ex_hinner p g, tt)) 1 (fun _ _ => ([fhalf; fhalf], tt)) 1
      f1 O (fun t : bool => if t then 1 / 2 else 3 / 4) 0 (/ 2 ^ 50) 0 (28 / 100) [max_iterations (Z.of_nat n)] [OpOptimize true (S n)] (true, ex_empty) tt s 12 3 HS1 H2 H3 ltac:(lra) H4 H5 H6 H7 _ _ Hr _ _ _ _ v Hv).
    + intros _ _. exact H8.
    + repeat constructor.
    + rewrite Hl. unfold n. lia.
    + intros t. rewrite Hl. split; [|exact (ex_loss83 t)]. rewrite E1. cbn [ex_par hy_noise]. rewrite Rplus_0_r.
      assert (En : 99 / 10000 <= fval ex_noise <= 101 / 10000) by (cbv -[IZR F2R bpow Rdiv Rle]; unfold F2R; simpl; lra).
      assert (Nu : 99 / 10000 <= nugget ex_noise <= 102 / 10000) by (unfold nugget; lra).
      assert (Sq : sqrt (INR (S n) / nugget ex_noise) <= 1000).
      { unfold n. rewrite <- (sqrt_square 1000) by lra. apply sqrt_le_1_alt. replace (INR (S (Z.to_nat 900))) with 901 by (rewrite INR_IZR_INZ; apply IZR_eq; reflexivity).
        apply Rmult_le_reg_r with (nugget ex_noise); [lra|]. unfold Rdiv. rewrite Rmult_assoc, Rinv_l, Rmult_1_r by lra. lra. }
      assert (sqrt (INR (S n) / nugget ex_noise) * / 2 ^ 50 <= 1000 * / 10000) by (apply Rmult_le_compat; [apply sqrt_pos|lra|exact Sq|lra]). destruct t; lra.
    + lia.
    + lia.
  - intros q Hq. unfold O, objective, ex_h. cbn [lsum fst snd].
    assert (E1 : fval f1 = 1) by (cbv -[IZR F2R bpow]; unfold F2R; simpl; lra). specialize (H1 true). destruct H1 as (K1 & K2 & K3 & K4).
    assert (Pz : point 2 [f0; f1]) by (destruct (H4 true) as (h & _); destruct (C78_example p mf Hp Hmf) as (_ & _ & _ & (Hz & _) & _); apply (Hz (1 / 2, [f0; f1])); now left).
    destruct K1 as (_ & _ & _ & Ks & _ & Kp & _). change (hy_sf2 (ex_par p true)) with f1 in *. change (hy_p (ex_par p true)) with p in *.
    pose proof (exact_bounds 2 f1 p [f0; f1] v Ks Kp Pz (box_point 2 v Hv)) as B1. pose proof (exact_bounds 2 f1 p [f0; f1] q Ks Kp Pz (box_point 2 q Hq)) as B2. lra.
Qed.
(** GP-UCB *)
Example C83_gp_example : forall p mf, In p [PExp f1; PMatern3 f1; PMatern5 f1; PArd [f1; fofZe 1 (-1)]] -> In mf [MNull; MConst fhalf] ->
  let O := objective f1 p (prior mf []) ex_h in let n := Z.to_nat 900 in
  exists s, ex_hrun p mf (ex_obj2 p mf) (fun _ g c => (ex_ginner p g c, tt)) [max_iterations (Z.of_nat n)] [OpOptimize true (S n)] (new_bo (true, ex_empty) tt) = Some s /\
    (898 <= length (later (trace s)))%nat /\ exists Lo, forall v, box 2 v -> small_regret O (Lo + 2 * 0) (2 * 12 ^ 2) v (map (fun xs : list F64.vec => last xs []) (later (trace s))) (box 2).
Proof.
  intros p mf Hp Hmf O n. destruct (C82_example p mf Hp Hmf) as (H1 & H2 & G1 & G2 & G3 & G4 & G5 & H4 & H5 & H6 & H7 & H8 & s & Hr & Hl & Hal & _).
  exists s. split; [exact Hr|]. split.
  { destruct (ex_hrun_done p mf (ex_val p mf) (ex_ginner p) n) as (s' & Hr' & Hi & Hcl & _).
    { intros x. destruct (ex_val_ok p mf x) as ((_ & Fx & _) & _). destruct (ex_val p mf x); try discriminate; reflexivity. }
    assert (s' = s) as -> by (assert (Some s' = Some s) by (rewrite <- Hr, <- Hr'; reflexivity); congruence).
    destruct (run_later _ _ _ _ _ _ _ _ _ _ _ _ _ s Hr) as (_ & Cn). rewrite Hi in Cn. unfold n in Cn. rewrite Z2Nat.id in Cn by lia. apply Nat2Z.inj_le. change (Z.of_nat 898) with 898%Z. lia. }
  set (ls := fun t => gp_loss (gp_weight (fval tenth) 2 (Z.of_nat (length (samples s))) + 2 / 10 ^ 9) (hy_sf2 (ex_par p t)) (hy_noise (ex_par p t)) (hy_p (ex_par p t)) (length (samples s)) 2 ex_m 1 (1 / 2) 12 2 0).
  exists (Rmax (ls true) (ls false)). intros v Hv.
  assert (I50 : 0 < / 2 ^ 50) by (apply Rinv_0_lt_compat, pow_lt; lra).
  refine (C83_gp_ucb best_exp 4 2 (ex_par p) ex_m mf 1 (1 / 2) (ex_obj2 p mf) (true, ex_empty) (ex_hcomp p mf) (ex_hadd p mf) (ex_hp p) (fun _ g c => (ex_ginner p g c, tt)) 1 (fun _ _ => ([fhalf; fhalf], tt)) 1
    best_powF best_logF tenth O (fun t : bool => if t then 1 / 2 else 3 / 4) 0 (/ 2 ^ 50) 0 (Rmax (ls true) (ls false)) [max_iterations (Z.of_nat n)] [OpOptimize true (S n)] (true, ex_empty) tt s 12 2 H1 H2 ltac:(lra) G1 G2 G3 G4 G5 ltac:(lia) H4 H5 H6 H7 _ _ Hr Hl _ _ _ v Hv).
  - intros _ _. exact H8.
  - repeat constructor.
  - intros t. split; [exact (Hal t)|]. fold (ls t). destruct t; [apply Rmax_l|apply Rmax_r].
  - lia.
  - lia.
Qed.
(** UCB and GridSearch: of 600 points at most 500 are worse than the best by more than 1/5 *)
Example C83_grid_example : forall mf, In mf [MNull; MConst fhalf] ->
  let p := PExp f1 in let O := objective f1 p (prior mf []) ex_h in let n := Z.to_nat 600 in
  exists s, ex_hrun p mf (ex_obj2 p mf) (ex_hacq (ex_hucb p)) [max_iterations (Z.of_nat n)] [OpOptimize true (S n)] (new_bo (true, ex_empty) tt) = Some s /\
    length (picks (trace s)) = n /\ forall v, box 2 v -> small_regret O (1 / 5 + 2 * 0) (20 * length ex_grid ^ 2) v (picks (trace s)) (point 2).
Proof.
  intros mf Hmf p O n. assert (Hp : In p [PExp f1; PMatern3 f1; PMatern5 f1; PArd [f1; fofZe 1 (-1)]]) by (left; reflexivity).
  destruct (C81_converges_example p mf Hp Hmf) as (_ & H2 & H3 & H4 & H5 & _ & H7 & H8 & _). destruct (C81_grid_example p mf Hp Hmf) as (H1 & H6 & Hg & _ & Hlo).
  destruct (ex_hrun_done p mf (ex_val p mf) (fun g _ => match grid_search (ex_hucb p g) ex_grid 2 with GVec x => x | _ => [] end) n) as (s & Hr & Hi & _ & Hl' & _).
  { intros x. destruct (ex_val_ok p mf x) as ((_ & Fx & _) & _). clear - Fx. destruct (ex_val p mf x); try discriminate; reflexivity. }
  assert (Hr2 : ex_hrun p mf (ex_obj2 p mf) (ex_hacq (ex_hucb p)) [max_iterations (Z.of_nat n)] [OpOptimize true (S n)] (new_bo (true, ex_empty) tt) = Some s) by exact Hr.
  exists s. split; [exact Hr2|]. split; [unfold picks; rewrite map_length; apply Nat2Z.inj; rewrite stats_iters; exact Hi|]. intros v Hv.
  assert (E1 : fval f1 = 1) by (cbv -[IZR F2R bpow]; unfold F2R; simpl; lra). assert (I50 : 0 < / 2 ^ 50) by (apply Rinv_0_lt_compat, pow_lt; lra).
  assert (HS1 : forall t, setting_ok best_exp 4 2 (hy_sf2 (ex_par p t)) (hy_noise (ex_par p t)) (hy_p (ex_par p t)) ex_m mf 1 1 4 7).
  { intros t. generalize (H1 t). unfold setting_ok. assert (forall l, In l (scales (hy_p (ex_par p t))) -> 1 <= fval l) by (intros l [<-|[]]; rewrite E1; lra). pose proof Rlt_0_1. tauto. }
  refine (C83_grid_regret best_exp 4 2 (ex_par p) ex_m mf 1 1 (ex_obj2 p mf) (true, ex_empty) (ex_hcomp p mf) (ex_hadd p mf) (ex_hp p) (ex_hacq (ex_hucb p)) 1 (fun _ _ => ([fhalf; fhalf], tt)) 1 4 7
    f1 O (fun t : bool => if t then 1 / 2 else 3 / 4) 0 (/ 2 ^ 50) (1 / 5) [max_iterations (Z.of_nat n)] [OpOptimize true (S n)] (true, ex_empty) tt s ex_grid 20 HS1 H2 H3 ltac:(lra) H4 H5 H6 H7 _ _ Hr2 _ _ Hg _ v Hv).
  - intros _ _. exact H8.
  - repeat constructor.
  - rewrite Hl'. unfold n. lia.
  - intros t. rewrite Hl'. split; [|exact (Hlo t)]. rewrite E1. cbn [ex_par hy_noise]. rewrite Rplus_0_r.
    assert (En : 99 / 10000 <= fval ex_noise <= 101 / 10000) by (cbv -[IZR F2R bpow Rdiv Rle]; unfold F2R; simpl; lra).
    assert (Nu : 99 / 10000 <= nugget ex_noise <= 102 / 10000) by (unfold nugget; lra).
    assert (J50 : / 2 ^ 50 <= / 10000) by (apply Rinv_le_contravar; lra).
    assert (Sq : sqrt (INR (S n) / nugget ex_noise) <= 1000).
    { unfold n. rewrite <- (sqrt_square 1000) by lra. apply sqrt_le_1_alt. replace (INR (S (Z.to_nat 600))) with 601 by (rewrite INR_IZR_INZ; apply IZR_eq; reflexivity).
      apply Rmult_le_reg_r with (nugget ex_noise); [lra|]. unfold Rdiv. rewrite Rmult_assoc, Rinv_l, Rmult_1_r by lra. lra. }
    assert (sqrt (INR (S n) / nugget ex_noise) * / 2 ^ 50 <= 1000 * / 10000) by (apply Rmult_le_compat; [apply sqrt_pos|lra|exact Sq|lra]). destruct t; lra.
  - lia.
Qed.
