(** C81: whole optimizer runs in double precision in which the hyper-parameters of the kernel are learnt on
    the way: every sample nearly maximises the exact acquisition function for the hyper-parameters of that
    moment, and the best sample converges. *)
From Coq Require Import ZArith List Bool Lia Permutation Reals Lra.
From Coq Require Import Floats.SpecFloat.
From Flocq Require Import Core IEEE754.BinarySingleNaN.
From Verif Require Import F64 F64R AdamFloat OptFloat OptModel OptSpec Prop_Opt FpModel FpErr LinAlgModel LinAlg FpAlg FpChol FpSolve FpGp FpFin Prop_Fp.
From Verif Require Import KernelModel KernelFacts FpKerModel FpKer FpKer2 Prop_FpKer FpAcqModel FpAcq Prop_FpAcq FpLip Prop_Next FpMeanModel FpHpModel FpLife FpImpl Prop_FpMean.
From Verif Require Import FpLikModel Prop_FpLik InitModel InitFacts BOModel BOSpec BOFacts Prop_BO BORun BOCount BOLater FpBand Prop_BoFp Prop_Conv Prop_Any.
Import ListNotations.
Open Scope R_scope.

(** ** One change of the hyper-parameters *)
(** The GP after the change is a GP of C76 on the same data with the new hyper-parameters, whatever the old
    ones were. *)
Lemma life_fields fexp mk sf2 noise p m mf xs ys g : gp_life fexp mk sf2 noise p m mf xs ys g ->
  fg_xs g = xs /\ fg_ys g = ys /\ length ys = length xs /\ (xs <> [] -> mean_val m mf ys (fg_mean g)).
Proof.
  induction 1 as [g E1 E2|xs ys g N Hl HC|xs ys g x y g' H (I1 & I2 & I3 & _) HA].
  - split; auto. split; auto. split; auto. congruence.
  - destruct HC as (C1 & C2 & _ & C4). split; auto. split; auto. split; auto. intros _. rewrite <- C2. apply C4.
  - destruct HA as (A1 & A2 & _ & A4). split; [now rewrite A1, I1|]. split; [now rewrite A2, I2|]. split; [rewrite !app_length; cbn; lia|]. intros _. rewrite <- I2, <- A2. apply A4.
Qed.
Theorem C81_retrain : forall fexp mk sf2 noise p sf2' noise' p' m mf xs ys g g', gp_life fexp mk sf2 noise p m mf xs ys g -> xs <> [] ->
  gp_retrain fexp mk sf2' noise' p' m g g' -> gp_life fexp mk sf2' noise' p' m mf xs ys g'.
Proof.
  intros fexp mk sf2 noise p sf2' noise' p' m mf xs ys g g' HL Hn (R1 & R2 & R3 & R4 & R5). destruct (life_fields _ _ _ _ _ _ _ _ _ _ HL) as (E1 & E2 & E3 & E4).
  rewrite E1 in R1, R4, R5. rewrite E2 in R2, R5. apply life_compute; auto. split; [exact R1|]. split; [exact R2|]. split; [exact R4|].
  split; [rewrite R2, R3; auto|]. rewrite R1, R2, R3. exact R5.
Qed.

(** ** Runs *)
Section Runs.
  Context {W E T : Type}.
  (** [T]: the hyper-parameters that may be set; [par t] their values *)
  Variables (fexp : F -> F) (mk d : nat) (par : T -> hyper) (m : nat) (mf : meanf) (M lam : R) (bins : Z) (fuel : nat).
  Notation vec := F64.vec.
  (** the model: the hyper-parameters of the kernel and the GP *)
  Notation mdl := (T * fgp)%type.
  Notation sf2 t := (hy_sf2 (par t)).
  Notation noise t := (hy_noise (par t)).
  Notation kp t := (hy_p (par t)).
  Variable sfun : W -> vec -> (vec + E) * W.
  Variable m_fresh : mdl.
  Variable m_compute : W -> mdl -> list vec -> list vec -> mdl * W.
  Variable m_add : W -> mdl -> vec -> vec -> mdl * W.
  Variable m_hp : W -> mdl -> mdl * W.
  Variable acq : W -> mdl -> Z -> vec * W.
  Variable init_n : nat.
  Variable init_pt : nat -> W -> vec * W.
  Variable hp_period : Z.
  Notation run := (run_ops sfun m_fresh m_compute m_add m_hp acq init_n init_pt hp_period).
  Notation life t := (gp_life fexp mk (sf2 t) (noise t) (kp t) m mf).
  Definition data (xs ys : list vec) : Prop := (length xs <= 1000)%nat /\ List.Forall2 (datum d M) xs ys.

  (** the model is a GP of C76 on at most 1000 samples, with the hyper-parameters it holds; [optimize_hyperparams]
      may set any others *)
  Definition runs_hgp : Prop :=
    fg_xs (snd m_fresh) = [] /\ fg_ys (snd m_fresh) = [] /\
    (forall w g xs ys, xs <> [] -> data xs ys -> let g' := fst (m_compute w g xs ys) in
       fst g' = fst g /\ gp_compute fexp mk (sf2 (fst g)) (noise (fst g)) (kp (fst g)) m mf xs (firsts ys) (snd g')) /\
    (forall w g xs ys x y, life (fst g) xs (firsts ys) (snd g) -> (length xs < 1000)%nat -> List.Forall2 (datum d M) xs ys -> datum d M x y -> let g' := fst (m_add w g x y) in
       fst g' = fst g /\ gp_add fexp mk (sf2 (fst g)) (noise (fst g)) (kp (fst g)) m mf (snd g) x (nth 0 y f0) (snd g')) /\
    (forall w g xs ys, life (fst g) xs (firsts ys) (snd g) -> xs <> [] -> data xs ys -> let g' := fst (m_hp w g) in
       gp_retrain fexp mk (sf2 (fst g')) (noise (fst g')) (kp (fst g')) m (snd g) (snd g')).
  (** the next sample is found by the grid search on the computed acquisition function; [A t g f]: [f] is that
      function for the GP [g] with the hyper-parameters [t] *)
  Definition runs_hgrid (A : T -> fgp -> (fpt -> F) -> Prop) : Prop :=
    forall w g c xs ys, life (fst g) xs (firsts ys) (snd g) -> data xs ys ->
      exists f, (xs <> [] -> A (fst g) (snd g) f) /\ exists grid, grid_search_xs fuel bins = Some grid /\ grid_search f grid d = GVec (fst (acq w g c)).
  (** the next sample is found by any inner optimizer that comes within [zeta] of the maximum *)
  Definition runs_hinner (A : T -> fgp -> (fpt -> F) -> Prop) (zeta : R) : Prop :=
    forall w g c xs ys, life (fst g) xs (firsts ys) (snd g) -> data xs ys ->
      box d (fst (acq w g c)) /\
      (xs <> [] -> exists f, A (fst g) (snd g) f /\ forall v, box d v -> fval (f v) <= fval (f (fst (acq w g c))) + zeta).

  Lemma run_hyper (Ok : vec -> vec -> Prop) (Q : mdl -> list vec -> Z -> vec -> Prop) cs os g0 w s : (forall x y, Ok x y -> datum d M x y) ->
    runs_hgp -> (forall w g c xs ys, life (fst g) xs (firsts ys) (snd g) -> data xs ys -> point d (fst (acq w g c)) /\ Q g xs c (fst (acq w g c))) ->
    objective_ok d sfun Ok -> (forall i w, point d (fst (init_pt i w))) -> List.Forall (op_ok d Ok) os -> run cs os (new_bo g0 w) = Some s ->
    D Ok (samples s) (observations s) /\
    forall X Y g c q, In (EvAcq X Y g c q) (trace s) -> (length X <= 1000)%nat ->
      List.Forall2 Ok X Y /\ life (fst g) X (firsts Y) (snd g) /\ point d q /\ Q g X c q.
  Proof.
    intros HOk (F1 & F2 & HC & HA & HH) HQ HO HI Hops Hrun.
    assert (Fd : forall xs ys, List.Forall2 Ok xs ys -> List.Forall2 (datum d M) xs ys) by (intros xs ys H; induction H; constructor; auto).
    assert (Fit : forall xs ys x, D Ok xs ys -> ((length xs <= 1000)%nat -> point d x) -> fits sfun (D Ok) xs ys x).
    { intros xs ys x (HD1 & HD2) Px w1 v w2 Es Ev. destruct (Nat.leb_spec (length xs) 1000) as [Le|Gt].
      - apply D_snoc; [split; auto|]. exact (HO w1 x v w2 (Px Le) Es Ev).
      - split; [rewrite !app_length; cbn; lia|]. rewrite app_length. cbn. lia. }
    set (Rh := fun (xs ys : list vec) (g : mdl) => (length xs <= 1000)%nat -> List.Forall2 Ok xs ys /\ life (fst g) xs (firsts ys) (snd g)).
    assert (Ch : D Ok (samples s) (observations s) /\ List.Forall (chosen acq (D Ok) Rh) (trace s)).
    { apply (run_inv sfun m_fresh m_compute m_add m_hp acq init_n init_pt hp_period (D Ok) Rh) with (cs := cs) (os := os) (m := g0) (w := w); auto.
      - split; auto.
      - intros xs ys H. apply H.
      - intros _. split; [constructor|]. cbn. now constructor.
      - intros w1 g xs ys Hn (HD1 & HD2) Le. specialize (HD2 Le). split; auto. destruct (HC w1 g xs ys Hn (conj Le (Fd _ _ HD2))) as (C1 & C2). rewrite C1.
        apply life_compute; auto. unfold firsts. now rewrite map_length.
      - intros w1 g xs ys x y HR (HD1 & HD2) (HD3 & HD4) Le. specialize (HD4 Le). split; [exact HD4|]. unfold firsts. rewrite map_app. cbn [map].
        assert (Le' : (length xs < 1000)%nat) by (rewrite app_length in Le; cbn in Le; rewrite Nat.add_1_r in Le; exact Le).
        destruct (List.Forall2_app_inv_l _ _ HD4) as (y1 & y2 & Fa1 & Fa2 & Ey).
        inversion Fa2 as [|? yy ? ? Hd T']; subst. inversion T'; subst. apply app_inj_tail in Ey. destruct Ey as (-> & ->).
        destruct (HR (Nat.lt_le_incl _ _ Le')) as (_ & HR'). destruct (HA w1 g xs y1 x yy HR' Le' (Fd _ _ Fa1) (HOk _ _ Hd)) as (A1 & A2). rewrite A1.
        apply life_add with (snd g); auto.
      - intros w1 g xs ys _ HR Hn Le. destruct (HR Le) as (HF & HL). split; [exact HF|]. eapply C81_retrain; [exact HL|exact Hn|]. exact (HH w1 g xs ys HL Hn (conj Le (Fd _ _ HF))).
      - intros w1 g c xs ys HD HR. apply Fit; auto. intros Le. destruct (HR Le) as (HF & HL). exact (proj1 (HQ w1 g c xs ys HL (conj Le (Fd _ _ HF)))).
      - apply List.Forall_forall. intros o Ho. rewrite List.Forall_forall in Hops. specialize (Hops o Ho).
        destruct o as [r f|x|x y]; cbn [fit_op op_ok] in *; [exact I| |].
        + intros xs ys HD. apply Fit; auto.
        + intros Ey xs ys HD. apply D_snoc; auto. }
    destruct Ch as (HD & Ch). split; [exact HD|].
    intros X Y g c q Hin Le. rewrite List.Forall_forall in Ch. destruct (Ch _ Hin) as (_ & HR & wq & ->). destruct (HR Le) as (HF & HL).
    destruct (HQ wq g c X Y HL (conj Le (Fd _ _ HF))) as (Pq & Hq). auto.
  Qed.

  Lemma grid_pt (f : fpt -> F) grid x : (1 <= bins <= 2 ^ 20)%Z -> (Z.to_nat bins + 2 < fuel)%nat -> grid_search_xs fuel bins = Some grid -> grid_search f grid d = GVec x -> point d x.
  Proof.
    intros Hb Hfu G1 G2. destruct (C15_grid_search_best f grid d _ G2) as ((Q1 & Q2) & _). destruct (grid_near bins fuel grid Hb Hfu G1) as (N & _).
    split; auto. intros a Ha. rewrite List.Forall_forall in Q2. destruct (N a (Q2 a Ha)) as (A1 & A2 & A3). split; auto. split; auto.
    assert (2 ^ 2 <= 2 ^ 100) by (apply Rle_pow; [lra|lia]). rewrite Rabs_pos_eq; lra.
  Qed.
  Lemma run_hgrid A cs os g0 w s : (1 <= bins <= 2 ^ 20)%Z -> (Z.to_nat bins + 2 < fuel)%nat ->
    runs_hgp -> runs_hgrid A -> runs_objective d M sfun -> (forall i w, point d (fst (init_pt i w))) -> List.Forall (user_op d M) os ->
    run cs os (new_bo g0 w) = Some s ->
    forall X Y g c q, In (EvAcq X Y g c q) (trace s) -> (length X <= 1000)%nat ->
      List.Forall2 (datum d M) X Y /\ life (fst g) X (firsts Y) (snd g) /\ point d q /\
      exists f, (X <> [] -> A (fst g) (snd g) f) /\ exists grid, grid_search_xs fuel bins = Some grid /\ grid_search f grid d = GVec q.
  Proof.
    intros Hb Hfu HG HQ HO HI Hops Hrun.
    refine (proj2 (run_hyper (datum d M) (fun g xs _ q => exists f, (xs <> [] -> A (fst g) (snd g) f) /\ exists grid, grid_search_xs fuel bins = Some grid /\ grid_search f grid d = GVec q)
      cs os g0 w s (fun x y H => H) HG _ (objective_datum d M sfun HO) HI (user_ok d M os Hops) Hrun)).
    intros w1 g c xs ys HL Hd. destruct (HQ w1 g c xs ys HL Hd) as (f & Hf & grid & G1 & G2). split; [exact (grid_pt f grid _ Hb Hfu G1 G2)|]. exists f. split; [exact Hf|]. exists grid. auto.
  Qed.

  (** Every sample of every run with UCB and the grid search nearly maximises the exact UCB of the data, for
      the hyper-parameters [fst g] that the model holds when the sample is chosen, whatever the period and the
      outcome of the learning. *)
  Theorem C81_ucb : forall alpha cs os g0 w s, (forall t, setting_ok fexp mk d (sf2 t) (noise t) (kp t) m mf M lam bins fuel) -> dbl (2 ^ 20) alpha -> 0 <= fval alpha ->
    runs_hgp -> runs_hgrid (fun t => computes_ucb fexp mk d (sf2 t) (noise t) (kp t) m alpha) -> runs_objective d M sfun -> (forall i w, point d (fst (init_pt i w))) ->
    List.Forall (user_op d M) os -> run cs os (new_bo g0 w) = Some s ->
    forall X Y g c q, In (EvAcq X Y g c q) (trace s) -> (0 < length X <= 1000)%nat ->
      point d q /\ near_ucb (sf2 (fst g)) (noise (fst g)) (kp (fst g)) mf alpha d m M bins lam X (firsts Y) q.
  Proof.
    intros alpha cs os g0 w s HS Ha Pa HG HA HO HI Hops Hrun X Y g c q Hin Hn.
    assert (HS' := HS (fst g)). destruct HS' as (_ & _ & _ & _ & _ & _ & _ & _ & Hb & Hfu).
    destruct (run_hgrid _ cs os g0 w s Hb Hfu HG HA HO HI Hops Hrun X Y g c q Hin (proj2 Hn)) as (Hd & HL & Pq & f & Hf & Hgrid).
    destruct (datum_points d M X Y Hd) as (P1 & P2). split; auto.
    apply (ucb_step fexp mk d (sf2 (fst g)) (noise (fst g)) (kp (fst g)) m mf M lam bins fuel (HS (fst g)) X (firsts Y) (snd g) HL Hn P1 P2 alpha f q Ha Pa); auto. apply Hf. intros ->. cbn in Hn. lia.
  Qed.

  Theorem C81_ei : forall ferfc fpow2 jitter cs os g0 w s, (forall t, setting_ok fexp mk d (sf2 t) (noise t) (kp t) m mf M lam bins fuel /\ 1 / 100 <= fval (sf2 t)) ->
    libm_erfc ferfc (/ 2 ^ 50) -> libm_pow2 fpow2 -> dbl (2 ^ 200) jitter ->
    runs_hgp -> runs_hgrid (fun t => computes_ei fexp mk d (sf2 t) (noise t) (kp t) m ferfc fpow2 jitter) -> runs_objective d M sfun -> (forall i w, point d (fst (init_pt i w))) ->
    List.Forall (user_op d M) os -> run cs os (new_bo g0 w) = Some s ->
    forall X Y g c q, In (EvAcq X Y g c q) (trace s) -> (0 < length X <= 1000)%nat ->
      point d q /\ near_ei (sf2 (fst g)) (noise (fst g)) (kp (fst g)) mf jitter d m M bins lam X (firsts Y) q.
  Proof.
    intros ferfc fpow2 jitter cs os g0 w s HS Hc Hq Hj HG HA HO HI Hops Hrun X Y g c q Hin Hn. destruct (HS (fst g)) as (HS1 & S100).
    assert (HS' := HS1). destruct HS' as (_ & _ & _ & _ & _ & _ & _ & _ & Hb & Hfu).
    destruct (run_hgrid _ cs os g0 w s Hb Hfu HG HA HO HI Hops Hrun X Y g c q Hin (proj2 Hn)) as (Hd & HL & Pq & f & Hf & Hgrid).
    destruct (datum_points d M X Y Hd) as (P1 & P2). split; auto.
    destruct Hf as (rw & Hr & Hf); [intros ->; cbn in Hn; lia|]. rewrite (proj1 (life_fields _ _ _ _ _ _ _ _ _ _ HL)) in Hr.
    exact (ei_step fexp mk d (sf2 (fst g)) (noise (fst g)) (kp (fst g)) m mf M lam bins fuel HS1 X (firsts Y) (snd g) HL Hn P1 P2 ferfc fpow2 jitter f rw q S100 Hc Hq Hj Hr Hf Hgrid).
  Qed.

  (** After more than [k * r^d] iterations, [best_sample()] is a global maximum of the objective [O] up to
      [Lo], when for all the hyper-parameters that may be set, [O] is within [del] of a combination of their
      kernel functions, alpha is large enough, and [any_loss] (C80) is at most [Lo]. *)
  Theorem C81_converges : forall alpha O (Lam : T -> R) del eps zeta Lo cs os g0 w s r k,
    (forall t, gp_setting fexp mk d (sf2 t) (noise t) (kp t) m mf M lam) -> fixed mf -> dbl (2 ^ 20) alpha -> 0 <= eps ->
    (forall t, exists h, norm_le d (sf2 t) (kp t) h (Lam t) /\ forall v, point d v -> Rabs (O v - objective (sf2 t) (kp t) (prior mf []) h v) <= del) ->
    runs_hgp -> runs_hinner (fun t => computes_ucb fexp mk d (sf2 t) (noise t) (kp t) m alpha) zeta ->
    objective_ok d sfun (measured d M eps O) -> (forall i w, point d (fst (init_pt i w))) -> List.Forall (op_ok d (measured d M eps O)) os ->
    run cs os (new_bo g0 w) = Some s -> (length (samples s) <= 1000)%nat ->
    (forall t, Lam t + sqrt (INR (length (samples s)) / nugget (noise t)) * (eps + del) <= fval alpha /\
       any_loss alpha (sf2 t) (noise t) (kp t) (length (samples s)) d m M lam r k zeta <= Lo) ->
    (1 <= r)%nat -> (1 <= k)%nat -> (Z.of_nat (k * r ^ d) < iters (trace s))%Z ->
    exists b, best_sample (fun y => nth 0 y f0) s = Some b /\ In b (samples s) /\
      forall w, box d w -> O w <= O b + Lo + 2 * eps + 2 * del.
  Proof.
    intros alpha H Lam del eps zeta Lo cs os g0 w s r k HS Hfix HA He Hh HG HQ HO HI Hops Hrun Hlen Hal Hr Hk Hit.
    set (Ok := measured d M eps H) in *. assert (HOk : forall x y, Ok x y -> datum d M x y) by (intros x y O; apply O).
    destruct (run_hyper Ok (fun g X _ q => box d q /\ (X <> [] -> exists f, computes_ucb fexp mk d (sf2 (fst g)) (noise (fst g)) (kp (fst g)) m alpha (snd g) f /\ forall v, box d v -> fval (f v) <= fval (f q) + zeta))
      cs os g0 w s HOk HG) as ((DL & HD) & HS2); auto.
    { intros w1 g c xs ys HL Hd. destruct (HQ w1 g c xs ys HL Hd) as (B1 & B2). split; [now apply box_point|]. auto. }
    specialize (HD Hlen).
    destruct (run_counted sfun m_fresh m_compute m_add m_hp acq init_n init_pt hp_period cs os g0 w s Hrun) as (CA & CB & CC & CD).
    (* every completed iteration *)
    assert (Pick : forall xs0, In xs0 (stats (trace s)) -> exists X Y g c q, xs0 = X ++ [q] /\ (length X <= length (samples s))%nat /\ List.Forall2 Ok X Y /\
      life (fst g) X (firsts Y) (snd g) /\ box d q /\
      (X <> [] -> exists f, computes_ucb fexp mk d (sf2 (fst g)) (noise (fst g)) (kp (fst g)) m alpha (snd g) f /\ forall v, box d v -> fval (f v) <= fval (f q) + zeta) /\ In (EvAcq X Y g c q) (trace s)).
    { intros xs0 Hin. destruct (CA xs0 Hin) as (rr & Er). destruct (CD xs0 Hin) as (X & Y & g & c & q & -> & Ha).
      assert (Lx : (length X <= length (samples s))%nat) by (rewrite Er, !app_length; lia).
      destruct (HS2 X Y g c q Ha (Nat.le_trans _ _ _ Lx Hlen)) as (F1 & F2 & _ & F3 & F4).
      exists X, Y, g, c, q. auto 10. }
    assert (Bp : forall q, In q (picks (trace s)) -> box d q).
    { intros q Hq. apply in_map_iff in Hq. destruct Hq as (xs0 & <- & Hq). destruct (Pick xs0 Hq) as (X & Y & g & c & q & -> & _ & _ & _ & Gq & _). now rewrite last_last. }
    assert (Hl : (k * r ^ d < length (picks (trace s)))%nat).
    { unfold picks. rewrite map_length. rewrite <- stats_iters in Hit. apply Nat2Z.inj_lt in Hit. exact Hit. }
    destruct (revisit_key (key r) (picks (trace s)) (r ^ d) k) as (l1 & q & l2 & El & Hocc); auto.
    { intros q Hq. destruct (Bp q Hq) as (<- & _). now apply key_lt. }
    assert (B1 : forall v, In v l1 -> box d v) by (intros v Hv; apply Bp; rewrite El; apply in_or_app; now left).
    unfold picks in El. destruct (map_eq_app _ _ _ _ El) as (L1 & LL & ES & El1 & El2). destruct LL as [|xs0 L2]; [discriminate|]. cbn [map] in El2. injection El2 as Eq _.
    assert (Hin : In xs0 (stats (trace s))) by (rewrite ES; apply in_elt).
    destruct (Pick xs0 Hin) as (X & Y & g & c & q' & -> & Lx & FX & Lf & Bq & Fc & Ha). rewrite last_last in Eq. subst q'.
    set (inb := fun v : vec => (length v =? d)%nat && forallb (fun a => if Rle_dec 0 (fval a) then if Rle_dec (fval a) 1 then true else false else false) v).
    set (b := fun v : vec => inb v && (key r v =? key r q)%nat).
    assert (Ko : (k <= length (filter b X))%nat).
    { apply Nat.le_trans with (1 := Hocc). apply Nat.le_trans with (length (filter b l1)).
      - apply Nat.eq_le_incl. f_equal. apply filter_ext_in. intros v Hv. unfold b. replace (inb v) with true; [reflexivity|]. symmetry.
        destruct (B1 v Hv) as (V1 & V2). unfold inb. rewrite V1, Nat.eqb_refl. apply forallb_forall. intros a Ia. destruct (V2 a Ia) as (_ & _ & A1 & A2).
        destruct (Rle_dec 0 (fval a)); [|contradiction]. destruct (Rle_dec (fval a) 1); [reflexivity|contradiction].
      - apply occ_filter. intros v. pose proof (CC L1 _ L2 ES v) as Oc. rewrite removelast_last in Oc. rewrite <- El1. exact Oc. }
    assert (Xn : X <> []) by (intros ->; cbn in Ko; lia).
    destruct (Fc Xn) as (f & Hf & Hmax).
    assert (Fd : List.Forall2 (datum d M) X Y) by (clear - FX HOk; induction FX; constructor; auto).
    destruct (datum_points d M X Y Fd) as (Px & Py).
    assert (Ln : (0 < length X <= 1000)%nat) by (split; [destruct X; [congruence|cbn; lia]|exact (Nat.le_trans _ _ _ Lx Hlen)]).
    assert (Hobs : forall i, (i < length X)%nat -> Rabs (fval (nth i (firsts Y) f0) - H (ptsf X i)) <= eps).
    { assert (Q : forall dd i, (i < length X)%nat -> Rabs (fval (nth i (firsts Y) f0) - H (nth i X dd)) <= eps); [|intros i Hi; now apply Q].
      clear - FX. induction FX as [|x y X Y O _ IH]; intros dd i Hi; [cbn in Hi; lia|]. destruct i as [|i]; cbn [firsts map nth]; [apply O|]. apply IH. cbn in Hi. lia. }
    assert (Nb : forall x, In x X -> b x = true -> near_pt (/ INR r) x q).
    { intros x Ix Hb. unfold b, inb in Hb. apply andb_prop in Hb. destruct Hb as (Hb & Hkq). apply andb_prop in Hb. destruct Hb as (L1' & Fb).
      apply Nat.eqb_eq in L1', Hkq. rewrite forallb_forall in Fb. rewrite List.Forall_forall in Px. destruct (Px x Ix) as (_ & Px2).
      apply key_near with d; auto. split; auto. intros a Ia. destruct (Px2 a Ia) as (A1 & A2 & _). specialize (Fb a Ia).
      destruct (Rle_dec 0 (fval a)); [|discriminate]. destruct (Rle_dec (fval a) 1); [|discriminate]. auto. }
    set (t := fst g) in *. destruct (Hh t) as (h & Hno & Hap). destruct (Hal t) as (Hal1 & Hal2).
    assert (D0 : 0 <= del) by (apply Rle_trans with (2 := Hap q (box_point d q Bq)); apply Rabs_pos).
    assert (Hobs' : forall i, (i < length X)%nat -> Rabs (fval (nth i (firsts Y) f0) - objective (sf2 t) (kp t) (prior mf []) h (ptsf X i)) <= eps + del).
    { intros i Hi. pose proof (Hobs i Hi) as O1. assert (Pi : point d (ptsf X i)) by (rewrite List.Forall_forall in Px; apply Px; unfold ptsf; now apply nth_In).
      pose proof (Hap _ Pi) as O2. apply Rabs_le_inv in O1, O2. apply Rabs_le. lra. }
    pose proof (any_regret fexp mk d (sf2 t) (noise t) (kp t) m mf M lam (HS t) X (firsts Y) (snd g) Lf Ln Px Py Hfix h (Lam t) (eps + del) alpha (length (samples s)) Hno ltac:(lra) Hobs' Lx HA Hal1
      f q b r k zeta Hf Bq Hmax Hr Nb (conj Hk Ko)) as Rg.
    (* the best sample *)
    assert (Iq : In q (samples s)). { destruct (CA _ Hin) as (rr & ->). apply in_or_app. left. apply in_elt. }
    assert (Fo : List.Forall (fun y => dbl M (nth 0 y f0)) (observations s)).
    { clear - HD HOk. induction HD as [|x y X Y O _ IH]; constructor; auto. destruct (HOk _ _ O) as (_ & o & -> & Do). exact Do. }
    destruct (In_nth_error _ _ Iq) as (iq & Eiq).
    assert (Pair : forall i x, nth_error (samples s) i = Some x -> exists y, nth_error (observations s) i = Some y /\ Ok x y).
    { clear - HD. induction HD as [|x0 y0 X Y O _ IH]; intros i x Hi; [destruct i; discriminate|]. destruct i as [|i]; cbn in *; [injection Hi as <-; eauto|auto]. }
    destruct (Pair iq q Eiq) as (yq & Eyq & Oq).
    destruct (C08_incumbent (fun y => nth 0 y f0) s DL) as (i & o & bb & Eo & Eb & _ & Bs & Max & _).
    { intros Z. rewrite Z in Eyq. destruct iq; discriminate. }
    { rewrite Forall_map. apply List.Forall_impl with (2 := Fo). intros y (_ & Fy & _). unfold notnan. destruct (nth 0 y f0); try reflexivity; discriminate. }
    exists bb. split; [exact Bs|]. split; [now apply nth_error_In with i|]. intros v Hv.
    destruct (Pair i bb Eb) as (ob & Eob & Ob). assert (ob = o) as -> by congruence.
    pose proof (Max yq (nth_error_In _ _ Eyq)) as Le. rewrite List.Forall_forall in Fo.
    destruct (Fo _ (nth_error_In _ _ Eo)) as (V1 & F1 & _). destruct (Fo _ (nth_error_In _ _ Eyq)) as (V2 & F2 & _).
    apply flt_R_false in Le; auto. destruct Ob as (_ & Ob). destruct Oq as (_ & Oq). apply Rabs_le_inv in Ob, Oq. specialize (Rg v Hv).
    pose proof (Hap v (box_point d v Hv)) as T1. pose proof (Hap q (box_point d q Bq)) as T2. apply Rabs_le_inv in T1, T2. lra.
  Qed.

  (** The same with the grid search, without any assumption on the inner optimizer: [conv_loss] of C78. *)
  Theorem C81_grid_converges : forall alpha O (Lam : T -> R) del eps Lo cs os g0 w s grid k,
    (forall t, setting_ok fexp mk d (sf2 t) (noise t) (kp t) m mf M lam bins fuel) -> fixed mf -> dbl (2 ^ 20) alpha -> 0 <= eps ->
    (forall t, exists h, norm_le d (sf2 t) (kp t) h (Lam t) /\ forall v, point d v -> Rabs (O v - objective (sf2 t) (kp t) (prior mf []) h v) <= del) ->
    runs_hgp -> runs_hgrid (fun t => computes_ucb fexp mk d (sf2 t) (noise t) (kp t) m alpha) ->
    objective_ok d sfun (measured d M eps O) -> (forall i w, point d (fst (init_pt i w))) -> List.Forall (op_ok d (measured d M eps O)) os ->
    run cs os (new_bo g0 w) = Some s -> (length (samples s) <= 1000)%nat ->
    (forall t, Lam t + sqrt (INR (length (samples s)) / nugget (noise t)) * (eps + del) <= fval alpha /\
       conv_loss alpha (sf2 t) (noise t) (kp t) (length (samples s)) d m M (Lam t) bins lam k <= Lo) ->
    grid_search_xs fuel bins = Some grid -> (1 <= k)%nat -> (Z.of_nat (k * length grid ^ d) < iters (trace s))%Z ->
    exists b, best_sample (fun y => nth 0 y f0) s = Some b /\ In b (samples s) /\
      forall w, box d w -> O w <= O b + Lo + 2 * eps + 2 * del.
  Proof.
    intros alpha H Lam del eps Lo cs os g0 w s grid k HS Hfix HA He Hh HG HQ HO HI Hops Hrun Hlen Hal Hgrid Hk Hit.
    destruct (HS (fst g0)) as (_ & _ & _ & _ & _ & _ & _ & Hd & Hb & Hfu).
    set (Ok := measured d M eps H) in *. assert (HOk : forall x y, Ok x y -> datum d M x y) by (intros x y O; apply O).
    destruct (run_hyper Ok (fun g X _ q => exists f, (X <> [] -> computes_ucb fexp mk d (sf2 (fst g)) (noise (fst g)) (kp (fst g)) m alpha (snd g) f) /\
      exists grid, grid_search_xs fuel bins = Some grid /\ grid_search f grid d = GVec q) cs os g0 w s HOk HG) as ((DL & HD) & HS2); auto.
    { intros w1 g c xs ys HL Hdt. destruct (HQ w1 g c xs ys HL Hdt) as (f & Hf & gr & G1 & G2). split; [exact (grid_pt f gr _ Hb Hfu G1 G2)|]. exists f. split; auto. exists gr. auto. }
    specialize (HD Hlen).
    destruct (run_counted sfun m_fresh m_compute m_add m_hp acq init_n init_pt hp_period cs os g0 w s Hrun) as (CA & CB & CC & CD).
    (* every completed iteration *)
    assert (Pick : forall xs0, In xs0 (stats (trace s)) -> exists X Y g c q f, xs0 = X ++ [q] /\ (length X <= length (samples s))%nat /\ List.Forall2 Ok X Y /\
      life (fst g) X (firsts Y) (snd g) /\ (X <> [] -> computes_ucb fexp mk d (sf2 (fst g)) (noise (fst g)) (kp (fst g)) m alpha (snd g) f) /\ grid_search f grid d = GVec q /\ In (EvAcq X Y g c q) (trace s)).
    { intros xs0 Hin. destruct (CA xs0 Hin) as (r & Er). destruct (CD xs0 Hin) as (X & Y & g & c & q & -> & Ha).
      assert (Lx : (length X <= length (samples s))%nat) by (rewrite Er, !app_length; lia).
      destruct (HS2 X Y g c q Ha (Nat.le_trans _ _ _ Lx Hlen)) as (F1 & F2 & _ & f & F3 & gr & G1 & G2). rewrite Hgrid in G1. injection G1 as <-.
      exists X, Y, g, c, q, f. auto 10. }
    destruct (grid_sampling grid d) as [P|] eqn:EP; [|exfalso; clear - EP Hd; destruct d; [lia|discriminate]].
    destruct (grid_sampling_spec grid d P EP) as (P1 & _ & P3).
    assert (Hinc : incl (picks (trace s)) P).
    { intros q Hq. apply in_map_iff in Hq. destruct Hq as (xs0 & <- & Hq). destruct (Pick xs0 Hq) as (X & Y & g & c & q & f & -> & _ & _ & _ & _ & Gq & _).
      rewrite last_last. apply P1. now destruct (C15_grid_search_best f grid d q Gq) as (Q & _). }
    assert (Hl : (k * length P < length (picks (trace s)))%nat).
    { unfold picks. rewrite map_length, P3. rewrite <- stats_iters in Hit. apply Nat2Z.inj_lt in Hit. exact Hit. }
    destruct (revisit (picks (trace s)) P k Hinc Hl) as (l1 & q & l2 & El & Hocc).
    unfold picks in El. destruct (map_eq_app _ _ _ _ El) as (L1 & LL & ES & El1 & El2). destruct LL as [|xs0 L2]; [discriminate|]. cbn [map] in El2. injection El2 as Eq _.
    assert (Hin : In xs0 (stats (trace s))) by (rewrite ES; apply in_elt).
    destruct (Pick xs0 Hin) as (X & Y & g & c & q' & f & -> & Lx & FX & Lf & Fc & Gq & Ha). rewrite last_last in Eq. subst q'.
    pose proof (CC L1 _ L2 ES q) as Oc. rewrite removelast_last in Oc.
    assert (Ko : (k <= count_occ vec_dec X q)%nat) by (apply Nat.le_trans with (2 := Oc); rewrite <- El1 in Hocc; exact Hocc).
    assert (Xn : X <> []) by (intros ->; cbn in Ko; lia).
    assert (Fd : List.Forall2 (datum d M) X Y) by (clear - FX HOk; induction FX; constructor; auto).
    destruct (datum_points d M X Y Fd) as (Px & Py).
    assert (Ln : (0 < length X <= 1000)%nat) by (split; [destruct X; [congruence|cbn; lia]|exact (Nat.le_trans _ _ _ Lx Hlen)]).
    assert (Hobs : forall i, (i < length X)%nat -> Rabs (fval (nth i (firsts Y) f0) - H (ptsf X i)) <= eps).
    { assert (Q : forall dd i, (i < length X)%nat -> Rabs (fval (nth i (firsts Y) f0) - H (nth i X dd)) <= eps); [|intros i Hi; now apply Q].
      clear - FX. induction FX as [|x y X Y O _ IH]; intros dd i Hi; [cbn in Hi; lia|]. destruct i as [|i]; cbn [firsts map nth]; [apply O|]. apply IH. cbn in Hi. lia. }
    set (t := fst g) in *. destruct (Hh t) as (h & Hno & Hap). destruct (Hal t) as (Hal1 & Hal2).
    assert (Pq : point d q) by (destruct (HS2 X Y g c q Ha (proj2 Ln)) as (_ & _ & Pq & _); exact Pq).
    assert (D0 : 0 <= del) by (apply Rle_trans with (2 := Hap q Pq); apply Rabs_pos).
    assert (Hobs' : forall i, (i < length X)%nat -> Rabs (fval (nth i (firsts Y) f0) - objective (sf2 t) (kp t) (prior mf []) h (ptsf X i)) <= eps + del).
    { intros i Hi. pose proof (Hobs i Hi) as O1. assert (Pi : point d (ptsf X i)) by (rewrite List.Forall_forall in Px; apply Px; unfold ptsf; now apply nth_In).
      pose proof (Hap _ Pi) as O2. apply Rabs_le_inv in O1, O2. apply Rabs_le. lra. }
    pose proof (step_regret fexp mk d (sf2 t) (noise t) (kp t) m mf M lam bins fuel (HS t) X (firsts Y) (snd g) Lf Ln Px Py Hfix h (Lam t) (eps + del) alpha (length (samples s)) Hno ltac:(lra) Hobs' Lx HA Hal1
      f q k (Fc Xn) ltac:(eauto) ltac:(lia)) as Rg.
    (* the best sample *)
    assert (Iq : In q (samples s)). { destruct (CA _ Hin) as (r & ->). apply in_or_app. left. apply in_elt. }
    assert (Fo : List.Forall (fun y => dbl M (nth 0 y f0)) (observations s)).
    { clear - HD HOk. induction HD as [|x y X Y O _ IH]; constructor; auto. destruct (HOk _ _ O) as (_ & o & -> & Do). exact Do. }
    destruct (In_nth_error _ _ Iq) as (iq & Eiq).
    assert (Pair : forall i x, nth_error (samples s) i = Some x -> exists y, nth_error (observations s) i = Some y /\ Ok x y).
    { clear - HD. induction HD as [|x0 y0 X Y O _ IH]; intros i x Hi; [destruct i; discriminate|]. destruct i as [|i]; cbn in *; [injection Hi as <-; eauto|auto]. }
    destruct (Pair iq q Eiq) as (yq & Eyq & Oq).
    destruct (C08_incumbent (fun y => nth 0 y f0) s DL) as (i & o & b & Eo & Eb & _ & Bs & Max & _).
    { intros Z. rewrite Z in Eyq. destruct iq; discriminate. }
    { rewrite Forall_map. apply List.Forall_impl with (2 := Fo). intros y (_ & Fy & _). unfold notnan. destruct (nth 0 y f0); try reflexivity; discriminate. }
    exists b. split; [exact Bs|]. split; [now apply nth_error_In with i|]. intros v Hv.
    destruct (Pair i b Eb) as (ob & Eob & Ob). assert (ob = o) as -> by congruence.
    pose proof (Max yq (nth_error_In _ _ Eyq)) as Le. rewrite List.Forall_forall in Fo.
    destruct (Fo _ (nth_error_In _ _ Eo)) as (V1 & F1 & _). destruct (Fo _ (nth_error_In _ _ Eyq)) as (V2 & F2 & _).
    apply flt_R_false in Le; auto. destruct Ob as (_ & Ob). destruct Oq as (_ & Oq). apply Rabs_le_inv in Ob, Oq. specialize (Rg v Hv).
    pose proof (Hap v (box_point d v Hv)) as T1. pose proof (Hap q Pq) as T2. apply Rabs_le_inv in T1, T2. lra.
  Qed.
End Runs.

(** ** The hypotheses hold: the default parameters of the kernels except the signal variance, which the
    learning switches between 1 and 1/2 after every iteration *)
Definition ex_par (p : kpar) (t : bool) : hyper := mkHyper (if t then f1 else fhalf) ex_noise p.
Definition retrainF (fexp : F -> F) (sf2 noise : F) (p : kpar) (g : fgp) : fgp :=
  let xs := fg_xs g in
  let A := kernel_full (fun i j => kval fexp sf2 noise p (ptsf xs i) (ptsf xs j) (i =? j)%nat) in
  let L := cholF A (length xs) in
  mkFgp xs (fg_ys g) (fg_mean g) A L (alphaF (length xs) L (residual (fg_ys g) (fg_mean g))).
Lemma retrainF_ok fexp mk d sf2 noise p m g : kpar_ok d p -> (2 * d <= mk)%nat -> List.Forall (point d) (fg_xs g) -> (length (fg_xs g) <= m)%nat ->
  gp_retrain fexp mk sf2 noise p m g (retrainF fexp sf2 noise p g).
Proof.
  intros Hp Hmk Hx Hm. unfold gp_retrain, retrainF. cbv zeta. cbn [fg_xs fg_ys fg_mean fg_A fg_L fg_a]. split; auto. split; auto. split; auto.
  assert (P : forall i, (i < length (fg_xs g))%nat -> point d (ptsf (fg_xs g) i)) by (intros i Hi; rewrite List.Forall_forall in Hx; apply Hx, nth_In, Hi).
  split; [|apply alphaF_ok; lia]. eexists. split; [|split; [reflexivity|]].
  - intros i j Hi. apply kval_ok with d; auto; apply P; lia.
  - apply (cholF_ok m (length (fg_xs g)) _ Hm (length (fg_xs g)) (le_n _)).
Qed.
Definition ex_hucb p (g : bool * fgp) : fpt -> F :=
  let sf2 := hy_sf2 (ex_par p (fst g)) in
  match fg_xs (snd g) with
  | [] => fun _ => f0
  | _ => fun v => fadd (muF best_exp sf2 ex_noise p (snd g) v) (fmul f1 (fsqrt (sigmaF best_exp sf2 ex_noise p (snd g) v)))
  end.
Definition ex_hei p (g : bool * fgp) : fpt -> F :=
  let sf2 := hy_sf2 (ex_par p (fst g)) in
  match map (muF best_exp sf2 ex_noise p (snd g)) (fg_xs (snd g)) with
  | [] => fun _ => f0
  | r0 :: rs => fun v =>
      let sg := sigmaF best_exp sf2 ex_noise p (snd g) v in
      let X := fsub (fsub (muF best_exp sf2 ex_noise p (snd g) v) (fold_left (fun a b => if flt a b then b else a) rs r0)) f0 in
      let Z := fdiv X (fsqrt sg) in
      if flt (fsqrt sg) cutoff || (length (r0 :: rs) <? 1)%nat then f0 else
      fadd (fmul X (fmul fhalf (best_erfc (fdiv (fopp Z) (fsqrt ftwo))))) (fmul (fsqrt sg) (fdiv (best_exp (fmul mhalf (best_pow2 Z))) (fsqrt (fmul ftwo fpi))))
  end.
Definition ex_hacq (a : bool * fgp -> fpt -> F) (_ : unit) (g : bool * fgp) (_ : Z) : F64.vec * unit :=
  (match grid_search (a g) ex_grid 2 with GVec x => x | _ => [] end, tt).
Definition ex_hinner p (g : bool * fgp) : F64.vec := argmax (ex_hucb p g) [f0; f0] (unit_box 2).
Definition ex_hcomp p mf (_ : unit) (g : bool * fgp) (xs ys : list F64.vec) : (bool * fgp) * unit := ((fst g, computeF best_exp (hy_sf2 (ex_par p (fst g))) ex_noise p mf xs (firsts ys)), tt).
Definition ex_hadd p mf (_ : unit) (g : bool * fgp) (x y : F64.vec) : (bool * fgp) * unit := ((fst g, addF best_exp (hy_sf2 (ex_par p (fst g))) ex_noise p mf (snd g) x (nth 0 y f0)), tt).
Definition ex_hp p (_ : unit) (g : bool * fgp) : (bool * fgp) * unit := ((negb (fst g), retrainF best_exp (hy_sf2 (ex_par p (negb (fst g)))) ex_noise p (snd g)), tt).
Definition ex_hrun p mf obj (aq : unit -> bool * fgp -> Z -> F64.vec * unit) := run_ops (W := unit) (M := bool * fgp) (E := unit) obj (true, ex_empty)
  (ex_hcomp p mf) (ex_hadd p mf) (ex_hp p) aq 1 (fun _ _ => ([fhalf; fhalf], tt)) 1.

Section Example81.
  Variables (p : kpar) (mf : meanf).
  Hypothesis Hp : In p [PExp f1; PMatern3 f1; PMatern5 f1; PArd [f1; fofZe 1 (-1)]].
  Hypothesis Hmf : In mf [MNull; MConst fhalf; MData].
  Notation sf t := (hy_sf2 (ex_par p t)).
  Lemma ex_sf_val t : fval (sf t) = if t then 1 else 1 / 2.
  Proof. destruct t; cbn [ex_par hy_sf2]; [cbv -[IZR F2R bpow]; unfold F2R; simpl; lra|apply half_val]. Qed.
  Lemma ex_h_setting t : setting_ok best_exp 4 2 (sf t) (hy_noise (ex_par p t)) (hy_p (ex_par p t)) ex_m mf 1 (1 / 2) 4 7.
  Proof.
    destruct (C77_example p mf Hp Hmf) as (HS & _). destruct t; [exact HS|]. cbn [ex_par hy_sf2 hy_noise hy_p].
    destruct HS as ((R1 & R2 & R3 & R4 & R5 & R6) & HS). split; [|exact HS]. destruct half_val as (Vh & Fh & Eh).
    assert (1 <= 2 ^ 100) by (apply pow_R1_Rle; lra). assert (/ 2 ^ 100 <= / 2) by (apply Rinv_le_contravar; [lra|]; rewrite <- (pow_1 2) at 1; apply Rle_pow; [lra|lia]).
    split; auto. split; auto. split; auto. split; [split; auto; split; auto; rewrite Eh; lra|]. split; [rewrite Eh; lra|exact R6].
  Qed.
  Lemma ex_h_facts t xs ys g : gp_life best_exp 4 (sf t) ex_noise p ex_m mf xs (firsts ys) g -> data 2 1 xs ys ->
    fg_xs g = xs /\ length (fg_ys g) = length (fg_xs g) /\ List.Forall (point 2) (fg_xs g) /\ (length (fg_xs g) < ex_m)%nat /\ List.Forall (dbl 1) (firsts ys) /\ kpar_ok 2 p.
  Proof.
    intros HL (Le & Hd). destruct (life_fields _ _ _ _ _ _ _ _ _ _ HL) as (E1 & E2 & E3 & _). destruct (datum_points 2 1 xs ys Hd) as (P1 & P2). rewrite E1, E2.
    assert (1000 < ex_m)%nat by (unfold ex_m; lia). split; auto. split; auto. split; auto. split; [exact (Nat.le_lt_trans _ _ _ Le H)|]. split; auto. apply (ex_h_setting t).
  Qed.
  Lemma ex_h_gp : runs_hgp (W := unit) best_exp 4 2 (ex_par p) ex_m mf 1 (true, ex_empty) (ex_hcomp p mf) (ex_hadd p mf) (ex_hp p).
  Proof.
    assert (HK : kpar_ok 2 p) by apply (ex_h_setting true). assert (M1000 : (1000 < ex_m)%nat) by (unfold ex_m; lia).
    split; [reflexivity|]. split; [reflexivity|]. split; [|split].
    - intros w g xs ys Hn (Le & Hd). cbn [ex_hcomp fst snd]. split; [reflexivity|]. apply computeF_ok with 2%nat; auto; [apply (datum_points 2 1 xs ys Hd)|unfold firsts; rewrite map_length; symmetry; exact (datum_length 2 1 xs ys Hd)|].
      exact (Nat.le_trans _ _ _ Le (Nat.lt_le_incl _ _ M1000)).
    - intros w g xs ys x y HL Lt Hd (Px & _). cbn [ex_hadd fst snd]. split; [reflexivity|].
      destruct (ex_h_facts _ _ _ _ HL (conj (Nat.lt_le_incl _ _ Lt) Hd)) as (A1 & A2 & A3 & A4 & _). apply addF_ok with 2%nat; auto.
    - intros w g xs ys HL Hn Hd. cbn [ex_hp fst snd]. destruct (ex_h_facts _ _ _ _ HL Hd) as (A1 & A2 & A3 & A4 & _). apply retrainF_ok with 2%nat; auto. now apply Nat.lt_le_incl.
  Qed.
  Lemma ex_h_query t xs ys g v : gp_life best_exp 4 (sf t) ex_noise p ex_m mf xs (firsts ys) g -> data 2 1 xs ys -> point 2 v ->
    gp_query best_exp 4 (sf t) ex_noise p ex_m g v (muF best_exp (sf t) ex_noise p g v) (sigmaF best_exp (sf t) ex_noise p g v).
  Proof. intros HL Hd Pv. destruct (ex_h_facts _ _ _ _ HL Hd) as (A1 & A2 & A3 & A4 & _ & HK). apply queryF_ok with 2%nat; auto. Qed.
  Lemma ex_h_cu (g : bool * fgp) xs ys : gp_life best_exp 4 (sf (fst g)) ex_noise p ex_m mf xs (firsts ys) (snd g) -> data 2 1 xs ys -> xs <> [] ->
    computes_ucb best_exp 4 2 (sf (fst g)) ex_noise p ex_m f1 (snd g) (ex_hucb p g).
  Proof.
    intros HL Hd Hn v Pv. eexists _, _. split; [exact (ex_h_query _ _ _ _ v HL Hd Pv)|]. left. unfold ex_hucb. rewrite (proj1 (ex_h_facts _ _ _ _ HL Hd)). destruct xs; [congruence|reflexivity].
  Qed.
  Lemma ex_d1 : dbl (2 ^ 20) f1.
  Proof.
    assert (E1 : fval f1 = 1) by (cbv -[IZR F2R bpow]; unfold F2R; simpl; lra). assert (1 <= 2 ^ 20) by (apply pow_R1_Rle; lra).
    split; [reflexivity|]; split; [reflexivity|]. rewrite E1, Rabs_pos_eq; lra.
  Qed.
  Lemma ex_h_grid : runs_hgrid (W := unit) best_exp 4 2 (ex_par p) ex_m mf 1 4 7 (ex_hacq (ex_hucb p)) (fun t => computes_ucb best_exp 4 2 (sf t) (hy_noise (ex_par p t)) (hy_p (ex_par p t)) ex_m f1).
  Proof.
    assert (E1 : fval f1 = 1) by (cbv -[IZR F2R bpow]; unfold F2R; simpl; lra).
    intros w g c xs ys HL Hd. destruct (ex_h_facts _ _ _ _ HL Hd) as (A1 & A2 & A3 & A4 & P2 & HK). rewrite A1 in A3.
    exists (ex_hucb p g). split; [exact (ex_h_cu g xs ys HL Hd)|]. exists ex_grid. split; [vm_compute; reflexivity|].
    destruct xs as [|x0 xs'].
    { unfold ex_hacq, ex_hucb. rewrite A1. vm_compute. reflexivity. }
    assert (Hn : (0 < length (x0 :: xs') <= 1000)%nat) by (split; [cbn; lia|apply Hd]). set (t := fst g) in *.
    pose proof (ex_h_setting t) as HS. destruct (step_facts best_exp 4 2 _ _ _ ex_m mf 1 (1 / 2) 4 7 HS (x0 :: xs') (firsts ys) (snd g) HL Hn A3 P2) as (HU & Hm & HG & _ & _ & Hr & Dm & _).
    destruct HS as (_ & _ & _ & _ & _ & _ & Hsc & _). assert (Cu' := ex_h_cu g _ ys HL Hd ltac:(discriminate)). unfold computes_ucb, gp_query in Cu'. rewrite A1 in Cu'.
    destruct (C74_ucb best_exp 4 2 (sf t) ex_noise p (length (x0 :: xs')) (ptsf (x0 :: xs')) ex_m (fg_L (snd g)) (residual (firsts ys) (fg_mean (snd g))) (fg_a (snd g)) f1 (fg_mean (snd g)) (1 / 2) 4 7 (ex_hucb p g)
      HU Hm HG Hr ex_d1 ltac:(lra) Dm ltac:(lra) Hsc ltac:(lia) ltac:(lia) ltac:(cbn; lia) Cu') as (B & _ & gr & q & G1 & G2 & _).
    unfold ex_hacq. change ex_grid with (match grid_search_xs 7 4 with Some g => g | None => [] end). rewrite G1, G2. reflexivity.
  Qed.
  Lemma ex_h_grid_ei : runs_hgrid (W := unit) best_exp 4 2 (ex_par p) ex_m mf 1 4 7 (ex_hacq (ex_hei p))
    (fun t => computes_ei best_exp 4 2 (sf t) (hy_noise (ex_par p t)) (hy_p (ex_par p t)) ex_m best_erfc best_pow2 f0).
  Proof.
    assert (P200 : 1 <= 2 ^ 200) by (apply pow_R1_Rle; lra). destruct f0_ok as (V0 & F0 & E0).
    assert (D0 : dbl (2 ^ 200) f0) by (split; [reflexivity|]; split; [reflexivity|]; rewrite E0, Rabs_R0; lra).
    intros w g c xs ys HL Hd. destruct (ex_h_facts _ _ _ _ HL Hd) as (A1 & A2 & A3 & A4 & P2 & HK). set (t := fst g) in *.
    set (rw := map (muF best_exp (sf t) ex_noise p (snd g)) (fg_xs (snd g))).
    assert (Hrw : List.Forall2 (fun x r => gp_mu best_exp 4 (sf t) ex_noise p ex_m (snd g) x r) (fg_xs (snd g)) rw).
    { unfold rw. assert (Q : List.Forall (fun x => gp_mu best_exp 4 (sf t) ex_noise p ex_m (snd g) x (muF best_exp (sf t) ex_noise p (snd g) x)) (fg_xs (snd g))).
      { rewrite List.Forall_forall in *. intros x Ix. apply muF_ok with 2%nat; auto. now rewrite List.Forall_forall. }
      clear - Q. induction Q; cbn; constructor; auto. }
    assert (Cf : xs <> [] -> forall v, point 2 v -> exists mu sigma_sq, gp_query best_exp 4 (sf t) ex_noise p ex_m (snd g) v mu sigma_sq /\ ei_of best_exp best_erfc best_pow2 f0 rw mu sigma_sq (ex_hei p g v)).
    { intros Hn v Pv. eexists _, _. split; [exact (ex_h_query _ _ _ _ v HL Hd Pv)|]. unfold ex_hei. cbv zeta. fold t rw. destruct rw as [|r0 rs]; [inversion Hrw; congruence|].
      unfold ei_of. cbv zeta. destruct (flt (fsqrt (sigmaF best_exp (sf t) ex_noise p (snd g) v)) cutoff || (length (r0 :: rs) <? 1)%nat); [reflexivity|].
      eexists. split; [reflexivity|]. left. reflexivity. }
    exists (ex_hei p g). split; [intros Hn; exists rw; split; [exact Hrw|exact (Cf Hn)]|]. exists ex_grid. split; [vm_compute; reflexivity|].
    destruct xs as [|x0 xs'].
    { unfold ex_hacq, ex_hei. rewrite A1. vm_compute. reflexivity. }
    rewrite A1 in A3. assert (Hn : (0 < length (x0 :: xs') <= 1000)%nat) by (split; [cbn; lia|apply Hd]).
    pose proof (ex_h_setting t) as HS. destruct (step_facts best_exp 4 2 _ _ _ ex_m mf 1 (1 / 2) 4 7 HS (x0 :: xs') (firsts ys) (snd g) HL Hn A3 P2) as (HU & Hm & HG & _ & _ & Hr & Dm & _).
    destruct HS as (_ & _ & _ & _ & _ & _ & Hsc & _).
    assert (Cf' := Cf ltac:(discriminate)). unfold gp_query in Cf'. rewrite A1 in Cf'. unfold gp_mu in Hrw. rewrite A1 in Hrw.
    destruct (C74_ei best_exp best_erfc best_pow2 f0 4 2 (sf t) ex_noise p (length (x0 :: xs')) (ptsf (x0 :: xs')) ex_m (fg_L (snd g)) (residual (firsts ys) (fg_mean (snd g))) (fg_a (snd g)) (fg_mean (snd g)) rw (1 / 2) 4 7 (ex_hei p g)
      HU ltac:(rewrite ex_sf_val; destruct t; lra) Hm HG Hr (proj1 C73_libm_example) (proj2 C73_libm_example) D0 Dm (rewards_seq _ _ _ Hrw) ltac:(lra) Hsc ltac:(lia) ltac:(lia) ltac:(cbn; lia) Cf') as (B & _ & fb & _ & gr & q & G1 & G2 & _).
    unfold ex_hacq. change ex_grid with (match grid_search_xs 7 4 with Some g => g | None => [] end). rewrite G1, G2. reflexivity.
  Qed.
  Lemma ex_h_inner : runs_hinner (W := unit) best_exp 4 2 (ex_par p) ex_m mf 1 (fun _ g _ => (ex_hinner p g, tt)) (fun t => computes_ucb best_exp 4 2 (sf t) (hy_noise (ex_par p t)) (hy_p (ex_par p t)) ex_m f1) 0.
  Proof.
    assert (E1 : fval f1 = 1) by (cbv -[IZR F2R bpow]; unfold F2R; simpl; lra). destruct f0_ok as (V0 & F0 & E0).
    intros w g c xs ys HL Hd. destruct (ex_h_facts _ _ _ _ HL Hd) as (A1 & A2 & A3 & A4 & P2 & HK). rewrite A1 in A3. cbn [fst].
    assert (Bx : forall v, In v ([f0; f0] :: unit_box 2) -> box 2 v).
    { intros v [<-|Hv]; [|now apply in_unit_box]. split; [reflexivity|]. intros a [<-|[<-|[]]]; rewrite E0; (split; [exact V0|]; split; [exact F0|lra]). }
    split; [apply Bx, argmax_in|]. intros Hn. exists (ex_hucb p g). pose proof (ex_h_cu g xs ys HL Hd Hn) as Cu. set (t := fst g) in *.
    split; [exact Cu|]. intros v Hv. rewrite Rplus_0_r. apply (argmax_max (ex_hucb p g) (unit_box 2) [f0; f0]); [|right; now apply in_unit_box].
    intros u Hu. pose proof (box_point 2 u (Bx u Hu)) as Pu. assert (Hln : (0 < length xs <= 1000)%nat) by (split; [destruct xs; [congruence|cbn; lia]|apply Hd]).
    destruct (step_facts best_exp 4 2 _ _ _ ex_m mf 1 (1 / 2) 4 7 (ex_h_setting t) xs (firsts ys) (snd g) HL Hln A3 P2) as (HU & Hm & HGp & _ & _ & Hr & Dm & _).
    destruct (C73_ucb _ _ _ _ _ _ _ _ _ _ _ _ _ HU Hm HGp Hr ex_d1 ltac:(lra)) as (B & _ & HC).
    unfold computes_ucb, gp_query in Cu. rewrite A1 in Cu. destruct (Cu u Pu) as (mu & sg & Qu & Uu). destruct (HC u (fg_mean (snd g)) mu sg _ Pu Dm Qu Uu) as (R1 & R2 & _). auto.
  Qed.
End Example81.

Lemma ex_hrun_done p mf (val : fpt -> F) (qf : bool * fgp -> Z -> F64.vec) n : (forall x, is_nan_or_inf [val x] = false) ->
  exists s, ex_hrun p mf (fun _ x => (inl [val x], tt)) (fun _ g c => (qf g c, tt)) [max_iterations (Z.of_nat n)] [OpOptimize true (S n)] (new_bo (true, ex_empty) tt) = Some s /\
  iters (trace s) = Z.of_nat n /\ (calls (trace s) <= 2)%Z /\ length (samples s) = S n /\
  ((2 <= n)%nat -> exists X Y g q, In (EvAcq X Y g 1 q) (trace s) /\ fst g = false /\ length X = 2%nat).
Proof.
  intros Fin. unfold ex_hrun. set (ob := fun (_ : unit) x => _). set (aq := fun (_ : unit) (g : bool * fgp) (c : Z) => (qf g c, tt)).
  assert (Ev : forall (s : bo unit (bool * fgp) unit) x, exists y, eval_and_add ob s x = Ret (push (log (set_world s tt) (EvEval x (inl y))) x y)).
  { intros s x. eexists. unfold eval_and_add, ob, add_new_sample. rewrite Fin. reflexivity. }
  set (cs := [max_iterations (Z.of_nat n)]).
  assert (Loop : forall j (s : bo unit (bool * fgp) unit) c, cur s = Some c -> (c + Z.of_nat j = Z.of_nat n)%Z -> (0 <= c)%Z -> fst (model s) = Z.even c -> Z.of_nat (length (samples s)) = (c + 1)%Z ->
    exists s', loop ob (ex_hadd p mf) (ex_hp p) aq 1 cs (S j) s = Ret s' /\ iters (trace s') = (iters (trace s) + Z.of_nat j)%Z /\ calls (trace s') = calls (trace s) /\ length (samples s') = (length (samples s) + j)%nat /\
      incl (trace s) (trace s') /\ ((c <= 1)%Z -> (2 <= n)%nat -> exists X Y g q, In (EvAcq X Y g 1 q) (trace s') /\ fst g = false /\ length X = 2%nat)).
  { induction j as [|j IH]; intros s c Hc Ej C0 Hm Hl.
    - cbn [loop]. rewrite Hc. unfold stop_now, cs. cbn [chain max_iterations crit_op crit_val]. rewrite Hc. destruct (Z.leb_spec (Z.of_nat n) c) as [_|L]; [|exfalso; lia]. cbn.
      eexists. split; [reflexivity|]. cbn [trace samples log set_world]. unfold iters, calls. rewrite !fold_left_app. cbn. split; [lia|]. split; [reflexivity|]. split; [apply plus_n_O|].
      split; [intros e He; apply in_or_app; now left|]. intros C1 N2. exfalso. lia.
    - remember (S j) as j1 eqn:Ej1. cbn [loop]. rewrite Hc. unfold stop_now, cs. cbn [chain max_iterations crit_op crit_val]. rewrite Hc. destruct (Z.leb_spec (Z.of_nat n) c) as [L|_]; [exfalso; lia|].
      unfold iteration, aq at 1.
      match goal with |- context [eval_and_add ob ?s ?x] => destruct (Ev s x) as (y & ->) end. rewrite Z.mod_1_r. cbn [Z.ltb Z.eqb Z.compare andb ex_hadd ex_hp fst].
      match goal with |- context [loop _ _ _ _ _ _ j1 ?s'] => destruct (IH s' (c + 1)%Z) as (s2 & E2 & I2 & C2 & L2 & In2 & Q2) end; [reflexivity|lia|lia| | |].
      + cbn [model set_tot set_cur log set_model set_world push fst]. rewrite Hm, Z.even_add. now destruct (Z.even c).
      + cbn [samples set_tot set_cur log set_model set_world push]. rewrite app_length, Nat2Z.inj_add, Hl. reflexivity.
      + exists s2. split; [exact E2|]. rewrite I2, C2, L2, Ej1. cbn [cur samples trace set_tot set_cur set_model set_world log push observations world model] in *.
        split; [unfold iters; rewrite !fold_left_app; cbn [fold_left iters_step]; lia|]. split; [unfold calls; rewrite !fold_left_app; reflexivity|]. split; [rewrite !app_length; cbn [length]; now rewrite <- Nat.add_assoc|].
        split; [intros e He; apply In2; rewrite !in_app_iff; tauto|]. intros C1 N2. destruct (Z.eq_dec c 1) as [->|Nc]; [|apply Q2; [lia|exact N2]].
        eexists (samples s), (observations s), (model s), _. split; [apply In2; rewrite !in_app_iff; cbn [In]; left; left; left; right; left; reflexivity|]. split; [exact Hm|]. apply Nat2Z.inj. exact Hl. }
  cbn [run_ops run_op]. unfold optimize, init_phase. cbn [run_init Z.eqb tot log set_tot set_cur clear_data new_bo].
  match goal with |- context [eval_and_add ob ?s ?x] => destruct (Ev s x) as (y0 & ->) end. cbn [observations push app log set_world samples world model ex_hcomp].
  match goal with |- context [loop _ _ _ _ _ _ (S n) ?s] => destruct (Loop n s 0%Z eq_refl ltac:(lia) ltac:(lia) eq_refl eq_refl) as (s2 & -> & I2 & C2 & L2 & _ & Q2) end.
  exists s2. split; [reflexivity|]. rewrite I2, C2, L2. split; [reflexivity|]. split; [cbn; lia|]. split; [reflexivity|]. apply Q2. lia.
Qed.

(** one initial sample and two iterations: the second with the new signal variance *)
Example C81_example : forall p mf, In p [PExp f1; PMatern3 f1; PMatern5 f1; PArd [f1; fofZe 1 (-1)]] -> In mf [MNull; MConst fhalf; MData] ->
  (forall t, setting_ok best_exp 4 2 (hy_sf2 (ex_par p t)) (hy_noise (ex_par p t)) (hy_p (ex_par p t)) ex_m mf 1 (1 / 2) 4 7 /\ 1 / 100 <= fval (hy_sf2 (ex_par p t))) /\
  fval (hy_sf2 (ex_par p true)) = 1 /\ fval (hy_sf2 (ex_par p false)) = 1 / 2 /\ dbl (2 ^ 20) f1 /\ 0 <= fval f1 /\
  runs_hgp (W := unit) best_exp 4 2 (ex_par p) ex_m mf 1 (true, ex_empty) (ex_hcomp p mf) (ex_hadd p mf) (ex_hp p) /\
  runs_hgrid (W := unit) best_exp 4 2 (ex_par p) ex_m mf 1 4 7 (ex_hacq (ex_hucb p)) (fun t => computes_ucb best_exp 4 2 (hy_sf2 (ex_par p t)) (hy_noise (ex_par p t)) (hy_p (ex_par p t)) ex_m f1) /\
  runs_hgrid (W := unit) best_exp 4 2 (ex_par p) ex_m mf 1 4 7 (ex_hacq (ex_hei p)) (fun t => computes_ei best_exp 4 2 (hy_sf2 (ex_par p t)) (hy_noise (ex_par p t)) (hy_p (ex_par p t)) ex_m best_erfc best_pow2 f0) /\
  runs_objective 2 1 ex_obj /\ point 2 [fhalf; fhalf] /\
  forall a, exists s X Y g q, ex_hrun p mf ex_obj (ex_hacq a) [max_iterations 2] [OpOptimize true 3] (new_bo (true, ex_empty) tt) = Some s /\
      In (EvAcq X Y g 1 q) (trace s) /\ fst g = false /\ length X = 2%nat.
Proof.
  intros p mf Hp Hmf. destruct (C77_example p mf Hp Hmf) as (_ & _ & _ & _ & HO & PH & _).
  assert (E1 : fval f1 = 1) by (cbv -[IZR F2R bpow]; unfold F2R; simpl; lra).
  split; [intros t; split; [now apply ex_h_setting|rewrite ex_sf_val; destruct t; lra]|]. split; [apply ex_sf_val|]. split; [apply ex_sf_val|]. split; [apply ex_d1|]. split; [lra|].
  split; [now apply ex_h_gp|]. split; [now apply ex_h_grid|]. split; [now apply ex_h_grid_ei|]. split; [exact HO|]. split; [exact PH|].
  intros a. destruct (ex_hrun_done p mf (fun x => if flt (nth 0 x f0) fhalf then f1 else fhalf) (fun g _ => match grid_search (a g) ex_grid 2 with GVec x => x | _ => [] end) 2) as (s & Hr & _ & _ & _ & Q).
  { intros x. destruct (flt (nth 0 x f0) fhalf); reflexivity. }
  destruct (Q (le_n _)) as (X & Y & g & q & Q1 & Q2 & Q3). exists s, X, Y, g, q. auto.
Qed.

(** the objective of C78, a combination of kernel functions for both signal variances; 900 iterations *)
Definition ex_h2 : list (R * fpt) := [(1, [f0; f1])].
Lemma ex_same p a v : objective f1 p a ex_h v = objective fhalf p a ex_h2 v.
Proof.
  assert (E1 : fval f1 = 1) by (cbv -[IZR F2R bpow]; unfold F2R; simpl; lra). destruct half_val as (_ & _ & Eh).
  unfold objective, ex_h, ex_h2. cbn [lsum fst snd].
  destruct p; cbn [exact]; unfold exp_kernel, matern3_kernel, matern5_kernel, ard_kernel, iso_new, ard_of, ard_z; cbn [i_sf2 i_l a_sf2 a_ell a_dim a_A Nat.ltb Nat.leb]; rewrite E1, Eh; cbv zeta; unfold Rdiv; ring.
Qed.

Example C81_converges_example : forall p mf, In p [PExp f1; PMatern3 f1; PMatern5 f1; PArd [f1; fofZe 1 (-1)]] -> In mf [MNull; MConst fhalf] ->
  let O := objective f1 p (prior mf []) ex_h in let n := Z.to_nat 900 in let Lam := fun t : bool => if t then 1 / 2 else 3 / 4 in
  (forall t, gp_setting best_exp 4 2 (hy_sf2 (ex_par p t)) (hy_noise (ex_par p t)) (hy_p (ex_par p t)) ex_m mf 1 (1 / 2)) /\ fixed mf /\ dbl (2 ^ 20) f1 /\
  (forall t, exists h, norm_le 2 (hy_sf2 (ex_par p t)) (hy_p (ex_par p t)) h (Lam t) /\
     forall v, point 2 v -> Rabs (O v - objective (hy_sf2 (ex_par p t)) (hy_p (ex_par p t)) (prior mf []) h v) <= 0) /\
  runs_hgp (W := unit) best_exp 4 2 (ex_par p) ex_m mf 1 (true, ex_empty) (ex_hcomp p mf) (ex_hadd p mf) (ex_hp p) /\
  runs_hinner (W := unit) best_exp 4 2 (ex_par p) ex_m mf 1 (fun _ g _ => (ex_hinner p g, tt)) (fun t => computes_ucb best_exp 4 2 (hy_sf2 (ex_par p t)) (hy_noise (ex_par p t)) (hy_p (ex_par p t)) ex_m f1) 0 /\
  objective_ok 2 (ex_obj2 p mf) (measured 2 1 (/ 2 ^ 50) O) /\ point 2 [fhalf; fhalf] /\
  (exists s, ex_hrun p mf (ex_obj2 p mf) (fun _ g _ => (ex_hinner p g, tt)) [max_iterations (Z.of_nat n)] [OpOptimize true (S n)] (new_bo (true, ex_empty) tt) = Some s /\ (length (samples s) <= 1000)%nat /\
     (forall t, Lam t + sqrt (INR (length (samples s)) / nugget (hy_noise (ex_par p t))) * (/ 2 ^ 50 + 0) <= fval f1) /\ (Z.of_nat (3 * 17 ^ 2) < iters (trace s))%Z) /\
  forall t, any_loss f1 (hy_sf2 (ex_par (PExp f1) t)) ex_noise (PExp f1) (Z.to_nat 901) 2 ex_m 1 1 17 3 0 <= 22 / 100.
Proof.
  intros p mf Hp Hmf O n Lam. assert (Hmf' : In mf [MNull; MConst fhalf; MData]) by (destruct Hmf as [<-|[<-|[]]]; cbn; auto).
  destruct (C78_example p mf Hp Hmf) as (HS0 & Hfx & Hd1 & Hno & _ & _ & HO & PH & _). cbv zeta in HO, Hno.
  assert (E1 : fval f1 = 1) by (cbv -[IZR F2R bpow]; unfold F2R; simpl; lra). destruct half_val as (_ & _ & Eh).
  assert (En : 99 / 10000 <= fval ex_noise <= 101 / 10000) by (cbv -[IZR F2R bpow Rdiv Rle]; unfold F2R; simpl; lra).
  assert (Nu : 99 / 10000 <= nugget ex_noise <= 102 / 10000) by (unfold nugget; lra).
  split.
  { intros t. destruct (ex_h_setting p mf Hp Hmf' t) as (A1 & A2 & A3 & A4 & A5 & A6 & A7 & A8 & _). repeat (split; [assumption|]). assumption. }
  split; [exact Hfx|]. split; [exact Hd1|]. split.
  { intros [|]; cbn [ex_par hy_sf2 hy_p Lam].
    - exists ex_h. split; [exact Hno|]. intros v _. unfold O. rewrite Rminus_diag_eq, Rabs_R0 by reflexivity. lra.
    - exists ex_h2. destruct Hno as (Hz & _). split.
      + assert (Pz : point 2 [f0; f1]) by (apply (Hz (1 / 2, [f0; f1])); now left). split; [intros e [<-|[]]; exact Pz|]. split; [lra|]. unfold ex_h2. cbn [lsum fst snd].
        rewrite (exact_diag 2 fhalf p [f0; f1] ltac:(apply HS0) Pz), Eh. lra.
      + intros v _. unfold O. rewrite ex_same, Rminus_diag_eq, Rabs_R0 by reflexivity. lra. }
  split; [now apply ex_h_gp|]. split; [now apply ex_h_inner|]. split; [exact HO|]. split; [exact PH|]. split.
  { destruct (ex_hrun_done p mf (ex_val p mf) (fun g _ => ex_hinner p g) n) as (s & Hr & Hi & _ & Hl & _).
    { intros x. destruct (ex_val_ok p mf x) as ((_ & Fx & _) & _). destruct (ex_val p mf x); try discriminate; reflexivity. }
    exists s. split; [exact Hr|]. rewrite Hl, Hi. unfold n. split; [lia|]. split.
    - intros t. cbn [ex_par hy_noise]. rewrite E1, Rplus_0_r. assert (Sq : sqrt (INR (S (Z.to_nat 900)) / nugget ex_noise) <= 1000).
      { rewrite <- (sqrt_square 1000) by lra. apply sqrt_le_1_alt. replace (INR (S (Z.to_nat 900))) with 901 by (rewrite INR_IZR_INZ; apply IZR_eq; reflexivity).
        apply Rmult_le_reg_r with (nugget ex_noise); [lra|]. unfold Rdiv. rewrite Rmult_assoc, Rinv_l, Rmult_1_r by lra. lra. }
      assert (I50 : 0 < / 2 ^ 50 <= / 10000) by (split; [apply Rinv_0_lt_compat, pow_lt; lra|apply Rinv_le_contravar; lra]).
      assert (sqrt (INR (S (Z.to_nat 900)) / nugget ex_noise) * / 2 ^ 50 <= 1000 * / 10000) by (apply Rmult_le_compat; [apply sqrt_pos|lra|exact Sq|lra]). unfold Lam. destruct t; lra.
    - vm_compute. reflexivity. }
  intros t. unfold any_loss. rewrite E1. set (sf := fval (hy_sf2 (ex_par (PExp f1) t))).
  assert (Sf : 1 / 2 <= sf <= 1) by (unfold sf; rewrite ex_sf_val; destruct t; lra).
  assert (N6 : INR (Z.to_nat 901) = 901) by (rewrite INR_IZR_INZ; apply IZR_eq; reflexivity).
  assert (Im : INR ex_m = 2000) by (unfold ex_m; rewrite INR_IZR_INZ; apply IZR_eq; reflexivity).
  assert (Ce : 0 <= centre ex_m 1 <= / 10 ^ 12).
  { unfold centre. rewrite Im. assert (I1 : 0 < / 2 ^ 1075 <= / 2 ^ 60) by (split; [apply Rinv_0_lt_compat, pow_lt; lra|apply Rinv_le_contravar; [apply pow_lt; lra|apply Rle_pow; [lra|lia]]]). lra. }
  assert (Q : 901 / nugget ex_noise <= 92000). { apply Rmult_le_reg_r with (nugget ex_noise); [lra|]. unfold Rdiv. rewrite Rmult_assoc, Rinv_l, Rmult_1_r by lra. lra. }
  assert (Q0 : 0 <= 901 / nugget ex_noise) by (apply Rmult_le_pos; [lra|left; apply Rinv_0_lt_compat; lra]).
  assert (Sh : 0 <= shift ex_noise (Z.to_nat 901) ex_m 1 <= / 10 ^ 7).
  { unfold shift. rewrite N6. split; [apply Rmult_le_pos; lra|]. apply Rle_trans with (92000 * / 10 ^ 12); [apply Rmult_le_compat; lra|lra]. }
  rewrite N6 in *. set (sh := shift _ _ _ _) in *. set (ce := centre _ _) in *.
  assert (S1 : sqrt (901 / nugget ex_noise) <= 310) by (rewrite <- (sqrt_square 310) by lra; apply sqrt_le_1_alt; lra).
  assert (S3 : 0 <= gap (PExp f1) 2 (/ INR 17) 1 * gap (PExp f1) 2 (/ INR 17) 1 <= 7 / 1000).
  { split; [apply Rle_0_sqr|]. unfold gap. cbn [slope]. replace (1 * INR 2) with 2 by (cbn; ring). replace (INR 17) with 17 by (rewrite INR_IZR_INZ; reflexivity).
    replace (sqrt 2 * (/ 17 / 1) * (sqrt 2 * (/ 17 / 1))) with (sqrt 2 * sqrt 2 * (/ 17 * / 17)) by field. rewrite sqrt_sqrt by lra. lra. }
  set (gg := gap (PExp f1) 2 (/ INR 17) 1 * gap (PExp f1) 2 (/ INR 17) 1) in *.
  assert (Sg : sf * gg <= 1 * gg) by (apply Rmult_le_compat_r; lra). assert (Ssh : sf * sh <= 1 * sh) by (apply Rmult_le_compat_r; lra).
  assert (S2 : sqrt (nugget ex_noise / INR 3 + sf * gg) <= 103 / 1000).
  { replace (INR 3) with 3 by (rewrite INR_IZR_INZ; reflexivity). rewrite <- (sqrt_square (103 / 1000)) by lra. apply sqrt_le_1_alt. lra. }
  assert (S4 : 3 / 1000 <= sqrt (var_floor (hy_sf2 (ex_par (PExp f1) t)) ex_noise (Z.to_nat 901))).
  { rewrite <- (sqrt_square (3 / 1000)) by lra. apply sqrt_le_1_alt. unfold var_floor. fold sf. rewrite N6. apply Rmult_le_reg_r with (nugget ex_noise + 901 * sf); [lra|].
    unfold Rdiv. rewrite (Rmult_assoc (sf * nugget ex_noise)), Rinv_l, Rmult_1_r by lra. assert (1 / 2 * (99 / 10000) <= sf * nugget ex_noise) by (apply Rmult_le_compat; lra). 
    assert (sf * (99 / 10000) <= sf * nugget ex_noise) by (apply Rmult_le_compat_l; lra). lra. }
  assert (S5 : 11 / 10 ^ 7 * 1 / sqrt (var_floor (hy_sf2 (ex_par (PExp f1) t)) ex_noise (Z.to_nat 901)) <= 11 / 10 ^ 7 * 334).
  { unfold Rdiv at 1. rewrite Rmult_1_r. apply Rmult_le_compat_l; [lra|]. apply Rle_trans with (/ (3 / 1000)); [apply Rinv_le_contravar; lra|lra]. }
  lra.
Qed.

(** the same objective with the grid search of 4 steps; 600 iterations, i.e. 20 and more for each grid point *)
Example C81_grid_example : forall p mf, In p [PExp f1; PMatern3 f1; PMatern5 f1; PArd [f1; fofZe 1 (-1)]] -> In mf [MNull; MConst fhalf] ->
  let n := Z.to_nat 600 in let Lam := fun t : bool => if t then 1 / 2 else 3 / 4 in
  (forall t, setting_ok best_exp 4 2 (hy_sf2 (ex_par p t)) (hy_noise (ex_par p t)) (hy_p (ex_par p t)) ex_m mf 1 (1 / 2) 4 7) /\
  runs_hgrid (W := unit) best_exp 4 2 (ex_par p) ex_m mf 1 4 7 (ex_hacq (ex_hucb p)) (fun t => computes_ucb best_exp 4 2 (hy_sf2 (ex_par p t)) (hy_noise (ex_par p t)) (hy_p (ex_par p t)) ex_m f1) /\
  grid_search_xs 7 4 = Some ex_grid /\
  (exists s, ex_hrun p mf (ex_obj2 p mf) (ex_hacq (ex_hucb p)) [max_iterations (Z.of_nat n)] [OpOptimize true (S n)] (new_bo (true, ex_empty) tt) = Some s /\ (length (samples s) <= 1000)%nat /\
     (forall t, Lam t + sqrt (INR (length (samples s)) / nugget (hy_noise (ex_par p t))) * (/ 2 ^ 50 + 0) <= fval f1) /\ (Z.of_nat (20 * length ex_grid ^ 2) < iters (trace s))%Z) /\
  forall t, conv_loss f1 (hy_sf2 (ex_par (PExp f1) t)) ex_noise (PExp f1) (Z.to_nat 601) 2 ex_m 1 (Lam t) 4 1 20 <= 1 / 5.
Proof.
  intros p mf Hp Hmf n Lam. assert (Hmf' : In mf [MNull; MConst fhalf; MData]) by (destruct Hmf as [<-|[<-|[]]]; cbn; auto).
  assert (E1 : fval f1 = 1) by (cbv -[IZR F2R bpow]; unfold F2R; simpl; lra).
  assert (En : 99 / 10000 <= fval ex_noise <= 101 / 10000) by (cbv -[IZR F2R bpow Rdiv Rle]; unfold F2R; simpl; lra).
  assert (Nu : 99 / 10000 <= nugget ex_noise <= 102 / 10000) by (unfold nugget; lra).
  split; [intros t; now apply ex_h_setting|]. split; [now apply ex_h_grid|]. split; [vm_compute; reflexivity|]. split.
  { destruct (ex_hrun_done p mf (ex_val p mf) (fun g _ => match grid_search (ex_hucb p g) ex_grid 2 with GVec x => x | _ => [] end) n) as (s & Hr & Hi & _ & Hl & _).
    { intros x. destruct (ex_val_ok p mf x) as ((_ & Fx & _) & _). destruct (ex_val p mf x); try discriminate; reflexivity. }
    exists s. split; [exact Hr|]. rewrite Hl, Hi. unfold n. split; [lia|]. split.
    - intros t. cbn [ex_par hy_noise]. rewrite E1, Rplus_0_r. assert (Sq : sqrt (INR (S (Z.to_nat 600)) / nugget ex_noise) <= 1000).
      { rewrite <- (sqrt_square 1000) by lra. apply sqrt_le_1_alt. replace (INR (S (Z.to_nat 600))) with 601 by (rewrite INR_IZR_INZ; apply IZR_eq; reflexivity).
        apply Rmult_le_reg_r with (nugget ex_noise); [lra|]. unfold Rdiv. rewrite Rmult_assoc, Rinv_l, Rmult_1_r by lra. lra. }
      assert (I50 : 0 < / 2 ^ 50 <= / 10000) by (split; [apply Rinv_0_lt_compat, pow_lt; lra|apply Rinv_le_contravar; lra]).
      assert (sqrt (INR (S (Z.to_nat 600)) / nugget ex_noise) * / 2 ^ 50 <= 1000 * / 10000) by (apply Rmult_le_compat; [apply sqrt_pos|lra|exact Sq|lra]). unfold Lam. destruct t; lra.
    - vm_compute. reflexivity. }
  intros t. unfold conv_loss. rewrite E1. set (sf := fval (hy_sf2 (ex_par (PExp f1) t))).
  assert (Sf : 1 / 2 <= sf <= 1) by (unfold sf; rewrite ex_sf_val; destruct t; lra).
  assert (Lt : 0 <= Lam t <= 3 / 4) by (unfold Lam; destruct t; lra).
  assert (N6 : INR (Z.to_nat 601) = 601) by (rewrite INR_IZR_INZ; apply IZR_eq; reflexivity).
  assert (Im : INR ex_m = 2000) by (unfold ex_m; rewrite INR_IZR_INZ; apply IZR_eq; reflexivity).
  assert (Ce : 0 <= centre ex_m 1 <= / 10 ^ 12).
  { unfold centre. rewrite Im. assert (I1 : 0 < / 2 ^ 1075 <= / 2 ^ 60) by (split; [apply Rinv_0_lt_compat, pow_lt; lra|apply Rinv_le_contravar; [apply pow_lt; lra|apply Rle_pow; [lra|lia]]]). lra. }
  assert (Q : 601 / nugget ex_noise <= 61000). { apply Rmult_le_reg_r with (nugget ex_noise); [lra|]. unfold Rdiv. rewrite Rmult_assoc, Rinv_l, Rmult_1_r by lra. lra. }
  assert (Q0 : 0 <= 601 / nugget ex_noise) by (apply Rmult_le_pos; [lra|left; apply Rinv_0_lt_compat; lra]).
  assert (Sh : 0 <= shift ex_noise (Z.to_nat 601) ex_m 1 <= / 10 ^ 7).
  { unfold shift. rewrite N6. split; [apply Rmult_le_pos; lra|]. apply Rle_trans with (61000 * / 10 ^ 12); [apply Rmult_le_compat; lra|lra]. }
  rewrite N6 in *. set (sh := shift _ _ _ _) in *. set (ce := centre _ _) in *.
  assert (S1 : sqrt (601 / nugget ex_noise) <= 250) by (rewrite <- (sqrt_square 250) by lra; apply sqrt_le_1_alt; lra).
  assert (S2 : sqrt (nugget ex_noise / INR 20) <= 23 / 1000).
  { replace (INR 20) with 20 by (rewrite INR_IZR_INZ; reflexivity). rewrite <- (sqrt_square (23 / 1000)) by lra. apply sqrt_le_1_alt. lra. }
  assert (S3 : 0 <= gap (PExp f1) 2 (half_cell 4) 1 <= 19 / 100).
  { unfold gap, half_cell. cbn [slope]. replace (1 * INR 2) with 2 by (cbn; ring). assert (S2' : sqrt 2 <= 15 / 10) by (rewrite <- (sqrt_square (15 / 10)) by lra; apply sqrt_le_1_alt; lra).
    pose proof (sqrt_pos 2). split; [apply Rmult_le_pos; lra|]. apply Rle_trans with (15 / 10 * ((/ (2 * 4) + / 2 ^ 28) / 1)); [apply Rmult_le_compat_r; lra|lra]. }
  assert (S4 : 3 / 1000 <= sqrt (var_floor (hy_sf2 (ex_par (PExp f1) t)) ex_noise (Z.to_nat 601))).
  { rewrite <- (sqrt_square (3 / 1000)) by lra. apply sqrt_le_1_alt. unfold var_floor. fold sf. rewrite N6. apply Rmult_le_reg_r with (nugget ex_noise + 601 * sf); [lra|].
    unfold Rdiv. rewrite (Rmult_assoc (sf * nugget ex_noise)), Rinv_l, Rmult_1_r by lra.
    assert (sf * (99 / 10000) <= sf * nugget ex_noise) by (apply Rmult_le_compat_l; lra). lra. }
  assert (S5 : 11 / 10 ^ 7 * 1 / sqrt (var_floor (hy_sf2 (ex_par (PExp f1) t)) ex_noise (Z.to_nat 601)) <= 11 / 10 ^ 7 * 334).
  { unfold Rdiv at 1. rewrite Rmult_1_r. apply Rmult_le_compat_l; [lra|]. apply Rle_trans with (/ (3 / 1000)); [apply Rinv_le_contravar; lra|lra]. }
  assert (Sq1 : 0 <= sqrt sf <= 1) by (split; [apply sqrt_pos|]; rewrite <- sqrt_1; apply sqrt_le_1_alt; lra).
  assert (L1 : Lam t * sqrt sf <= 3 / 4 * 1) by (apply Rmult_le_compat; lra).
  assert (L0 : 0 <= Lam t * sqrt sf) by (apply Rmult_le_pos; lra).
  assert (L2 : Lam t * sqrt sf * gap (PExp f1) 2 (half_cell 4) 1 <= 3 / 4 * 1 * (19 / 100)) by (apply Rmult_le_compat; lra).
  assert (Ssh : sf * sh <= 1 * sh) by (apply Rmult_le_compat_r; lra). lra.
Qed.
