(** C67: whenever ParEGO consults its model, it predicts with the exact posterior of the data collected so far,
    scalarised with one vector of weights. *)
From Coq Require Import Reals List Bool ZArith Lia Lra Permutation.
From Verif Require Import F64 F64R LinAlgModel LinAlg KernelModel GPModel GPSpec GPFacts Prop_GP Prop_Load HpOptModel Prop_HpOpt
  BOModel BOSpec BOFacts BORel BoGpModel Prop_BoGp ParegoModel Prop_Parego Prop_Parego2 ParegoBoModel
  KernelSpec KernelFacts MeanSpec MeanFacts.
Import ListNotations.
Open Scope R_scope.

(** * Specification *)
Section Spec.
Variables (K : Kern) (M : Mean) (rho : R) (din q : nat).
(** weights on the simplex *)
Definition simplex (lam : nat -> R) : Prop := (forall i, (i < q)%nat -> 0 <= lam i) /\ rsum q lam = 1.
(** augmented Tchebycheff value of an observation: the largest weighted objective, plus rho times their sum *)
Definition tchebycheff (lam : nat -> R) (y : F64.vec) (s : KernelModel.vec) : Prop :=
  let ly := fun i => lam i * fval (nth i y f0) in
  exists mx, (exists i, (i < q)%nat /\ ly i = mx) /\ (forall i, (i < q)%nat -> ly i <= mx) /\ s = [mx + rho * rsum q ly].
Definition parego_exact (b : bool) (xs ys : list F64.vec) (m : outcome (parego K M)) : Prop :=
  exists g lam Y, m = Done g /\ simplex lam /\ Forall2 (tchebycheff lam) ys Y /\
    let gp := pg_gp K M g in
    learned K M din 1 b (g_k K M gp) (g_m K M gp) /\ predicts_r K M din 1 (g_k K M gp) (g_m K M gp) (values xs) Y gp.
End Spec.

(** * Proof *)
Lemma fold_rsum n (f : nat -> R) : fold_right Rplus 0 (map f (seq 0 n)) = rsum n f.
Proof.
  induction n as [|n IH]; [reflexivity|]. rewrite seq_S, map_app, fold_right_app. cbn [map fold_right]. change (0 + n)%nat with n.
  transitivity (fold_right Rplus 0 (map f (seq 0 n)) + f n); [|rewrite IH; reflexivity].
  generalize (map f (seq 0 n)). induction l as [|a l IHl]; cbn; [lra|]. rewrite IHl. lra.
Qed.

Section Run.
Variables (K : Kern) (M : Mean) (KO : KernOK K) (MO : MeanOK M).
Hypotheses (KR : KernRT KO) (MR : MeanRT' MO).
Context {W E : Type}.
Variable rho : R.
Variables (din q : nat).
Hypotheses (Din : (0 < din)%nat) (Dq : (0 < q)%nat).
Variable hpo : hp_opt.
Variable optimizer : W -> (KernelModel.vec -> outcome (R * KernelModel.vec)) -> KernelModel.vec -> outcome KernelModel.vec.
Variable draw : W -> nat -> R.
Variables tw tm ts : W -> tree.
Variable tick : W -> W.
Variable hp_period : Z.
Let B := (0 <? hp_period)%Z.
Hypothesis HF : hp_fine M MO 1 hpo optimizer hp_period.
(** draws in [0, 1], not all zero; Eigen combines every coefficient once *)
Hypothesis Hdraw : forall w, (forall i, (i < q)%nat -> 0 <= draw w i) /\ exists i, (i < q)%nat /\ draw w i <> 0.
Hypothesis Htrees : forall w, Permutation (leaves (tw w)) (seq 0 q) /\ Permutation (leaves (tm w)) (seq 0 q) /\ Permutation (leaves (ts w)) (seq 0 q).

Notation ok := (pair_ok din q).
Notation base := (RtrR K M din 1 hp_period).
Notation lamb w := (rweights (tw w) (draw w)).
Notation sc w := (fun y : KernelModel.vec => [rscalar rho (tm w) (ts w) (lamb w) (fun i => nth i y 0)]).

Lemma draws_positive w : redux Rplus (draw w) (tw w) <> 0.
Proof.
  destruct (Hdraw w) as [Hp He]. destruct (Htrees w) as (Pw & _). destruct (C47_weights q (tw w) Pw (draw w) Hp He) as [_ H1].
  intro H0. assert (Z : forall l, fold_right Rplus 0 (map (lamb w) l) = 0).
  { induction l as [|i l IH]; cbn; [reflexivity|]. rewrite IH. unfold rweights, weights. rewrite H0. unfold Rdiv. rewrite Rinv_0. lra. }
  rewrite Z in H1. lra.
Qed.
Lemma simplex_w w : simplex q (lamb w).
Proof.
  destruct (Hdraw w) as [Hp He]. destruct (Htrees w) as (Pw & _). destruct (C47_weights q (tw w) Pw (draw w) Hp He) as [H0 H1].
  split; [exact H0|]. now rewrite <- fold_rsum.
Qed.
Lemma nth_fval y i : nth i (map fval y) 0 = fval (nth i y f0).
Proof. change 0 with (fval f0) at 1. apply map_nth. Qed.
Lemma tcheb_w w y : tchebycheff rho q (lamb w) y (sc w (map fval y)).
Proof.
  destruct (Htrees w) as (_ & Pm & Ps). destruct (C47_value q (tm w) (ts w) rho Pm Ps (lamb w) (fun i => nth i (map fval y) 0)) as (mx & (i & Li & Ei) & Hm & Es).
  exists mx. split; [exists i; split; [exact Li|]; rewrite Ei, nth_fval; reflexivity|]. split.
  - intros j Lj. specialize (Hm j Lj). now rewrite nth_fval in Hm.
  - rewrite Es, fold_rsum. do 3 f_equal. apply rsum_ext. intros j _. now rewrite nth_fval.
Qed.

(** the raw observations are those of the optimizer; the process holds their scalars *)
Definition Pr (xs ys : list F64.vec) (m : outcome (parego K M)) : Prop :=
  exists g lam Y, m = Done g /\ pg_raw K M g = values ys /\ simplex q lam /\ Forall2 (tchebycheff rho q lam) ys Y /\ base (values xs) Y (Done (pg_gp K M g)).
Definition Pany (m : outcome (parego K M)) : Prop := exists g, m = Done g /\ Rany K M din 1 hp_period (Done (pg_gp K M g)).

Lemma Pr_any xs ys m : Pr xs ys m -> Pany m.
Proof. intros (g & lam & Y & -> & _ & _ & _ & Hb). exists g. split; [reflexivity|]. eapply RtrR_any; exact Hb. Qed.
Lemma Pr_fresh : Pr [] [] (pm_fresh K M din).
Proof.
  exists {| pg_gp := gp_new K M din 1; pg_raw := [] |}, (fun i => if (i =? 0)%nat then 1 else 0), []. split; [reflexivity|]. split; [reflexivity|].
  split; [|split; [constructor|apply (Rtr_fresh K M din 1 hp_period)]]. split.
  - intros i _. destruct (i =? 0)%nat; lra.
  - destruct q as [|n]; [lia|]. clear. induction n as [|n IH]; [cbn; lra|]. change (rsum (S n) (fun i => if (i =? 0)%nat then 1 else 0) + 0 = 1). rewrite IH. lra.
Qed.
Lemma compute_ok w g X ys : Rany K M din 1 hp_period (Done (pg_gp K M g)) -> X <> [] -> length X = length ys ->
  Forall (fun v => length v = din) X -> Forall (fun v => length v = q) (values ys) ->
  exists g', parego_compute K M rho (tw w) (tm w) (ts w) (draw w) g X (values ys) = Done g' /\ pg_raw K M g' = values ys /\
    Forall2 (tchebycheff rho q (lamb w)) ys (map (sc w) (values ys)) /\ base X (map (sc w) (values ys)) (Done (pg_gp K M g')).
Proof.
  intros Ha Ne L Dx Dy. assert (Lv : length (values ys) = length ys) by apply map_length.
  unfold parego_compute. destruct (values ys) as [|y0 ys'] eqn:Ey; [destruct X; [congruence|]; cbn in *; lia|]. rewrite <- Ey in *.
  assert (Hc : forallb (fun o => (length o =? length y0)%nat) (values ys) = true).
  { apply forallb_forall. intros o Ho. rewrite Forall_forall in Dy. rewrite (Dy o Ho). apply Nat.eqb_eq. symmetry. apply Dy. rewrite Ey. now left. }
  rewrite Hc. cbn [check]. destruct (Req_EM_T _ 0) as [H0|_]; [now apply draws_positive in H0|].
  pose proof (RtrR_comp K M KO MO din 1 Din ltac:(lia) hp_period (pg_gp K M g) X (scalarize rho (tw w) (tm w) (ts w) (draw w) (values ys)) Ha Ne) as Hb.
  unfold scalarize in *. rewrite map_length in Hb. specialize (Hb (eq_trans L (eq_sym Lv)) Dx).
  assert (H1 : Forall (fun v : KernelModel.vec => length v = 1%nat) (map (sc w) (values ys))) by (apply Forall_map, Forall_forall; auto).
  specialize (Hb H1). pose proof Hb as (g' & _ & _ & _ & Eg & _). rewrite Eg in *. cbn [bind].
  eexists. split; [reflexivity|]. split; [reflexivity|]. split; [|exact Hb].
  clear -Htrees. induction ys as [|y ys IH]; cbn [values map]; [constructor|]. constructor; [apply tcheb_w|exact IH].
Qed.
Lemma Pr_comp w m xs ys : Pany m -> xs <> [] -> Forall2 ok xs ys -> Pr xs ys (fst (pm_compute K M rho draw tw tm ts tick w m xs ys)).
Proof.
  intros (g & -> & Ha) Ne Hp. destruct (pairs_shape din q Din Dq _ _ Hp) as (L & Fx & Fy & Dx & Dy).
  unfold pm_compute. cbn [fst bind]. rewrite (reals_values _ Fx), (reals_values _ Fy).
  destruct (compute_ok w g (values xs) ys Ha) as (g' & Eg & Er & Ht & Hb); auto.
  { destruct xs; [congruence|discriminate]. } { unfold values. now rewrite map_length. }
  rewrite Eg. exists g', (lamb w), (map (sc w) (values ys)). repeat split; auto; apply simplex_w.
Qed.
Lemma Pr_add w m xs ys x y : Pr xs ys m -> Forall2 ok xs ys -> ok x y -> Pr (xs ++ [x]) (ys ++ [y]) (fst (pm_add K M rho draw tw tm ts tick w m x y)).
Proof.
  intros (g & lam & Y & -> & Er & _ & _ & Hb) Hp Hxy.
  assert (Hp' : Forall2 ok (xs ++ [x]) (ys ++ [y])) by (apply Forall2_app; auto).
  destruct (pairs_shape din q Din Dq _ _ Hp') as (L & Fx & Fy & Dx & Dy). destruct Hxy as ((Hx1 & Hx2) & Hy1 & Hy2).
  unfold pm_add. cbn [fst bind]. rewrite (fin_not_nan _ Hx2), (fin_not_nan _ Hy2). unfold parego_add. cbv zeta. cbn [g_samples].
  assert (Es : g_samples K M (pg_gp K M g) = values xs).
  { destruct Hb as (g1 & g0 & s0 & os & E1 & F & Ex & H). injection E1 as <-.
    assert (I : inv K M KO MO (pg_gp K M g) (meaning K M s0 os)) by (eapply run_inv; eauto; now apply fresh_inv).
    rewrite (v_samples _ _ _ _ _ _ I). apply H. }
  rewrite Es, Er, <- !values_snoc.
  pose proof (RtrR_any _ _ _ _ _ _ _ _ Hb) as Ha.
  destruct (compute_ok w g (values (xs ++ [x])) (ys ++ [y]) Ha) as (g' & Eg & Er' & Ht & Hb'); auto.
  { unfold values. rewrite map_app. intro H. apply app_eq_nil in H. destruct H; discriminate. }
  { unfold values. now rewrite map_length. }
  unfold parego_compute in *. destruct (values (ys ++ [y])) eqn:Ey; [discriminate|]. rewrite <- Ey in *. cbn [pg_gp]. rewrite compute_ignores_samples, Eg.
  exists g', (lamb w), (map (sc w) (values (ys ++ [y]))). repeat split; auto; apply simplex_w.
Qed.
Lemma Pr_hp w m xs ys : (0 < hp_period)%Z -> Pr xs ys m -> xs <> [] -> Pr xs ys (fst (pm_hp K M hpo optimizer tick w m)).
Proof.
  intros Hp (g & lam & Y & -> & Er & Hl & Ht & Hb) Ne. unfold pm_hp. cbn [fst bind].
  pose proof (RtrR_hp K M KO MO KR MR din 1 hpo optimizer tick hp_period HF w _ _ _ Hp Hb ltac:(unfold values; destruct xs; [congruence|discriminate])) as H.
  unfold gm_hp in H. cbn [fst bind] in H. pose proof H as (g' & _ & _ & _ & Eg & _). rewrite Eg in *. cbn [bind].
  exists {| pg_gp := g'; pg_raw := pg_raw K M g |}, lam, Y. repeat split; auto; apply Hl.
Qed.
Lemma Pr_exact xs ys m : Pr xs ys m -> parego_exact K M rho din q B xs ys m.
Proof.
  intros (g & lam & Y & -> & _ & Hl & Ht & Hb). destruct (RtrR_exact K M KO MO din 1 ltac:(lia) hp_period _ _ _ Hb) as (g' & Eg & H1 & H2).
  injection Eg as <-. exists g, lam, Y. auto.
Qed.

Variable sfun : W -> F64.vec -> (F64.vec + E) * W.
Variable acq : W -> outcome (parego K M) -> Z -> F64.vec * W.
Variable init_n : nat.
Variable init_pt : nat -> W -> F64.vec * W.
Notation run_ops := (run_ops sfun (pm_fresh K M din) (pm_compute K M rho draw tw tm ts tick) (pm_add K M rho draw tw tm ts tick)
  (pm_hp K M hpo optimizer tick) acq init_n init_pt hp_period).
(** as in C61: sizes are the announced ones, proposed points are finite *)
Hypothesis H_sfun : forall w x v w', length x = din -> sfun w x = (inl v, w') -> length v = q.
Hypothesis H_acq : forall w m c, point din (fst (acq w m c)).
Hypothesis H_init : forall i w, point din (fst (init_pt i w)).

Theorem C67_scalarised_posterior : forall cs os w s, Forall (fine_op din q) os ->
  run_ops cs os (new_bo (pm_default K M) w) = Some s ->
  Forall (consulted (parego_exact K M rho din q B)) (trace s).
Proof.
  intros cs os w s Ho Hr.
  assert (Hi : Inv ok Pr Pany s).
  { refine (run_inv_all sfun (pm_fresh K M din) (pm_compute K M rho draw tw tm ts tick) (pm_add K M rho draw tw tm ts tick)
      (pm_hp K M hpo optimizer tick) acq init_n init_pt hp_period (point din) ok Pr Pany Pr_any Pr_fresh Pr_comp Pr_add Pr_hp _ H_acq H_init cs os _ w s _ _ Hr).
    - intros w0 x v w' (Hx1 & Hx2) Es Ev. split; [now split|]. split; [eapply H_sfun; eauto|]. now apply is_nan_or_inf_spec.
    - eexists. split; [reflexivity|]. apply Rany_default.
    - eapply Forall_impl; [|exact Ho]. intros [r f|x|x y]; cbn; auto. intros (Hx & Hy) Hf. split; [exact Hx|]. split; [exact Hy|]. now apply is_nan_or_inf_spec. }
  destruct Hi as (_ & _ & Q). eapply Forall_impl; [|exact Q]. intros e. destruct e; cbn [consulted]; auto using Pr_exact.
Qed.
End Run.

(** * A saved and loaded GPParego *)
Section Load.
Variables (K : Kern) (M : Mean) (KO : KernOK K) (MO : MeanOK M).
Hypotheses (KR : KernRT KO) (MR : MeanRT' MO).
Variables (rho : R) (D q : nat).
Hypothesis D0 : (0 < D)%nat.
(** after any history of [compute] and [add_sample], the model can be saved and loaded into a new object, but the new
    object cannot take another sample: [_raw_observations] is empty there, so that [compute] gets one observation
    for several samples *)
Theorem C67_add_after_load g0 s0 cs c : fresh K M g0 s0 -> Forall (pproper D q) (cs ++ [c]) ->
  exists g, prun K M rho {| pg_gp := g0; pg_raw := [] |} (cs ++ [c]) = Done g /\
  forall b, exists g2, pm_load K M (pm_default K M) (save K M (pg_gp K M g)) b = Done g2 /\
  forall x y tw tm ts u, redux Rplus u tw <> 0 -> parego_add K M rho tw tm ts u g2 x y = Undefined.
Proof.
  intros F P.
  assert (S0 : state K M KO MO D q {| pg_gp := g0; pg_raw := [] |} [] (fun _ => 0)).
  { split; [|split; [reflexivity|constructor]]. apply (Prop_Sparse2.fresh_holds K M KO MO D 1 (fun x => length x = D)) in F. exact F. }
  assert (G : forall cs g l sc, state K M KO MO D q g l sc -> Forall (pproper D q) (cs ++ [c]) ->
    exists g', prun K M rho g (cs ++ [c]) = Done g' /\ state K M KO MO D q g' (fold_left pdata (cs ++ [c]) l) (pscal rho c)).
  { clear -D0. induction cs as [|c1 cs IH]; intros g l sc S P; cbn [app prun fold_left] in *.
    - inversion P; subst. destruct (step_state K M rho KO MO D q D0 g l sc c S) as (g' & E & S'); auto. rewrite E. cbn [bind]. eauto.
    - inversion P; subst. destruct (step_state K M rho KO MO D q D0 g l sc c1 S) as (g' & E & S'); auto. rewrite E. cbn [bind]. eapply IH; eauto. }
  destruct (G cs _ _ _ S0 P) as (g & E & (H & R & Fl)). exists g. split; [exact E|]. intro b.
  assert (Nl : fold_left pdata (cs ++ [c]) [] <> []).
  { rewrite fold_left_app. cbn [fold_left]. apply Forall_app in P. destruct P as [_ P]. inversion P as [|? ? P1 _]; subst.
    destruct c as [xs ys tw tm ts u|x y tw tm ts u]; cbn [pdata pproper] in *.
    - destruct P1 as (N & L & _). destruct xs; [congruence|]. destruct ys; discriminate.
    - intros X. apply app_eq_nil in X. destruct X; discriminate. }
  destruct H as (s & I & Hx & Hy & Hdk & Hdm & _).
  assert (Hxs : s_xs K M s <> []) by (rewrite Hx; intro X; apply map_eq_nil, map_eq_nil in X; contradiction).
  destruct (load_state K M KO MO KR MR (pg_gp K M g) s (gp_default K M) b I Hxs Hdk Hdm) as (g2 & E2 & J & _).
  exists {| pg_gp := g2; pg_raw := [] |}. split; [unfold pm_load, pm_default; cbn [bind pg_gp pg_raw]; now rewrite E2|].
  intros x y tw tm ts u Hu. unfold parego_add. cbv zeta. cbn [pg_gp pg_raw g_samples app]. unfold parego_compute. cbn [forallb]. rewrite Nat.eqb_refl. cbn [andb check].
  destruct (Req_EM_T _ 0); [contradiction|]. cbn [pg_gp]. rewrite compute_ignores_samples. rewrite (w_samples _ _ _ _ _ _ J).
  destruct (s_xs K M s) as [|x0 xr]; [congruence|]. cbn [app]. unfold compute, scalarize. cbn [map].
  cbn [length]. rewrite app_length. cbn [length]. rewrite Nat.add_1_r. reflexivity.
Qed.
End Load.
