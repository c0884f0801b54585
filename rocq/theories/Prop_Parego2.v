(** C47, for the model object: GPParego predicts with the exact posterior of the scalarised data. *)
From Coq Require Import Reals List Bool ZArith Lia Lra Permutation.
From Verif Require Import LinAlgModel LinAlg KernelModel GPModel GPSpec GPFacts Prop_GP.
From Verif Require Import KernelSpec KernelFacts MeanSpec MeanFacts.
From Verif Require Import ParegoModel Prop_Parego Prop_Sparse2 F64.
Import ListNotations.
Open Scope R_scope.
Local Notation rvec := (list R).

(** calls, with the draws and the orders of summation of each *)
Inductive pcall :=
| PCompute (xs ys : list rvec) (tw tm ts : tree) (u : nat -> R)
| PAdd (x y : rvec) (tw tm ts : tree) (u : nat -> R).

Section Parego.
Variables (K : Kern) (M : Mean) (rho : R).
Variable KO : KernOK K.
Variable MO : MeanOK M.
Notation pg := (parego K M).

Definition pexec (g : pg) (c : pcall) : outcome pg :=
  match c with
  | PCompute xs ys tw tm ts u => parego_compute K M rho tw tm ts u g xs ys
  | PAdd x y tw tm ts u => parego_add K M rho tw tm ts u g x y
  end.
Fixpoint prun (g : pg) (cs : list pcall) : outcome pg :=
  match cs with [] => Done g | c :: r => bind (pexec g c) (fun g' => prun g' r) end.

(** the raw data after a history, and the scalarisation in use: that of the last call *)
Definition pdata (l : list (rvec * rvec)) (c : pcall) : list (rvec * rvec) :=
  match c with PCompute xs ys _ _ _ _ => combine xs ys | PAdd x y _ _ _ _ => l ++ [(x, y)] end.
Definition pscal (c : pcall) (y : rvec) : R :=
  match c with PCompute _ _ tw tm ts u | PAdd _ _ tw tm ts u => rscalar rho tm ts (rweights tw u) (fun i => nth i y 0) end.

Variables (D q : nat).
Hypothesis D0 : (0 < D)%nat.
Definition pproper (c : pcall) : Prop :=
  match c with
  | PCompute xs ys tw _ _ u => xs <> [] /\ length xs = length ys /\ List.Forall (fun x => length x = D) xs /\
      List.Forall (fun y => length y = q) ys /\ redux Rplus u tw <> 0
  | PAdd x y tw _ _ u => length x = D /\ length y = q /\ redux Rplus u tw <> 0
  end.

Notation U := (fun x : rvec => length x = D).
Notation hold g l := (holds K M KO MO D 1 U g l).

(** [_samples.push_back] before [compute] has no effect on the result *)
Lemma compute_ignores_samples (g : gp K M) l xs ys b :
  compute K M {| g_din := g_din K M g; g_dout := g_dout K M g; g_k := g_k K M g; g_m := g_m K M g;
    g_samples := l; g_obs := g_obs K M g;
    g_mean_vector := g_mean_vector K M g; g_obs_mean := g_obs_mean K M g; g_alpha := g_alpha K M g; g_mean_obs := g_mean_obs K M g;
    g_kernel := g_kernel K M g; g_inv := g_inv K M g; g_L := g_L K M g; g_inv_updated := g_inv_updated K M g |} xs ys b
  = compute K M g xs ys b.
Proof.
  unfold compute. destruct xs as [|x xs]; auto. destruct ys as [|y ys]; auto. f_equal. unfold set_dims. cbn [g_din g_dout g_k g_m].
  destruct (onat_eqb (g_din K M g) (length x)); destruct (onat_eqb (g_dout K M g) (length y)); reflexivity.
Qed.

Definition state (g : pg) (l : list (rvec * rvec)) (sc : rvec -> R) : Prop :=
  hold (pg_gp K M g) (map (fun xy => (fst xy, [sc (snd xy)])) l) /\ pg_raw K M g = map snd l /\
  List.Forall (fun xy => length (fst xy) = D /\ length (snd xy) = q) l.

Lemma snd_combine {A B} (l : list A) (m : list B) : length l = length m -> map snd (combine l m) = m.
Proof. revert m. induction l as [|x l IH]; intros [|y m] H; simpl in *; auto; try lia. now rewrite IH by lia. Qed.
Lemma combine_map {A B B'} (f : B -> B') (l : list A) (m : list B) : combine l (map f m) = map (fun xy => (fst xy, f (snd xy))) (combine l m).
Proof. revert m. induction l as [|x l IH]; intros [|y m]; simpl; auto. now rewrite IH. Qed.

Lemma compute_state g l sc xs ys tw tm ts u : hold (pg_gp K M g) l ->
  xs <> [] -> length xs = length ys -> List.Forall U xs -> List.Forall (fun y => length y = q) ys -> redux Rplus u tw <> 0 ->
  sc = (fun y => rscalar rho tm ts (rweights tw u) (fun i => nth i y 0)) ->
  exists g', parego_compute K M rho tw tm ts u g xs ys = Done g' /\ state g' (combine xs ys) sc.
Proof.
  intros (s & I & _ & _ & _ & _ & _ & Hk & Hm & _) Ne L Ux Ly Hu ->. unfold parego_compute.
  destruct ys as [|y0 ys'] eqn:Ey; [destruct xs; [congruence|discriminate]|]. rewrite <- Ey in *.
  assert (C : forallb (fun o => (length o =? length y0)%nat) ys = true).
  { apply forallb_forall. intros y Hy. rewrite Forall_forall in Ly. apply Nat.eqb_eq. rewrite (Ly y Hy), (Ly y0); auto. rewrite Ey. now left. }
  rewrite C. cbn [check]. destruct (Req_EM_T (redux Rplus u tw) 0); [contradiction|].
  destruct (compute_holds K M KO MO D 1 U D0 ltac:(lia) (fun x H => H) (pg_gp K M g) s xs (scalarize rho tw tm ts u ys)) as (g' & E & H'); auto.
  { unfold scalarize. now rewrite map_length. } { apply Forall_map, Forall_forall. auto. }
  rewrite E. cbn [bind]. eexists. split; [reflexivity|]. unfold state. cbn [pg_gp pg_raw].
  unfold scalarize in H'. rewrite combine_map in H'. split; auto. split; [now rewrite snd_combine|].
  rewrite Forall_forall in Ux, Ly |- *. intros [a b] Hab. split; [apply (Ux a)|apply (Ly b)]; [eapply in_combine_l|eapply in_combine_r]; eauto.
Qed.

Lemma step_state g l sc c : state g l sc -> pproper c -> exists g', pexec g c = Done g' /\ state g' (pdata l c) (pscal c).
Proof.
  intros (H & R & F) P. destruct c as [xs ys tw tm ts u|x y tw tm ts u]; cbn [pexec pproper pdata pscal] in *.
  - destruct P as (Ne & L & Ux & Ly & Hu). eapply compute_state; eauto.
  - destruct P as (Lx & Ly & Hu). unfold parego_add. cbv zeta. cbn [g_samples].
    assert (Ex : g_samples K M (pg_gp K M g) = map fst l).
    { destruct H as (s & I & Hx & _). rewrite (v_samples _ _ _ _ _ _ I), Hx, map_map. reflexivity. }
    rewrite R.
    destruct (compute_state g (map (fun xy => (fst xy, [sc (snd xy)])) l) (pscal (PAdd x y tw tm ts u)) (map fst l ++ [x]) (map snd l ++ [y]) tw tm ts u) as (g' & E & S'); auto.
    { intros X. apply app_eq_nil in X. destruct X; discriminate. }
    { rewrite !app_length, !map_length. reflexivity. }
    { apply Forall_app. split; [|auto]. apply Forall_map. eapply Forall_impl; [|exact F]. intros a Ha. apply Ha. }
    { apply Forall_app. split; [|auto]. apply Forall_map. eapply Forall_impl; [|exact F]. intros a Ha. apply Ha. }
    exists g'. split.
    + rewrite <- E. rewrite Ex. unfold parego_compute. destruct (map snd l ++ [y]) eqn:Ey; auto. cbn [pg_gp].
      rewrite compute_ignores_samples. reflexivity.
    + replace (combine (map fst l ++ [x]) (map snd l ++ [y])) with (l ++ [(x, y)]) in S'; auto.
      replace (map fst l ++ [x]) with (map fst (l ++ [(x, y)])) by (now rewrite map_app).
      replace (map snd l ++ [y]) with (map snd (l ++ [(x, y)])) by (now rewrite map_app).
      clear. generalize (l ++ [(x, y)]). intros m. induction m as [|[a b] m IH]; simpl; [auto|now rewrite <- IH].
Qed.

Theorem C47_model g0 s0 cs c : fresh K M g0 s0 -> List.Forall pproper (cs ++ [c]) ->
  exists g, prun {| pg_gp := g0; pg_raw := [] |} (cs ++ [c]) = Done g /\
    let l := fold_left pdata (cs ++ [c]) [] in
    let xs := map fst l in let ys := map (fun xy => [pscal c (snd xy)]) l in
    pg_raw K M g = map snd l /\
    forall v, length v = D ->
      (exists B, is_inv (length l) (gram K (k_new K D) xs) B) /\
      forall B, is_inv (length l) (gram K (k_new K D) xs) B ->
        let m := vec_of 1 (post_mean K M (k_new K D) (m_new M 1) xs ys 1 B v) in
        let va := clamp (post_var K (k_new K D) xs B v) + k_noise K (k_new K D) in
        query K M (pg_gp K M g) v = Done (m, va).
Proof.
  intros F P.
  assert (S0 : state {| pg_gp := g0; pg_raw := [] |} [] (fun _ => 0)).
  { split; [|split; [reflexivity|constructor]]. apply (fresh_holds K M KO MO D 1 U) in F. exact F. }
  assert (G : forall cs g l sc, state g l sc -> List.Forall pproper (cs ++ [c]) ->
    exists g', prun g (cs ++ [c]) = Done g' /\ state g' (fold_left pdata (cs ++ [c]) l) (pscal c)).
  { clear -D0. induction cs as [|c1 cs IH]; intros g l sc S P; cbn [app prun fold_left] in *.
    - inversion P; subst. destruct (step_state g l sc c S) as (g' & E & S'); auto. rewrite E. cbn [bind]. eauto.
    - inversion P; subst. destruct (step_state g l sc c1 S) as (g' & E & S'); auto. rewrite E. cbn [bind]. eapply IH; eauto. }
  destruct (G cs _ _ _ S0 P) as (g & E & (H & R & Fl)). exists g. split; auto. cbv zeta.
  set (l := fold_left pdata (cs ++ [c]) []) in *. split; auto. intros v Lv.
  destruct H as (s & I & Hx & Hy & Hdk & Hdm & Hl & Hk & Hm & Hd). rewrite map_map in Hx, Hy. cbn [fst snd] in Hx, Hy.
  assert (Nl : l <> []).
  { unfold l. rewrite fold_left_app. cbn [fold_left]. apply Forall_app in P. destruct P as [_ P]. inversion P as [|? ? P1 _]; subst.
    destruct c as [xs ys tw tm ts u|x y tw tm ts u]; cbn [pdata pproper] in *.
    - destruct P1 as (N & L & _). destruct xs; [congruence|]. destruct ys; [discriminate|]. discriminate.
    - intros X. apply app_eq_nil in X. destruct X; discriminate. }
  destruct Hd as (Ed & Eo); [intros X; apply map_eq_nil in X; contradiction|]. specialize (Hk Ed). specialize (Hm Eo).
  destruct (predict K M KO MO g.(pg_gp K M) s v) as (X & Y).
  { now apply inv_linv. } { now apply inv_alpha with (KO := KO) (MO := MO). } { rewrite Hx. destruct l; [congruence|discriminate]. }
  { auto. } { auto. } { rewrite Ed, Lv. auto. }
  unfold predicts_mean, predicts_var in Y. rewrite Eo in Y. cbn [oget] in Y. rewrite Hk, Hm, Hx, Hy in Y. rewrite Hk, Hx in X.
  rewrite map_length in X, Y. split; auto. intros B HB. destruct (Y B HB) as (_ & _ & Q). exact Q.
Qed.
End Parego.

(** ** the hypotheses can be met *)
Example C47_ex2 :
  let K := BaseKernel (Exp 1 1) 0.01 false in let M := Constant 1 in let t := Node (Leaf 0) (Leaf 1) in
  inhabited (KernOK K) /\ inhabited (MeanOK M) /\ fresh K M (gp_new K M 1 1) (s_new K M 1 1) /\
  List.Forall (pproper 1 2) [PCompute [[0]] [[1; 2]] t t t (fun _ => 1); PAdd [1] [0; 3] t t t (fun i => INR i)].
Proof.
  cbv zeta. split; [constructor; apply base_OK; [apply exp_OK; lra|lra|discriminate]|].
  split; [constructor; exact (RT_OK _ (constant_RT 1))|]. split; [constructor|].
  constructor; [|constructor; [|constructor]]; cbn [pproper].
  - split; [discriminate|]. split; [reflexivity|]. split; [repeat constructor|]. split; [repeat constructor|]. simpl. lra.
  - split; [reflexivity|]. split; [reflexivity|]. simpl. lra.
Qed.
