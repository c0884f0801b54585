(** C35, for the model as a whole: SparsifiedGP predicts with the exact posterior of the thinned data. *)
From Coq Require Import Reals List Bool ZArith Lia Lra Permutation.
From Flocq Require Import Core.
From Verif Require Import LinAlgModel LinAlg KernelModel GPModel GPSpec GPFacts Prop_GP.
From Verif Require Import KernelSpec KernelFacts MeanSpec MeanFacts.
From Verif Require Import F64 F64R SparseModel SparseSpec SparseGPModel Prop_Sparse.
Import ListNotations.
Open Scope R_scope.
Local Notation rvec := (list R).

(** * Histories of calls *)
Inductive scall :=
| SCompute (xs ys : list rvec) (diag : nat -> F) (order : nat -> list nat)
| SAdd (x y : rvec) (junk1 junk2 : nat -> nat -> R) (diag : nat -> F) (order : nat -> list nat).

Section Sparse.
Variables (K : Kern) (M : Mean).
Variable KO : KernOK K.
Variable MO : MeanOK M.
Variable norm : rvec -> rvec -> F.
Variable p : nat.
Notation inv := (inv K M KO MO).

Definition scall_exec (g : gp K M) (c : scall) : outcome (gp K M) :=
  match c with
  | SCompute xs ys di od => sparse_compute K M norm p di od g xs ys true
  | SAdd x y j1 j2 di od => sparse_add_sample K M norm p di od j1 j2 g x y
  end.
Fixpoint srun (g : gp K M) (cs : list scall) : outcome (gp K M) :=
  match cs with [] => Done g | c :: r => bind (scall_exec g c) (fun g' => srun g' r) end.

(** the data after a history: [compute] starts afresh, [add_sample] appends, and both thin *)
Inductive data_after (D : nat) : list (rvec * rvec) -> list scall -> list (rvec * rvec) -> Prop :=
| da_nil : forall l, data_after D l [] l
| da_compute : forall l xs ys di od cs l1 l', thinned _ _ norm D p (combine xs ys) l1 -> data_after D l1 cs l' ->
    data_after D l (SCompute xs ys di od :: cs) l'
| da_add : forall l x y j1 j2 di od cs l1 l', thinned _ _ norm D p (l ++ [(x, y)]) l1 -> data_after D l1 cs l' ->
    data_after D l (SAdd x y j1 j2 di od :: cs) l'.

(** samples with [D] coordinates from a set in which distances are moderate, observations with [q] *)
Variables (D q : nat) (U : rvec -> Prop).
Hypothesis D0 : (0 < D)%nat.
Hypothesis q0 : (0 < q)%nat.
Hypothesis Dp : (D <= p)%nat.
Hypothesis D53 : (Z.of_nat D <= 2 ^ 53)%Z.
Hypothesis Udim : forall x, U x -> length x = D.
Hypothesis Unorm : forall x y, U x -> U y -> moderate (norm x y).

Definition proper (c : scall) : Prop :=
  match c with
  | SCompute xs ys _ od => xs <> [] /\ length xs = length ys /\ List.Forall U xs /\ List.Forall (fun y => length y = q) ys /\ schedules od
  | SAdd x y _ _ _ od => U x /\ length y = q /\ schedules od
  end.

(** the state with data [l] and the initial hyper-parameters *)
Definition holds (g : gp K M) (l : list (rvec * rvec)) : Prop :=
  exists s, inv g s /\ s_xs K M s = map fst l /\ s_ys K M s = map snd l /\ s_dk K M s = false /\ s_dm K M s = false /\
    List.Forall (fun xy => U (fst xy) /\ length (snd xy) = q) l /\
    (s_din K M s = Some D -> s_k K M s = k_new K D) /\ (s_dout K M s = Some q -> s_m K M s = m_new M q) /\
    (l <> [] -> s_din K M s = Some D /\ s_dout K M s = Some q).

Lemma hd_Forall {T} (P : T -> Prop) l d : l <> [] -> List.Forall P l -> P (hd d l).
Proof. intros H F. destruct F; [congruence|exact H0]. Qed.

Lemma compute_holds g s xs ys : inv g s -> xs <> [] -> length xs = length ys ->
  List.Forall U xs -> List.Forall (fun y => length y = q) ys ->
  (s_din K M s = Some D -> s_k K M s = k_new K D) -> (s_dout K M s = Some q -> s_m K M s = m_new M q) ->
  exists g', compute K M g xs ys true = Done g' /\ holds g' (combine xs ys).
Proof using D0 q0 Udim.
  clear Dp D53.
  intros I Ne L Ux Ly Hk Hm.
  assert (Ney : ys <> []) by (destruct ys; [destruct xs; [congruence|discriminate]|discriminate]).
  assert (Lx : List.Forall (fun v => length v = D) xs) by (eapply Forall_impl; [|exact Ux]; auto).
  assert (Hx : length (hd [] xs) = D) by (apply (hd_Forall (fun v => length v = D)); auto).
  assert (Hy : length (hd [] ys) = q) by (apply (hd_Forall (fun v => length v = q)); auto).
  destruct (comp_progress K M KO MO xs ys true g s) as (g' & E).
  { now apply inv_linv. }
  { cbn [valid]. split; auto. split; auto. unfold rect. rewrite Hx, Hy. auto. }
  exists g'. split; auto. exists (s_step K M s (Compute xs ys true)).
  split; [eapply comp_inv; eauto; now apply inv_linv|]. cbn [s_step s_xs s_ys s_dk s_dm s_din s_dout s_k s_m negb].
  rewrite Hx, Hy. rewrite fst_combine by auto.
  assert (snd_c : map snd (combine xs ys) = ys).
  { clear -L. revert ys L. induction xs as [|x xs IH]; intros [|y ys] L; simpl in *; auto; try lia. now rewrite IH by lia. }
  rewrite snd_c. split; auto. split; auto. split; auto. split; auto. split.
  { rewrite Forall_forall in Ux, Ly |- *. intros [x y] Hxy. split; [apply Ux|apply Ly]; [eapply in_combine_l|eapply in_combine_r]; eauto. }
  split; [|split; [|auto]]; intros _.
  - destruct (s_din K M s) as [d|] eqn:Ed; simpl; auto. destruct (Nat.eqb_spec d D); subst; auto.
  - destruct (s_dout K M s) as [d|] eqn:Ed; simpl; auto. destruct (Nat.eqb_spec d q); subst; auto.
Qed.

Lemma kept_thins (xs ys : list rvec) di od : length xs = length ys -> List.Forall U xs -> schedules od -> xs <> [] ->
  exists s o, kept _ _ norm (@length R) p di od xs ys = Ok (s, o) /\ length s = length o /\ s <> [] /\
    incl s xs /\ incl o ys /\ thinned _ _ norm D p (combine xs ys) (combine s o).
Proof.
  intros L Ux So Ne. rewrite Forall_forall in Ux.
  destruct (C35_thins _ _ norm (@length R) p D di od xs ys) as (s & o & E & L1 & L2 & T); auto.
  exists s, o. split; auto. split; auto. split.
  { intros ->. simpl in L2. destruct xs; [congruence|simpl in L2; lia]. }
  assert (Sub : forall (a b : list (rvec * rvec)), sublist a b -> incl a b).
  { induction 1; intros z Hz; simpl in *; intuition. }
  destruct (C35_pairs_kept _ _ norm (@length R) p di od xs ys s o) as (_ & S); auto. apply Sub in S.
  split; [|split; auto].
  - intros x Hx. rewrite <- (fst_combine s o) in Hx by auto. apply in_map_iff in Hx. destruct Hx as ([a b] & <- & H).
    apply S in H. now apply in_combine_l in H.
  - assert (snd_c : map snd (combine s o) = o).
    { clear -L1. revert o L1. induction s as [|x xs IH]; intros [|y o] L; simpl in *; auto; try lia. now rewrite IH by lia. }
    intros x Hx. rewrite <- snd_c in Hx. apply in_map_iff in Hx. destruct Hx as ([a b] & <- & H).
    apply S in H. now apply in_combine_r in H.
Qed.

Lemma step_holds g l c : holds g l -> proper c ->
  exists g' l', scall_exec g c = Done g' /\ holds g' l' /\ forall cs l'', data_after D l' cs l'' -> data_after D l (c :: cs) l''.
Proof.
  intros (s & I & Hx & Hy & Hdk & Hdm & Hl & Hk & Hm & Hd) P. destruct c as [xs ys di od|x y j1 j2 di od]; cbn [scall_exec proper] in *.
  - destruct P as (Ne & L & Ux & Ly & So). unfold sparse_compute.
    destruct (kept_thins xs ys di od L Ux So Ne) as (xs' & ys' & E & L' & Ne' & I1 & I2 & T). rewrite E.
    destruct (compute_holds g s xs' ys') as (g' & E' & H'); auto.
    { rewrite Forall_forall in Ux |- *. auto. } { rewrite Forall_forall in Ly |- *. auto. }
    exists g', (combine xs' ys'). split; auto. split; auto. intros. econstructor; eauto.
  - destruct P as (Ux & Ly & So). unfold sparse_add_sample. pose proof (Udim x Ux) as Lx.
    destruct (add_progress K M KO MO j1 j2 x y g s) as (g1 & E1).
    { now apply inv_linv. }
    { cbn [valid]. rewrite Lx, Ly. split; auto. split; auto. intros Hn. destruct Hd as [Hd1 Hd2]; [intros ->; apply Hn, Hx|]. auto. }
    rewrite E1. cbn [bind].
    assert (I1 : inv g1 (s_step K M s (Add j1 j2 x y))) by (eapply add_inv; eauto; now apply inv_linv).
    set (s1 := s_step K M s (Add j1 j2 x y)) in *.
    assert (H1 : s_xs K M s1 = map fst (l ++ [(x, y)]) /\ s_ys K M s1 = map snd (l ++ [(x, y)]) /\ s_dk K M s1 = false /\ s_dm K M s1 = false /\
       s_din K M s1 = Some D /\ s_dout K M s1 = Some q /\ s_k K M s1 = k_new K D /\ s_m K M s1 = m_new M q).
    { unfold s1. cbn [s_step]. rewrite !map_app. rewrite <- Hx, <- Hy. cbn [map fst snd]. rewrite Lx, Ly.
      destruct (s_xs K M s) as [|x0 xr] eqn:Ex.
      - assert (l = []) as -> by (destruct l; [auto|discriminate]). simpl in Hy. rewrite Hy.
        cbn [s_xs s_ys s_dk s_dm s_din s_dout s_k s_m app]. repeat split; auto.
        + destruct (s_din K M s) as [d|] eqn:Ed; simpl; auto. destruct (Nat.eqb_spec d D); subst; auto.
        + destruct (s_dout K M s) as [d|] eqn:Ed; simpl; auto. destruct (Nat.eqb_spec d q); subst; auto.
      - destruct Hd as [Hd1 Hd2]; [intros ->; discriminate|].
        cbn [s_xs s_ys s_dk s_dm s_din s_dout s_k s_m]. repeat split; auto. }
    destruct H1 as (X1 & Y1 & K1 & M1 & Di1 & Do1 & Kp1 & Mp1).
    assert (Hl1 : List.Forall (fun xy => U (fst xy) /\ length (snd xy) = q) (l ++ [(x, y)])).
    { apply Forall_app. split; auto. }
    rewrite (v_samples _ _ _ _ _ _ I1), X1, map_length.
    destruct (Nat.ltb_spec p (length (l ++ [(x, y)]))) as [Big|Small].
    + assert (OY : map (fun i => vec_of (cols (g_obs K M g1)) (at_ (g_obs K M g1) i)) (seq 0 (length (l ++ [(x, y)]))) = map snd (l ++ [(x, y)])).
      { assert (Nx : s_xs K M s1 <> []) by (rewrite X1, map_app; intros X; apply app_eq_nil in X; destruct X; discriminate).
        destruct (v_nonempty _ _ _ _ _ _ I1 Nx) as (_ & _ & Fy & Hc & Ho & _). unfold P, N in *. rewrite Do1 in *. cbn [oget] in *.
        rewrite Hc. rewrite Y1 in *. set (ys := map snd (l ++ [(x, y)])) in *.
        assert (Ln : length ys = length (l ++ [(x, y)])) by apply map_length.
        apply nth_ext with (d := []) (d' := []); [now rewrite map_length, seq_length|].
        rewrite map_length, seq_length. intros i Hi.
        rewrite nth_indep with (d' := vec_of q (at_ (g_obs K M g1) 0%nat)) by (rewrite map_length, seq_length; auto).
        rewrite (map_nth (fun i => vec_of q (at_ (g_obs K M g1) i))), seq_nth by auto. cbn [plus].
        assert (Ly2 : length (nth i ys []) = q) by (rewrite Forall_forall in Fy; apply Fy, nth_In; lia).
        apply nth_ext with (d := 0) (d' := 0); [now rewrite vec_of_length|]. rewrite vec_of_length. intros j Hj.
        fold (vget (vec_of q (at_ (g_obs K M g1) i)) j). rewrite vget_vec_of by auto. rewrite Ho; auto.
        rewrite X1, map_length. exact Hi. }
      rewrite OY. unfold sparse_compute.
      assert (Ux1 : List.Forall U (map fst (l ++ [(x, y)]))) by (apply Forall_map; eapply Forall_impl; [|exact Hl1]; intros a [Ha _]; exact Ha).
      assert (Ly1 : List.Forall (fun y => length y = q) (map snd (l ++ [(x, y)]))) by (apply Forall_map; eapply Forall_impl; [|exact Hl1]; intros a [_ Ha]; exact Ha).
      destruct (kept_thins (map fst (l ++ [(x, y)])) (map snd (l ++ [(x, y)])) di od) as (xs' & ys' & E & L' & Ne' & In1 & In2 & T); auto.
      { now rewrite !map_length. } { rewrite map_app. intros X; apply app_eq_nil in X; destruct X; discriminate. }
      rewrite E. destruct (compute_holds g1 s1 xs' ys') as (g' & E' & H'); auto.
      { rewrite Forall_forall in Ux1 |- *. auto. } { rewrite Forall_forall in Ly1 |- *. auto. }
      exists g', (combine xs' ys'). split; auto. split; auto. intros. eapply da_add; eauto.
      replace (combine (map fst (l ++ [(x, y)])) (map snd (l ++ [(x, y)]))) with (l ++ [(x, y)]) in T; auto.
      clear. generalize (l ++ [(x, y)]). intros m. induction m as [|[a b] m IH]; simpl; [auto|now rewrite <- IH].
    + exists g1, (l ++ [(x, y)]). split; auto. split.
      * exists s1. repeat (split; [solve [auto]|]). auto.
      * intros. eapply da_add; eauto. constructor. auto.
Qed.

Lemma srun_holds cs : forall g l, holds g l -> List.Forall proper cs ->
  exists g' l', srun g cs = Done g' /\ holds g' l' /\ data_after D l cs l'.
Proof.
  induction cs as [|c cs IH]; intros g l H P; cbn [srun].
  - exists g, l. repeat split; auto. constructor.
  - inversion P; subst. destruct (step_holds g l c H) as (g1 & l1 & E1 & H1 & A1); auto. rewrite E1. cbn [bind].
    destruct (IH g1 l1 H1) as (g2 & l2 & E2 & H3' & A2); auto. exists g2, l2. auto.
Qed.

Lemma fresh_holds g s : fresh K M g s -> holds g [].
Proof.
  intros F. exists s. split; [now apply fresh_inv|]. destruct F; cbn; repeat split; auto; try constructor; try congruence.
Qed.

Lemma data_after_bound l cs l' : data_after D l cs l' -> (length l <= p)%nat -> (length l' <= p)%nat.
Proof.
  induction 1; intros; auto; match goal with T : thinned _ _ _ _ _ _ _ |- _ => apply thinned_bound in T; destruct T as [T _] end;
    apply IHdata_after; lia.
Qed.

(** any history of proper calls, whatever the schedules and the uninitialised memory: it succeeds,
    at most [p] points are kept, they come from thinning the data given, and the predictions are those
    of the exact posterior given these points *)
Theorem C35_exact_posterior_of_kept g0 s0 cs : fresh K M g0 s0 -> List.Forall proper cs ->
  exists g l, srun g0 cs = Done g /\ data_after D [] cs l /\ (length l <= p)%nat /\
    (l <> [] -> forall v, length v = D ->
      let xs := map fst l in let ys := map snd l in
      (exists B, is_inv (length l) (gram K (k_new K D) xs) B) /\
      forall B, is_inv (length l) (gram K (k_new K D) xs) B ->
        let m := vec_of q (post_mean K M (k_new K D) (m_new M q) xs ys q B v) in
        let va := clamp (post_var K (k_new K D) xs B v) + k_noise K (k_new K D) in
        mu K M g v = Done m /\ sigma K M g v = Done va /\ query K M g v = Done (m, va)).
Proof.
  intros F P. destruct (srun_holds cs g0 [] (fresh_holds _ _ F) P) as (g & l & E & H & A).
  exists g, l. split; auto. split; auto. split; [eapply data_after_bound; eauto; simpl; lia|].
  intros Nl v Lv xs ys. destruct H as (s & I & Hx & Hy & Hdk & Hdm & Hl & Hk & Hm & Hd).
  destruct (Hd Nl) as (Ed & Eo). specialize (Hk Ed). specialize (Hm Eo).
  destruct (predict K M KO MO g s v) as (X & Y).
  { now apply inv_linv. } { now apply inv_alpha with (KO := KO) (MO := MO). } { rewrite Hx. destruct l; [congruence|discriminate]. }
  { auto. } { auto. } { rewrite Ed, Lv. auto. }
  unfold predicts_mean, predicts_var in Y. rewrite Eo in Y. cbn [oget] in Y. rewrite Hk, Hm, Hx, Hy in Y. rewrite Hk, Hx in X.
  rewrite map_length in X, Y. split; auto.
Qed.
End Sparse.

(** ** the hypotheses can be met: two points allowed, three given one by one *)
Definition discrete (x y : rvec) : F := if Req_EM_T (vget x 0) (vget y 0) then f0 else f1.
Example C35_ex2 :
  let C := Exp 1 1 in let K := BaseKernel C 0.01 false in let M := Constant 1 in
  let U := fun x : rvec => length x = 1%nat in
  let add x y := SAdd [x] [y] (fun _ _ => 0) (fun _ _ => 0) (fun _ => fnan) in_order in
  inhabited (KernOK K) /\ inhabited (MeanOK M) /\ (forall x y, U x -> U y -> moderate (discrete x y)) /\
  fresh K M (gp_new K M 1 1) (s_new K M 1 1) /\ List.Forall (proper 1 U) [add 0 1; add 1 2; add 3 0].
Proof.
  cbv zeta. split; [constructor; apply base_OK; [apply exp_OK; lra|lra|discriminate]|].
  split; [constructor; exact (RT_OK _ (constant_RT 1))|]. split.
  { intros x y _ _. unfold discrete. assert (B : 1 <= bpow radix2 900) by (change 1 with (bpow radix2 0); apply bpow_le; lia).
    destruct (fofZ_correct 1) as [F1 V1]; [lia|].
    destruct (Req_EM_T _ _); (split; [reflexivity|split; [reflexivity|]]); [change (fval f0) with 0; lra|].
    unfold f1. rewrite V1. lra. }
  split; [constructor|]. repeat constructor; cbn; auto using in_order_schedules.
Qed.
