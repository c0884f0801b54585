(** Rounding-error facts (binary64, through Flocq) used for the optimizers and the grids. *)
From Coq Require Import ZArith List Bool Lia Reals Lra.
From Coq Require Import Floats.SpecFloat.
From Flocq Require Import Core.
From Verif Require Import F64 F64R OptModel OptSpec OptFacts InitModel.
Import ListNotations.
Open Scope R_scope.

Lemma f0_ok : fvalid f0 /\ ffin f0 /\ fval f0 = 0.
Proof. repeat split. Qed.
Lemma f1_ok : fvalid f1 /\ ffin f1 /\ fval f1 = 1.
Proof. split; [apply fofZ_valid|]. apply (fofZ_correct 1). vm_compute. discriminate. Qed.

Lemma in_unit_fin x : fvalid x -> in_unit x -> ffin x /\ 0 <= fval x <= 1.
Proof.
  intros V [A B]. assert (Fx : ffin x).
  { destruct x as [[]|[]| |[] m e]; try reflexivity; vm_compute in A, B; discriminate. }
  split; auto. destruct f0_ok as (a & b & c), f1_ok as (a' & b' & c').
  apply fle_R in A; auto. apply fle_R in B; auto. lra.
Qed.

Lemma unit_fin_in x : fvalid x -> ffin x -> 0 <= fval x <= 1 -> in_unit x.
Proof.
  intros V Fx H. destruct f0_ok as (a & b & c), f1_ok as (a' & b' & c').
  split; apply fle_R; auto; lra.
Qed.

Lemma clamp1_valid x : fvalid x -> fvalid (clamp1 x).
Proof.
  unfold clamp1. intro V. destruct (flt x f0); [destruct (flt f1 f0)|destruct (flt f1 x)]; auto;
    try apply f1_ok; apply f0_ok.
Qed.

Lemma big_bpow : IZR (2 ^ 900) <= bpow radix2 1000.
Proof. change (IZR (2 ^ 900)) with (bpow radix2 900). apply bpow_le. lia. Qed.

Lemma small_fin x b : Rabs x <= b -> b <= 1000 -> Rabs (rnd x) < bpow radix2 1024.
Proof.
  intros A B. apply rnd_fin with b; auto. apply Rle_trans with (IZR (2 ^ 900)); [|apply big_bpow].
  apply Rle_trans with (1000); [lra|]. apply IZR_le. vm_compute. discriminate.
Qed.

(** ** Rprop step sizes *)
Definition step_ok (d : F) : Prop :=
  fvalid d /\ ffin d /\ fval deltamin <= fval d <= 50.

Lemma fdiv_int_valid a b : fvalid (fdiv (fofZ a) (fofZ b)).
Proof. apply fdiv_valid; apply fofZ_valid. Qed.

Lemma deltamin_ok : fvalid deltamin /\ ffin deltamin /\ 0 <= fval deltamin <= 50.
Proof.
  split; [apply fdiv_int_valid|]. split; [reflexivity|].
  destruct f0_ok as (a & b & c).
  split.
  - rewrite <- c. apply fle_R; auto; try apply fdiv_int_valid; try apply fofZ_valid; try reflexivity.
  - destruct (fofZ_correct 50) as [A B]; [vm_compute; discriminate|]. rewrite <- B.
    apply fle_R; auto; try apply fdiv_int_valid; try apply fofZ_valid; try reflexivity.
Qed.

Lemma deltamax_ok : fvalid deltamax /\ ffin deltamax /\ fval deltamax = 50.
Proof. split; [apply fofZ_valid|]. apply fofZ_correct. vm_compute; discriminate. Qed.

Lemma etaplus_ok : fvalid etaplus /\ ffin etaplus /\ 1 <= fval etaplus <= 2.
Proof.
  split; [apply fdiv_int_valid|]. split; [reflexivity|].
  destruct f1_ok as (a & b & c).
  destruct (fofZ_correct 2) as [A B]; [vm_compute; discriminate|].
  split.
  - rewrite <- c. apply fle_R; auto; try apply fdiv_int_valid; try apply fofZ_valid; try reflexivity.
  - rewrite <- B. apply fle_R; auto; try apply fdiv_int_valid; try apply fofZ_valid; try reflexivity.
Qed.

Lemma etaminus_ok : fvalid etaminus /\ ffin etaminus /\ 0 <= fval etaminus <= 1.
Proof.
  split; [apply fdiv_int_valid|]. split; [reflexivity|].
  destruct f0_ok as (a & b & c). destruct f1_ok as (a' & b' & c').
  split; [rewrite <- c|rewrite <- c']; apply fle_R; auto; try apply fdiv_int_valid; reflexivity.
Qed.

Lemma step_up d : step_ok d -> step_ok (fmin (fmul d etaplus) deltamax).
Proof.
  intros (V & Fd & B).
  destruct deltamin_ok as (Vm & Fm & Bm), deltamax_ok as (VM & FM & BM), etaplus_ok as (Ve & Fe & Be).
  assert (P : 0 <= fval d * fval etaplus <= 100).
  { split; [apply Rmult_le_pos; lra|]. replace 100 with (50 * 2) by lra. apply Rmult_le_compat; lra. }
  destruct (fmul_correct d etaplus) as [Fp Ep]; auto.
  { apply small_fin with 100; [rewrite Rabs_pos_eq; lra|lra]. }
  assert (Vp : fvalid (fmul d etaplus)) by (now apply fmul_valid).
  unfold fmin. destruct (flt deltamax (fmul d etaplus)) eqn:E.
  - repeat split; auto; lra.
  - apply flt_R_false in E; auto. repeat split; auto; [|lra].
    rewrite Ep. apply Rle_trans with (rnd (fval d)); [rewrite rnd_id; auto; lra|].
    apply rnd_le. rewrite <- (Rmult_1_r (fval d)) at 1. apply Rmult_le_compat_l; lra.
Qed.

Lemma step_down d : step_ok d -> step_ok (fmax (fmul d etaminus) deltamin).
Proof.
  intros (V & Fd & B).
  destruct deltamin_ok as (Vm & Fm & Bm), etaminus_ok as (Ve & Fe & Be).
  assert (P : 0 <= fval d * fval etaminus <= fval d).
  { split; [apply Rmult_le_pos; lra|]. rewrite <- (Rmult_1_r (fval d)) at 2. apply Rmult_le_compat_l; lra. }
  destruct (fmul_correct d etaminus) as [Fp Ep]; auto.
  { apply small_fin with 50; [rewrite Rabs_pos_eq; lra|lra]. }
  assert (Vp : fvalid (fmul d etaminus)) by (now apply fmul_valid).
  unfold fmax. destruct (flt (fmul d etaminus) deltamin) eqn:E.
  - repeat split; auto; lra.
  - apply flt_R_false in E; auto. repeat split; auto.
    rewrite Ep. apply Rle_trans with (rnd (fval d)); [apply rnd_le; lra|rewrite rnd_id; auto; lra].
Qed.

Lemma step_init : step_ok (fmul f1 delta0).
Proof.
  destruct deltamin_ok as (Vm & Fm & Bm), deltamax_ok as (VM & FM & BM).
  assert (V : fvalid (fmul f1 delta0)) by (apply fmul_valid; [apply fofZ_valid|apply fdiv_int_valid]).
  split; auto. split; [vm_compute; reflexivity|].
  split; [|rewrite <- BM]; apply fle_R; auto; vm_compute; reflexivity.
Qed.

Lemma signum_cases x : (signum x = 0 \/ signum x = 1 \/ signum x = -1)%Z.
Proof. unfold signum. destruct (flt f0 x), (flt x f0); auto. Qed.

Lemma move_notnan p s d : fvalid p -> in_unit p -> step_ok d -> (s = 0 \/ s = 1 \/ s = -1)%Z ->
  fvalid (fadd p (fmul (fofZ s) d)) /\ notnan (fadd p (fmul (fofZ s) d)).
Proof.
  intros Vp Up (V & Fd & B) Hs.
  destruct deltamin_ok as (Vm & Fm & Bm).
  destruct (in_unit_fin p Vp Up) as [Fp Bp].
  destruct (fofZ_correct s) as [Fs Es]; [destruct Hs as [->|[->| ->]]; vm_compute; discriminate|].
  assert (Ps : Rabs (fval (fofZ s) * fval d) <= 50).
  { rewrite Es, Rabs_mult. rewrite (Rabs_pos_eq (fval d)) by lra.
    destruct Hs as [->|[->| ->]]; rewrite <- abs_IZR; simpl Z.abs; lra. }
  destruct (fmul_correct (fofZ s) d) as [Fm' Em']; auto; [apply fofZ_valid| |].
  { apply small_fin with 50; auto; lra. }
  assert (Em : Rabs (fval (fmul (fofZ s) d)) <= 50).
  { rewrite Em'. destruct deltamax_ok as (VM & FM & BM).
    rewrite <- BM, <- (rnd_id deltamax) by auto. apply Rabs_le.
    apply Rabs_le_inv in Ps. rewrite <- BM in Ps.
    split; [|apply rnd_le; lra].
    rewrite <- (rnd_id deltamax) in Ps by auto.
    rewrite (rnd_id deltamax) in * by auto.
    replace (- fval deltamax) with (rnd (- fval deltamax)); [apply rnd_le; lra|].
    rewrite <- fopp_val. rewrite rnd_id; auto using fopp_valid. }
  assert (Vm2 : fvalid (fmul (fofZ s) d)) by (apply fmul_valid; auto; apply fofZ_valid).
  split; [now apply fadd_valid|].
  apply ffin_notnan. apply fadd_correct; auto.
  apply small_fin with 51; [|lra]. apply Rabs_le. apply Rabs_le_inv in Em. lra.
Qed.

Lemma rprop_coord_ok go g d p d' g' p' :
  rprop_coord true go g d p = (d', g', p') -> step_ok d -> fvalid p -> in_unit p ->
  step_ok d' /\ fvalid p' /\ in_unit p'.
Proof.
  unfold rprop_coord. intros E Hd Vp Up.
  destruct (if flt f0 go then _ else _) as [dd gg] eqn:Ed.
  injection E; intros; subst p' g' d'. clear E.
  assert (Hdd : step_ok dd).
  { destruct (flt f0 go); [|destruct (flt go f0)]; injection Ed; intros; subst; auto using step_up, step_down. }
  split; auto.
  destruct (move_notnan p (- signum gg) dd) as [A B]; auto.
  { destruct (signum_cases gg) as [->|[->| ->]]; auto. }
  split; [now apply clamp1_valid|now apply clamp1_unit].
Qed.

Definition good_point (v : vec) : Prop := Forall (fun x => fvalid x /\ in_unit x) v.

Lemma rprop_coords_ok gold g d p d' g' p' :
  rprop_coords true gold g d p = (d', g', p') -> Forall step_ok d -> good_point p ->
  Forall step_ok d' /\ good_point p'.
Proof.
  revert g d p d' g' p'.
  induction gold as [|a gold IH]; intros [|b g] [|c d] [|x p] d' g' p' E Hd Hp; cbn [rprop_coords] in E;
    try (injection E; intros; subst; split; constructor).
  destruct (rprop_coord true (fmul a b) b c x) as [[d1 g1] p1] eqn:E1.
  destruct (rprop_coords true gold g d p) as [[ds gs] ps] eqn:E2.
  injection E; intros; subst.
  apply Forall_cons_iff in Hd. destruct Hd as [Hd1 Hd2].
  apply Forall_cons_iff in Hp. destruct Hp as [[V U] Hp2].
  destruct (rprop_coord_ok _ _ _ _ _ _ _ E1) as (A & B & C); auto.
  destruct (IH _ _ _ _ _ _ E2) as (A' & B'); auto.
  split; constructor; auto.
Qed.

Lemma good_point_box v : good_point v -> in_box v.
Proof. intro H. eapply Forall_impl; [|exact H]. simpl. tauto. Qed.

Lemma rprop_good f norm eps iterations init p tr :
  Forall fvalid init -> Forall notnan init ->
  rprop f norm eps true iterations init = Some (p, tr) ->
  good_point p /\ Forall (fun e => in_box (fst e)) tr.
Proof.
  intros V N E. unfold rprop in E.
  destruct (rprop_loop_ind f norm eps true
     (fun _ _ d p _ bp tr => Forall step_ok d /\ good_point p /\ good_point bp /\ Forall (fun e => in_box (fst e)) tr))
    with (3 := E) as (j & ? & ? & ? & ? & _ & _ & _ & B & C).
  - intros i gold delta q best bp t lik g0 d' g' p' (A & B & C & D) Ef El Ec.
    destruct (rprop_coords_ok _ _ _ _ _ _ _ Ec A B) as [A' B'].
    split; auto. split; auto. split; [destruct (flt best lik); auto|].
    apply Forall_app. split; auto. constructor; auto. simpl. now apply good_point_box.
  - assert (G : good_point (clamp true init)).
    { unfold clamp, good_point. clear - V N. induction init as [|x l IH]; constructor.
      - inversion V; inversion N; subst. split; [now apply clamp1_valid|now apply clamp1_unit].
      - inversion V; inversion N; subst. auto. }
    split; [|split; [auto|split; [auto|constructor]]].
    apply Forall_forall. intros d Hd. apply repeat_spec in Hd. subst. apply step_init.
  - split; auto.
Qed.

Lemma rprop_in_box f norm eps iterations init p tr :
  Forall fvalid init -> Forall notnan init ->
  rprop f norm eps true iterations init = Some (p, tr) ->
  in_box p /\ Forall (fun e => in_box (fst e)) tr.
Proof. intros V N E. destruct (rprop_good _ _ _ _ _ _ _ V N E) as [A B]. split; [now apply good_point_box|exact B]. Qed.

(** ** accumulated grid *)
Definition acc (s x : F) (k : nat) : F := Nat.iter k (fun y => fadd y s) x.

Lemma acc_S s x k : acc s (fadd x s) k = acc s x (S k).
Proof. unfold acc. induction k; simpl in *; auto. now rewrite IHk. Qed.

Lemma steps_lt_spec s lim : forall c fuel x, (c < fuel)%nat ->
  (forall k, (k < c)%nat -> flt (acc s x k) lim = true) -> flt (acc s x c) lim = false ->
  steps_lt fuel x s lim = Some (map (acc s x) (seq 0 c)).
Proof.
  induction c as [|c IH]; intros fuel x L A B; destruct fuel as [|fuel]; try lia; cbn [steps_lt].
  - simpl in B. now rewrite B.
  - pose proof (A 0%nat ltac:(lia)) as A0. simpl in A0. rewrite A0.
    rewrite (IH fuel (fadd x s)).
    + simpl. f_equal. f_equal. rewrite <- seq_shift, map_map. apply map_ext. intro k. apply acc_S.
    + lia.
    + intros k Hk. rewrite acc_S. apply A. lia.
    + now rewrite acc_S.
Qed.

Lemma steps_le_spec s lim : forall c fuel x, (c < fuel)%nat ->
  (forall k, (k < c)%nat -> fle (acc s x k) lim = true) -> fle (acc s x c) lim = false ->
  steps_le fuel x s lim = Some (map (acc s x) (seq 0 c)).
Proof.
  induction c as [|c IH]; intros fuel x L A B; destruct fuel as [|fuel]; try lia; cbn [steps_le].
  - simpl in B. now rewrite B.
  - pose proof (A 0%nat ltac:(lia)) as A0. simpl in A0. rewrite A0.
    rewrite (IH fuel (fadd x s)).
    + simpl. f_equal. f_equal. rewrite <- seq_shift, map_map. apply map_ext. intro k. apply acc_S.
    + lia.
    + intros k Hk. rewrite acc_S. apply A. lia.
    + now rewrite acc_S.
Qed.

(** absolute rounding error below 4 *)
Definition u50 : R := bpow radix2 (-50).

Lemma rnd_err x : Rabs x <= 4 -> Rabs (rnd x - x) <= u50.
Proof.
  intro H. unfold rnd.
  eapply Rle_trans; [apply error_le_half_ulp; typeclasses eauto|].
  assert (U : ulp radix2 (SpecFloat.fexp fprec femax) x <= ulp radix2 (SpecFloat.fexp fprec femax) 4).
  { apply ulp_le; try typeclasses eauto. rewrite (Rabs_pos_eq 4) by lra. exact H. }
  assert (E : ulp radix2 (SpecFloat.fexp fprec femax) 4 = bpow radix2 (-50)).
  { change 4 with (bpow radix2 2). rewrite ulp_bpow. f_equal. }
  rewrite E in U. unfold u50. pose proof (bpow_gt_0 radix2 (-50)). lra.
Qed.

Lemma u50_pos : 0 < u50.
Proof. apply bpow_gt_0. Qed.
Lemma u50_val : u50 = / IZR (2 ^ 50).
Proof. reflexivity. Qed.

Section Acc.
  Variable n : Z.
  Hypothesis Hn : (1 <= n <= 2 ^ 20)%Z.
  Let s := fdiv f1 (fofZ n).

  Lemma n_pos : 1 <= IZR n.
  Proof. apply IZR_le. lia. Qed.

  Lemma inv_n : 0 < / IZR n <= 1.
  Proof.
    pose proof n_pos. split; [apply Rinv_0_lt_compat; lra|].
    rewrite <- Rinv_1. apply Rinv_le_contravar; lra.
  Qed.

  Lemma step_val : fvalid s /\ ffin s /\ Rabs (fval s - / IZR n) <= u50 /\ 0 <= fval s <= 1.
  Proof.
    pose proof n_pos as P. pose proof inv_n as I.
    destruct f1_ok as (V1 & F1 & E1).
    destruct (fofZ_correct n) as [Fn En]; [lia|].
    assert (V : fvalid s) by (apply fdiv_valid; auto; apply fofZ_valid).
    assert (Q : fval f1 / fval (fofZ n) = / IZR n) by (rewrite E1, En; unfold Rdiv; ring).
    destruct (fdiv_correct f1 (fofZ n)) as [Fs Es]; auto; [apply fofZ_valid|rewrite En; lra| |].
    { rewrite Q. apply small_fin with 1; [rewrite Rabs_pos_eq; lra|lra]. }
    split; auto. split; auto. rewrite Q in Es. fold s in Es. rewrite Es. split.
    - apply rnd_err. rewrite Rabs_pos_eq; lra.
    - split.
      + replace 0 with (rnd (fval f0)) by (rewrite rnd_id; reflexivity).
        apply rnd_le. unfold fval; simpl. lra.
      + rewrite <- E1, <- (rnd_id f1) by auto. apply rnd_le. lra.
  Qed.

  Lemma acc_val k : (Z.of_nat k <= n + 2)%Z ->
    fvalid (acc s f0 k) /\ ffin (acc s f0 k) /\
    Rabs (fval (acc s f0 k) - INR k * / IZR n) <= INR k * (2 * u50) /\ 0 <= fval (acc s f0 k).
  Proof.
    pose proof n_pos as P. pose proof inv_n as I. pose proof u50_pos as U.
    destruct step_val as (Vs & Fs & Es & Bs).
    induction k as [|k IH]; intro L.
    - simpl. replace (fval f0) with 0 by reflexivity. repeat split; try reflexivity; try lra.
      rewrite Rabs_pos_eq; lra.
    - destruct IH as (V & Fk & E & B); [lia|].
      change (acc s f0 (S k)) with (fadd (acc s f0 k) s).
      assert (Lk : INR k <= IZR n + 1).
      { rewrite INR_IZR_INZ. rewrite <- plus_IZR. apply IZR_le. lia. }
      pose proof (pos_INR k) as Pk.
      assert (Ek : INR k * / IZR n <= 2).
      { apply Rle_trans with ((IZR n + 1) * / IZR n); [apply Rmult_le_compat_r; lra|].
        rewrite Rmult_plus_distr_r, Rinv_r by lra. lra. }
      assert (Eu : INR k * (2 * u50) <= / 2).
      { apply Rle_trans with (IZR (2 ^ 21) * (2 * u50)).
        - apply Rmult_le_compat_r; [lra|]. eapply Rle_trans; [exact Lk|].
          rewrite <- plus_IZR. apply IZR_le. lia.
        - rewrite u50_val. apply Rmult_le_reg_r with (IZR (2 ^ 50)); [apply IZR_lt; lia|].
          rewrite !Rmult_assoc, Rinv_l by (apply IZR_neq; lia).
          apply Rmult_le_reg_l with 2; [lra|]. rewrite <- (Rmult_assoc 2 (/ 2)), Rinv_r by lra.
          rewrite Rmult_1_r, Rmult_1_l. rewrite <- !mult_IZR. apply IZR_le. vm_compute. discriminate. }
      apply Rabs_le_inv in E. apply Rabs_le_inv in Es.
      assert (S4 : 0 <= fval (acc s f0 k) + fval s <= 4) by lra.
      destruct (fadd_correct (acc s f0 k) s) as [Fa Ea]; auto.
      { apply small_fin with 4; [rewrite Rabs_pos_eq; lra|lra]. }
      split; [now apply fadd_valid|]. split; auto.
      pose proof (rnd_err (fval (acc s f0 k) + fval s)) as K.
      rewrite Rabs_pos_eq in K by lra. specialize (K (proj2 S4)).
      apply Rabs_le_inv in K. rewrite Ea. split.
      + rewrite S_INR. apply Rabs_le. lra.
      + replace 0 with (rnd (fval f0)) by (rewrite rnd_id; reflexivity).
        apply rnd_le. unfold fval at 1; simpl. lra.
  Qed.

  (** the error is far below 1/n *)
  Lemma err_small k : (Z.of_nat k <= n + 2)%Z -> INR k * (2 * u50) + 4 * u50 < / 2 * / IZR n.
  Proof.
    intro L. pose proof n_pos as P. pose proof u50_pos as U.
    apply Rmult_lt_reg_r with (IZR n); [lra|]. rewrite Rmult_assoc, Rinv_l, Rmult_1_r by lra.
    assert (Nn : IZR n <= IZR (2 ^ 20)) by (apply IZR_le; lia).
    assert (Nk : INR k + 2 <= IZR (2 ^ 21)).
    { rewrite INR_IZR_INZ, <- plus_IZR. apply IZR_le. lia. }
    pose proof (pos_INR k).
    apply Rle_lt_trans with ((IZR (2 ^ 21) * (2 * u50)) * IZR (2 ^ 20)).
    - replace (INR k * (2 * u50) + 4 * u50) with ((INR k + 2) * (2 * u50)) by ring.
      apply Rmult_le_compat; try lra.
      + apply Rmult_le_pos; lra.
      + apply Rmult_le_compat_r; lra.
    - rewrite u50_val.
      apply Rmult_lt_reg_r with (IZR (2 ^ 50)); [apply IZR_lt; lia|].
      replace (IZR (2 ^ 21) * (2 * / IZR (2 ^ 50)) * IZR (2 ^ 20) * IZR (2 ^ 50))
        with (IZR (2 ^ 21) * 2 * IZR (2 ^ 20) * (/ IZR (2 ^ 50) * IZR (2 ^ 50))) by ring.
      rewrite Rinv_l by (apply IZR_neq; lia). rewrite Rmult_1_r.
      apply Rmult_lt_reg_l with 2; [lra|]. rewrite <- (Rmult_assoc 2 (/ 2)), Rinv_r by lra.
      rewrite Rmult_1_l, <- !mult_IZR. apply IZR_lt. reflexivity.
  Qed.

  Lemma lim_val : fvalid (fadd f1 s) /\ ffin (fadd f1 s) /\ Rabs (fval (fadd f1 s) - (1 + / IZR n)) <= 2 * u50.
  Proof.
    pose proof inv_n as I. destruct step_val as (Vs & Fs & Es & Bs).
    destruct f1_ok as (V1 & F1 & E1).
    destruct (fadd_correct f1 s) as [Fa Ea]; auto.
    { rewrite E1. apply small_fin with 4; [rewrite Rabs_pos_eq; lra|lra]. }
    split; [now apply fadd_valid|]. split; auto. rewrite Ea, E1.
    pose proof (rnd_err (1 + fval s)) as K. rewrite Rabs_pos_eq in K by lra.
    specialize (K ltac:(lra)). apply Rabs_le. apply Rabs_le_inv in K. apply Rabs_le_inv in Es. lra.
  Qed.

  Lemma k_over_n k j : (Z.of_nat k <= n + j)%Z -> INR k * / IZR n <= 1 + IZR j * / IZR n.
  Proof.
    intro L. pose proof inv_n as I. pose proof n_pos.
    replace (1 + IZR j * / IZR n) with (IZR (n + j) * / IZR n).
    - apply Rmult_le_compat_r; [lra|]. rewrite INR_IZR_INZ. now apply IZR_le.
    - rewrite plus_IZR. field. lra.
  Qed.
  Lemma n_over_k k j : (n + j <= Z.of_nat k)%Z -> 1 + IZR j * / IZR n <= INR k * / IZR n.
  Proof.
    intro L. pose proof inv_n as I. pose proof n_pos.
    replace (1 + IZR j * / IZR n) with (IZR (n + j) * / IZR n).
    - apply Rmult_le_compat_r; [lra|]. rewrite INR_IZR_INZ. now apply IZR_le.
    - rewrite plus_IZR. field. lra.
  Qed.

  (** grid search: [bins+1] or [bins+2] values *)
  Lemma search_below k : (Z.of_nat k <= n)%Z -> flt (acc s f0 k) (fadd f1 s) = true.
  Proof.
    intro L. destruct (acc_val k) as (V & Fk & E & B); [lia|].
    destruct lim_val as (Vl & Fl & El).
    apply flt_R; auto. pose proof (err_small k ltac:(lia)). pose proof (k_over_n k 0 ltac:(lia)).
    apply Rabs_le_inv in E. apply Rabs_le_inv in El. pose proof inv_n. pose proof u50_pos. lra.
  Qed.
  Lemma search_above k : (Z.of_nat k = n + 2)%Z -> flt (acc s f0 k) (fadd f1 s) = false.
  Proof.
    intro L. destruct (acc_val k) as (V & Fk & E & B); [lia|].
    destruct lim_val as (Vl & Fl & El).
    apply flt_R_false; auto. pose proof (err_small k ltac:(lia)). pose proof (n_over_k k 2 ltac:(lia)).
    apply Rabs_le_inv in E. apply Rabs_le_inv in El. pose proof inv_n. pose proof u50_pos. lra.
  Qed.

  Lemma search_xs : exists c, (Z.of_nat c = n + 1 \/ Z.of_nat c = n + 2)%Z /\
    forall fuel, (Z.to_nat n + 2 < fuel)%nat ->
    grid_search_xs fuel n = Some (map (acc s f0) (seq 0 c)).
  Proof.
    destruct (flt (acc s f0 (Z.to_nat (n + 1))) (fadd f1 s)) eqn:E.
    - exists (Z.to_nat (n + 2)). split; [lia|]. intros fuel L. apply steps_lt_spec; [lia| |apply search_above; lia].
      intros k Hk. destruct (Nat.eq_dec k (Z.to_nat (n + 1))) as [->|]; auto. apply search_below. lia.
    - exists (Z.to_nat (n + 1)). split; [lia|]. intros fuel L. apply steps_lt_spec; [lia| |exact E].
      intros k Hk. apply search_below. lia.
  Qed.

  (** grid sampling: [bins] or [bins+1] values *)
  Lemma sampling_below k : (Z.of_nat k <= n - 1)%Z -> fle (acc s f0 k) f1 = true.
  Proof.
    intro L. destruct (acc_val k) as (V & Fk & E & B); [lia|].
    destruct f1_ok as (V1 & F1 & E1).
    apply fle_R; auto. rewrite E1. pose proof (err_small k ltac:(lia)). pose proof (k_over_n k (-1) ltac:(lia)).
    apply Rabs_le_inv in E. pose proof inv_n. pose proof u50_pos. lra.
  Qed.
  Lemma sampling_above k : (Z.of_nat k = n + 1)%Z -> fle (acc s f0 k) f1 = false.
  Proof.
    intro L. destruct (acc_val k) as (V & Fk & E & B); [lia|].
    destruct f1_ok as (V1 & F1 & E1).
    destruct (fle (acc s f0 k) f1) eqn:Ef; auto. exfalso.
    apply fle_R in Ef; auto. rewrite E1 in Ef. pose proof (err_small k ltac:(lia)). pose proof (n_over_k k 1 ltac:(lia)).
    apply Rabs_le_inv in E. pose proof inv_n. pose proof u50_pos. lra.
  Qed.

  Lemma sampling_xs : exists c, (Z.of_nat c = n \/ Z.of_nat c = n + 1)%Z /\
    forall fuel, (Z.to_nat n + 1 < fuel)%nat ->
    grid_sampling_xs fuel n = Some (map (acc s f0) (seq 0 c)).
  Proof.
    destruct (fle (acc s f0 (Z.to_nat n)) f1) eqn:E.
    - exists (Z.to_nat (n + 1)). split; [lia|]. intros fuel L. apply steps_le_spec; [lia| |apply sampling_above; lia].
      intros k Hk. destruct (Nat.eq_dec k (Z.to_nat n)) as [->|]; auto. apply sampling_below. lia.
    - exists (Z.to_nat n). split; [lia|]. intros fuel L. apply steps_le_spec; [lia| |exact E].
      intros k Hk. apply sampling_below. lia.
  Qed.
End Acc.

(** ** j/bins is in the unit interval *)
Lemma ratio_unit j n : (0 <= j <= n)%Z -> (1 <= n <= 2 ^ 53)%Z ->
  in_unit (fdiv (fofZ j) (fofZ n)) /\ fval (fdiv (fofZ j) (fofZ n)) = rnd (IZR j / IZR n).
Proof.
  intros Hj Hn.
  destruct (fofZ_correct j) as [Fj Ej]; [lia|]. destruct (fofZ_correct n) as [Fn En]; [lia|].
  assert (Pn : 1 <= IZR n) by (apply IZR_le; lia).
  assert (Pj : 0 <= IZR j <= IZR n) by (split; apply IZR_le; lia).
  assert (Q : 0 <= IZR j / IZR n <= 1).
  { split; [apply Rmult_le_pos; [lra|left; apply Rinv_0_lt_compat; lra]|]. apply Rmult_le_reg_r with (IZR n); [lra|].
    unfold Rdiv. rewrite Rmult_assoc, Rinv_l; lra. }
  destruct (fdiv_correct (fofZ j) (fofZ n)) as [Fd Ed]; auto using fofZ_valid; [lra| |].
  { rewrite Ej, En. apply small_fin with 1; [rewrite Rabs_pos_eq; lra|lra]. }
  rewrite Ej, En in Ed. split; auto.
  apply unit_fin_in; auto; [apply fdiv_valid; apply fofZ_valid|].
  rewrite Ed. destruct f1_ok as (V1 & F1 & E1). split.
  - replace 0 with (rnd (fval f0)) by (rewrite rnd_id; reflexivity). apply rnd_le. unfold fval; simpl; lra.
  - rewrite <- E1. rewrite <- (rnd_id f1) by auto. apply rnd_le. lra.
Qed.

(** ** deviation of the repeater *)
Lemma repeater_dev r eps : fvalid r -> in_unit r -> fvalid eps -> ffin eps -> 0 <= fval eps <= IZR (2 ^ 900) ->
  let d := fsub (fmul (fmul r (fofZ 2)) eps) eps in
  fvalid d /\ ffin d /\ - fval eps <= fval d <= fval eps.
Proof.
  intros Vr Ur Ve Fe Be d. destruct (in_unit_fin r Vr Ur) as [Fr Br].
  destruct (fofZ_correct 2) as [F2 E2]; [vm_compute; discriminate|].
  assert (V2 : fvalid (fofZ 2)) by apply fofZ_valid.
  pose proof big_bpow as BB.
  destruct (fmul_correct r (fofZ 2)) as [Fa Ea]; auto.
  { rewrite E2. apply small_fin with 2; [rewrite Rabs_pos_eq; lra|lra]. }
  assert (Va : fvalid (fmul r (fofZ 2))) by (now apply fmul_valid).
  assert (Ba : 0 <= fval (fmul r (fofZ 2)) <= 2).
  { rewrite Ea, E2. split.
    - replace 0 with (rnd (fval f0)) by (rewrite rnd_id; reflexivity). apply rnd_le. unfold fval at 1; simpl; lra.
    - rewrite <- E2 at 2. rewrite <- (rnd_id (fofZ 2)) by auto. apply rnd_le. rewrite E2. lra. }
  set (a := fmul r (fofZ 2)) in *.
  assert (G2 : rnd (2 * fval eps) = 2 * fval eps).
  { unfold rnd. apply round_generic; [typeclasses eauto|].
    assert (G : generic_format radix2 (SpecFloat.fexp fprec femax) (fval eps)).
    { rewrite <- (toB_R eps Ve). apply IEEE754.BinarySingleNaN.generic_format_B2R. }
    apply (generic_format_FLT radix2 (SpecFloat.emin fprec femax) fprec).
    apply (FLT_format_generic radix2 (SpecFloat.emin fprec femax) fprec) in G.
    destruct G as [fl E M X]. exists (Float radix2 (Fnum fl) (Fexp fl + 1)).
    - rewrite E. unfold F2R. simpl Fnum; simpl Fexp. rewrite bpow_plus. change (bpow radix2 1) with 2. ring.
    - exact M.
    - simpl Fexp. lia. }
  assert (Pb : 0 <= fval a * fval eps <= 2 * fval eps).
  { split; [apply Rmult_le_pos; lra|apply Rmult_le_compat_r; lra]. }
  assert (B2 : 2 * fval eps <= bpow radix2 1000).
  { apply Rle_trans with (IZR (2 ^ 901)).
    - replace (2 ^ 901)%Z with (2 * 2 ^ 900)%Z by reflexivity. rewrite mult_IZR. lra.
    - change (IZR (2 ^ 901)) with (bpow radix2 901). apply bpow_le. lia. }
  destruct (fmul_correct a eps) as [Fb Eb]; auto.
  { apply rnd_small. rewrite Rabs_pos_eq; lra. }
  assert (Vb : fvalid (fmul a eps)) by (now apply fmul_valid).
  assert (Bb : 0 <= fval (fmul a eps) <= 2 * fval eps).
  { rewrite Eb. split.
    - replace 0 with (rnd (fval f0)) by (rewrite rnd_id; reflexivity). apply rnd_le. unfold fval at 1; simpl; lra.
    - rewrite <- G2. apply rnd_le. lra. }
  set (b := fmul a eps) in *.
  destruct (fsub_correct b eps) as [Fd Ed]; auto.
  { apply rnd_small. apply Rabs_le. lra. }
  fold d in Fd, Ed.
  split; [now apply fsub_valid|]. split; auto. rewrite Ed. split.
  - replace (- fval eps) with (rnd (- fval eps)); [apply rnd_le; lra|].
    rewrite <- fopp_val. rewrite rnd_id; auto using fopp_valid.
  - rewrite <- (rnd_id eps) at 2 by auto. apply rnd_le. lra.
Qed.
