(** Property C10 in binary64: the points of the Latin hypercube lie in the closed unit box, each coordinate within 2^-50
    of its stratum; strictly below 1, and strictly within its stratum, is refuted. *)
From Coq Require Import ZArith List Bool Lia Reals Lra Permutation Arith.
From Coq Require Import Floats.SpecFloat.
From Flocq Require Import Core Relative.
From Verif Require Import F64 F64R OptSpec OptFloat LhsModel LhsFModel Prop_Lhs.
Import ListNotations.
Open Scope R_scope.

(** ** Rounding near one *)
Definition e53 : R := bpow radix2 (-53).
Lemma e53_pos : 0 < e53. Proof. apply bpow_gt_0. Qed.
Lemma e53_val : e53 = / IZR (2 ^ 53). Proof. reflexivity. Qed.

Lemma err_below_1 x : Rabs x < 1 -> Rabs (rnd x - x) <= e53 / 2.
Proof.
  intro H. destruct (Req_dec x 0) as [->|N].
  - unfold rnd. rewrite round_0 by typeclasses eauto. rewrite Rminus_0_r, Rabs_R0. pose proof e53_pos. lra.
  - eapply Rle_trans; [unfold rnd; apply error_le_half_ulp; typeclasses eauto|].
    assert (U : ulp radix2 (SpecFloat.fexp fprec femax) x <= e53); [|lra].
    rewrite ulp_neq_0 by exact N. apply bpow_le. unfold cexp, SpecFloat.fexp.
    pose proof (mag_le_bpow radix2 x 0 N H). unfold SpecFloat.emin, fprec, femax. lia.
Qed.
Lemma err_to_1 x : Rabs x <= 1 -> Rabs (rnd x - x) <= e53 / 2.
Proof.
  intros [H|H]; [now apply err_below_1|]. destruct f1_ok as (V & _ & E).
  pose proof e53_pos. assert (A : rnd x = x).
  { unfold Rabs in H. destruct (Rcase_abs x).
    - replace x with (fval (fopp f1)) by (rewrite fopp_val, E; lra). apply rnd_id. now apply fopp_valid.
    - replace x with (fval f1) by lra. now apply rnd_id. }
  rewrite A. replace (x - x) with 0 by ring. rewrite Rabs_R0. lra.
Qed.
Lemma rnd_top x : x < 1 + e53 -> rnd x <= 1.
Proof.
  intro H. unfold rnd. apply round_N_le_midp; try typeclasses eauto.
  - change 1 with (bpow radix2 0). apply generic_format_bpow. vm_compute. discriminate.
  - rewrite succ_eq_pos by lra. change 1 with (bpow radix2 0) at 3. rewrite ulp_bpow.
    replace (bpow radix2 (SpecFloat.fexp fprec femax (0 + 1))) with (2 * e53); [lra|].
    unfold e53. change 2 with (bpow radix2 1). rewrite <- bpow_plus. reflexivity.
Qed.
Lemma rnd_0 : rnd 0 = 0.
Proof. unfold rnd. apply round_0; typeclasses eauto. Qed.
Lemma rnd_pos x : 0 <= x -> 0 <= rnd x.
Proof. intro H. rewrite <- rnd_0. now apply rnd_le. Qed.
Lemma fin1 x : Rabs x <= 2 -> Rabs (rnd x) < bpow radix2 1024.
Proof. intro H. apply small_fin with 2; lra. Qed.

Definition unitF (x : F) : Prop := fvalid x /\ ffin x /\ 0 <= fval x <= 1.

(** ** One coordinate, for any two cuts *)
Section Cell.
Variables (a b u : F).
Hypotheses (Ha : unitF a) (Hb : unitF b) (Hu : unitF u) (Hab : fval a <= fval b).
Let d := fsub b a.
Let t := fmul u d.
Let s := fadd t a.
Lemma cell_d : fvalid d /\ ffin d /\ fval d = rnd (fval b - fval a) /\ 0 <= fval d <= 1.
Proof.
  destruct Ha as (Va & Fa & Ba), Hb as (Vb & Fb & Bb).
  destruct (fsub_correct b a) as [Fd Ed]; auto. { apply fin1. rewrite Rabs_pos_eq; lra. }
  fold d in Fd, Ed. split; [now apply fsub_valid|]. split; [exact Fd|]. split; [exact Ed|]. rewrite Ed. split; [apply rnd_pos; lra|].
  apply rnd_top. pose proof e53_pos. lra.
Qed.
Lemma cell_t : fvalid t /\ ffin t /\ fval t = rnd (fval u * fval d) /\ 0 <= fval t <= fval d.
Proof.
  destruct cell_d as (Vd & Fd & _ & Bd). destruct Hu as (Vu & Fu & Bu).
  assert (P : 0 <= fval u * fval d <= fval d). { split; [apply Rmult_le_pos; lra|]. rewrite <- (Rmult_1_l (fval d)) at 2. apply Rmult_le_compat_r; lra. }
  destruct (fmul_correct u d) as [Ft Et]; auto. { apply fin1. rewrite Rabs_pos_eq; lra. }
  fold t in Ft, Et. split; [now apply fmul_valid|]. split; [exact Ft|]. split; [exact Et|]. rewrite Et. split; [apply rnd_pos; lra|].
  rewrite <- (rnd_id d Vd) at 2. apply rnd_le. lra.
Qed.
Lemma cell_s : unitF s /\ Rabs (fval s - (fval u * (fval b - fval a) + fval a)) <= 3 * e53.
Proof.
  destruct cell_d as (Vd & Fd & Ed & Bd). destruct cell_t as (Vt & Ft & Et & Bt).
  destruct Ha as (Va & Fa & Ba), Hb as (Vb & Fb & Bb), Hu as (Vu & Fu & Bu). pose proof e53_pos as E.
  assert (Dtop : fval d <= 1 - fval a + e53 / 2).
  { rewrite Ed. eapply Rle_trans; [apply rnd_le with (y := 1 - fval a); lra|].
    pose proof (err_to_1 (1 - fval a) ltac:(rewrite Rabs_pos_eq; lra)) as K. apply Rabs_le_inv in K. lra. }
  assert (T : 0 <= fval t + fval a < 1 + e53) by lra.
  assert (E1 : e53 < 1). { unfold e53. change 1 with (bpow radix2 0). apply bpow_lt. lia. }
  destruct (fadd_correct t a) as [Fs Es]; auto. { apply fin1. rewrite Rabs_pos_eq; lra. }
  fold s in Fs, Es. split.
  - split; [now apply fadd_valid|]. split; [exact Fs|]. rewrite Es. split; [apply rnd_pos; lra|apply rnd_top; lra].
  - assert (K3 : Rabs (rnd (fval t + fval a) - (fval t + fval a)) <= 3 / 2 * e53).
    { destruct (Rle_dec (fval t + fval a) 1) as [L|L].
      - eapply Rle_trans; [apply err_to_1; rewrite Rabs_pos_eq; lra|lra].
      - apply Rabs_le. split; [|pose proof (rnd_top (fval t + fval a) ltac:(lra)); lra].
        destruct f1_ok as (V1 & _ & X1). pose proof (rnd_le (fval f1) (fval t + fval a) ltac:(rewrite X1; lra)) as Q. rewrite rnd_id in Q by exact V1. lra. }
    assert (K1 : Rabs (rnd (fval b - fval a) - (fval b - fval a)) <= e53 / 2) by (apply err_to_1; rewrite Rabs_pos_eq; lra).
    assert (K2 : Rabs (rnd (fval u * fval d) - fval u * fval d) <= e53 / 2).
    { apply err_to_1. assert (P : 0 <= fval u * fval d <= 1 * 1). { split; [apply Rmult_le_pos; lra|]. apply Rmult_le_compat; lra. }
      rewrite Rabs_pos_eq; lra. }
    rewrite <- Es in K3. rewrite <- Et in K2. rewrite <- Ed in K1. apply Rabs_le_inv in K1, K2, K3.
    assert (K4 : Rabs (fval u * (fval d - (fval b - fval a))) <= e53 / 2).
    { rewrite Rabs_mult, (Rabs_pos_eq (fval u)) by lra. rewrite <- (Rmult_1_l (e53 / 2)). apply Rmult_le_compat; try lra; [apply Rabs_pos|]. apply Rabs_le. lra. }
    apply Rabs_le_inv in K4. apply Rabs_le.
    replace (fval s - (fval u * (fval b - fval a) + fval a)) with ((fval s - (fval t + fval a)) + (fval t - fval u * fval d) + fval u * (fval d - (fval b - fval a))) by ring. lra.
Qed.
End Cell.

(** ** The cuts *)
Section Cuts.
Variable n : nat.
Hypothesis Hn : (1 <= Z.of_nat n <= 2 ^ 31)%Z.
Lemma nR : 1 <= INR n <= IZR (2 ^ 31).
Proof. rewrite INR_IZR_INZ. split; apply IZR_le; lia. Qed.
Definition lhs_step : F := fdiv (fsub f1 f0) (fofZ (Z.of_nat n)).
Lemma lhs_step_ok : fvalid lhs_step /\ ffin lhs_step /\ 0 <= fval lhs_step <= 1 /\ Rabs (fval lhs_step - / INR n) <= e53 * / INR n.
Proof.
  pose proof nR as N. destruct f1_ok as (V1 & F1 & X1), f0_ok as (V0 & F0 & X0).
  destruct (fofZ_correct (Z.of_nat n)) as [Fn En]; [lia|]. rewrite <- INR_IZR_INZ in En.
  assert (I : 0 < / INR n <= 1). { split; [apply Rinv_0_lt_compat; lra|]. rewrite <- Rinv_1. apply Rinv_le_contravar; lra. }
  assert (E1 : fsub f1 f0 = f1) by reflexivity. unfold lhs_step. rewrite E1.
  assert (Q : fval f1 / fval (fofZ (Z.of_nat n)) = / INR n) by (rewrite En, X1; unfold Rdiv; ring).
  destruct (fdiv_correct f1 (fofZ (Z.of_nat n))) as [Fs Es]; auto; [apply fofZ_valid|rewrite En; lra|rewrite Q; apply fin1; rewrite Rabs_pos_eq; lra|].
  rewrite Q in Es. split; [apply fdiv_valid; [exact V1|apply fofZ_valid]|]. split; [exact Fs|]. rewrite Es. split.
  - split; [apply rnd_pos; lra|apply rnd_top; pose proof e53_pos; lra].
  - pose proof (relative_error_N_FLT radix2 (SpecFloat.emin fprec femax) fprec ltac:(reflexivity) (fun x => negb (Z.even x)) (/ INR n)) as K.
    rewrite (Rabs_pos_eq (/ INR n)) in K by lra. replace e53 with (/ 2 * bpow radix2 (- fprec + 1)).
    + apply K. apply Rle_trans with (bpow radix2 (-31)); [apply bpow_le; vm_compute; discriminate|].
      change (bpow radix2 (-31)) with (/ IZR (2 ^ 31)). apply Rinv_le_contravar; lra.
    + unfold e53. change (/ 2) with (bpow radix2 (-1)). rewrite <- bpow_plus. reflexivity.
Qed.
Lemma cut_val i : (i < n)%nat -> fvalid (lhs_cutF n i) /\ ffin (lhs_cutF n i) /\ fval (lhs_cutF n i) = rnd (INR i * fval lhs_step) /\ 0 <= INR i * fval lhs_step <= 1 /\
  Rabs (INR i * fval lhs_step - INR i / INR n) <= e53.
Proof.
  intro L. pose proof nR as N. pose proof e53_pos as E. destruct lhs_step_ok as (Vs & Fs & Bs & Es).
  assert (Li : 0 <= INR i <= INR n - 1). { split; [apply pos_INR|]. replace (INR n - 1) with (INR (n - 1)); [apply le_INR; lia|]. rewrite minus_INR by lia. reflexivity. }
  assert (Iv : INR n * / INR n = 1) by (field; lra).
  assert (Ip : 0 < / INR n) by (apply Rinv_0_lt_compat; lra).
  assert (D : Rabs (INR i * fval lhs_step - INR i / INR n) <= INR i * / INR n * e53).
  { replace (INR i * fval lhs_step - INR i / INR n) with (INR i * (fval lhs_step - / INR n)) by (unfold Rdiv; ring).
    rewrite Rabs_mult, (Rabs_pos_eq (INR i)) by lra. rewrite Rmult_assoc, (Rmult_comm (/ INR n)). apply Rmult_le_compat_l; lra. }
  assert (Q : 0 <= INR i * / INR n <= 1 - / INR n).
  { split; [apply Rmult_le_pos; lra|]. rewrite <- Iv. replace (INR n * / INR n - / INR n) with ((INR n - 1) * / INR n) by ring. apply Rmult_le_compat_r; lra. }
  assert (D2 : Rabs (INR i * fval lhs_step - INR i / INR n) <= e53).
  { eapply Rle_trans; [exact D|]. rewrite <- (Rmult_1_l e53) at 2. apply Rmult_le_compat_r; lra. }
  assert (In : e53 <= / INR n). { rewrite e53_val. apply Rinv_le_contravar; [lra|]. eapply Rle_trans; [apply N|]. apply IZR_le. lia. }
  assert (B : 0 <= INR i * fval lhs_step <= 1).
  { split; [apply Rmult_le_pos; lra|]. apply Rabs_le_inv in D2. unfold Rdiv in D2. lra. }
  unfold lhs_cutF. replace (i =? n)%nat with false by (symmetry; apply Nat.eqb_neq; lia). fold lhs_step.
  destruct (fofZ_correct (Z.of_nat i)) as [Fi Ei]; [lia|]. rewrite <- INR_IZR_INZ in Ei.
  destruct (fmul_correct (fofZ (Z.of_nat i)) lhs_step) as [Fm Em]; auto; [apply fofZ_valid|rewrite Ei; apply fin1; rewrite Rabs_pos_eq; lra|].
  rewrite Ei in Em. set (m := fmul _ _) in *. assert (Vm : fvalid m) by (apply fmul_valid; [apply fofZ_valid|exact Vs]).
  destruct f0_ok as (V0 & F0 & X0).
  assert (Bm : 0 <= fval m <= 1). { rewrite Em. split; [apply rnd_pos; lra|apply rnd_top; lra]. }
  destruct (fadd_correct f0 m) as [Fc Ec]; auto; [rewrite X0, Rplus_0_l; apply fin1; rewrite Rabs_pos_eq; lra|].
  rewrite X0, Rplus_0_l, rnd_id in Ec by exact Vm.
  split; [now apply fadd_valid|]. split; [exact Fc|]. split; [congruence|]. split; [exact B|exact D2].
Qed.
Lemma cut_last : lhs_cutF n n = f1.
Proof. unfold lhs_cutF. now rewrite Nat.eqb_refl. Qed.
Lemma cut_unit i : (i <= n)%nat -> unitF (lhs_cutF n i) /\ Rabs (fval (lhs_cutF n i) - INR i / INR n) <= 3 / 2 * e53.
Proof.
  intro L. pose proof e53_pos as E. destruct (Nat.eq_dec i n) as [->|D].
  - rewrite cut_last. destruct f1_ok as (V1 & F1 & X1). split; [split; [exact V1|]; split; [exact F1|lra]|].
    rewrite X1. pose proof nR. replace (1 - INR n / INR n) with 0 by (field; lra). rewrite Rabs_R0. lra.
  - destruct (cut_val i ltac:(lia)) as (V & Fc & Ec & B & K).
    pose proof (err_to_1 (INR i * fval lhs_step) ltac:(rewrite Rabs_pos_eq; lra)) as K1. rewrite <- Ec in K1. apply Rabs_le_inv in K, K1. split.
    + split; [exact V|]. split; [exact Fc|]. rewrite Ec. split; [apply rnd_pos; lra|apply rnd_top; lra].
    + apply Rabs_le. lra.
Qed.
Lemma cut_mono i : (i < n)%nat -> fval (lhs_cutF n i) <= fval (lhs_cutF n (S i)).
Proof.
  intro L. destruct (Nat.eq_dec (S i) n) as [D|D].
  - rewrite D, cut_last. destruct f1_ok as (_ & _ & X1). rewrite X1. apply (cut_unit i). lia.
  - destruct (cut_val i L) as (_ & _ & -> & _). destruct (cut_val (S i) ltac:(lia)) as (_ & _ & -> & _).
    apply rnd_le. apply Rmult_le_compat_r; [apply lhs_step_ok|]. apply le_INR. lia.
Qed.
Lemma rdpoints_ok u i j : (i < n)%nat -> unitF (u i j) ->
  unitF (lhs_rdpointsF n u i j) /\ Rabs (fval (lhs_rdpointsF n u i j) - (INR i + fval (u i j)) / INR n) <= 8 * e53.
Proof.
  intros L Hu. destruct (cut_unit i ltac:(lia)) as [Ua Ka]. destruct (cut_unit (S i) ltac:(lia)) as [Ub Kb].
  destruct (cell_s _ _ _ Ua Ub Hu (cut_mono i L)) as [S1 S2]. split; [exact S1|]. unfold lhs_rdpointsF.
  destruct Hu as (_ & _ & Bu). set (a := fval (lhs_cutF n i)) in *. set (b := fval (lhs_cutF n (S i))) in *. set (x := fval (u i j)) in *.
  assert (Q : (INR i + x) / INR n = x * (INR (S i) / INR n - INR i / INR n) + INR i / INR n). { rewrite S_INR. pose proof nR. field. lra. }
  rewrite Q. apply Rabs_le_inv in Ka, Kb, S2. pose proof e53_pos as E.
  assert (K : Rabs (x * ((b - a) - (INR (S i) / INR n - INR i / INR n))) <= 3 * e53).
  { rewrite Rabs_mult, (Rabs_pos_eq x) by lra. rewrite <- (Rmult_1_l (3 * e53)). apply Rmult_le_compat; try lra; [apply Rabs_pos|]. apply Rabs_le. lra. }
  apply Rabs_le_inv in K. apply Rabs_le.
  replace (fval (fadd (fmul (u i j) (fsub (lhs_cutF n (S i)) (lhs_cutF n i))) (lhs_cutF n i)) - (x * (INR (S i) / INR n - INR i / INR n) + INR i / INR n))
    with ((fval (fadd (fmul (u i j) (fsub (lhs_cutF n (S i)) (lhs_cutF n i))) (lhs_cutF n i)) - (x * (b - a) + a)) + x * ((b - a) - (INR (S i) / INR n - INR i / INR n)) + (a - INR i / INR n)) by ring.
  lra.
Qed.
End Cuts.

(** ** The matrix *)
(** every coordinate of every point is in the closed unit interval; the points and the strata correspond one to one in
    every dimension: stratum [m] is hit by row [nth m (perm j)], up to 2^-50 *)
Theorem C10_float :
  forall (n dim : nat) (u : nat -> nat -> F) (perm : nat -> list nat), (Z.of_nat n <= 2 ^ 31)%Z ->
    (forall i j, (i < n)%nat -> (j < dim)%nat -> fvalid (u i j) /\ in_unit (u i j)) ->
    (forall j, (j < dim)%nat -> Permutation (perm j) (seq 0 n)) ->
    length (lhs_points dim n u perm) = n /\
    (forall p, In p (lhs_points dim n u perm) -> length p = dim /\ in_box p) /\
    (forall j, (j < dim)%nat -> exists row : nat -> nat, (forall m, (m < n)%nat -> (row m < n)%nat) /\ (forall m m', (m < n)%nat -> (m' < n)%nat -> row m = row m' -> m = m') /\
       forall m, (m < n)%nat -> exists p x, nth_error (lhs_points dim n u perm) (row m) = Some p /\ nth_error p j = Some x /\
         INR m / INR n - / IZR (2 ^ 50) <= fval x <= INR (m + 1) / INR n + / IZR (2 ^ 50)).
Proof.
  intros n dim u perm Hn Hu Hp.
  assert (Hx : forall j m r, (j < dim)%nat -> nth_error (perm j) m = Some r -> (m < n)%nat /\ (r < n)%nat /\ random_lhsF n u perm r j = lhs_rdpointsF n u m j).
  { intros j m r Hj Hr. pose proof (Hp j Hj) as P. assert (Len : length (perm j) = n) by (rewrite (Permutation_length P); apply seq_length).
    assert (m < n)%nat by (rewrite <- Len; apply nth_error_Some; congruence).
    split; [assumption|]. split.
    - apply nth_error_In in Hr. eapply Permutation_in in Hr; [|exact P]. apply in_seq in Hr. lia.
    - unfold random_lhsF. rewrite (scatter_at _ 0 _ _ m r); auto. eapply Permutation_NoDup; [apply Permutation_sym; exact P|apply seq_NoDup]. }
  assert (Hrow : forall j r, (j < dim)%nat -> (r < n)%nat -> exists m, nth_error (perm j) m = Some r).
  { intros j r Hj Hr. apply In_nth_error. eapply Permutation_in; [apply Permutation_sym, Hp, Hj|]. apply in_seq. lia. }
  assert (U : forall i j, (i < n)%nat -> (j < dim)%nat -> unitF (u i j)).
  { intros i j Hi Hj. destruct (Hu i j Hi Hj) as [V I]. destruct (in_unit_fin _ V I). now split. }
  assert (Hpt : forall r, (r < n)%nat -> nth_error (lhs_points dim n u perm) r = Some (map (fun col => random_lhsF n u perm r col) (seq 0 dim))).
  { intros r Hr. unfold lhs_points. rewrite nth_error_map. rewrite (nth_error_nth' _ 0%nat) by (rewrite seq_length; lia). rewrite seq_nth by lia. reflexivity. }
  assert (Hco : forall (r j : nat), (j < dim)%nat -> nth_error (map (fun col => random_lhsF n u perm r col) (seq 0 dim)) j = Some (random_lhsF n u perm r j)).
  { intros r j Hj. rewrite nth_error_map. rewrite (nth_error_nth' _ 0%nat) by (rewrite seq_length; lia). rewrite seq_nth by lia. reflexivity. }
  split; [unfold lhs_points; now rewrite map_length, seq_length|]. split.
  - intros p I. unfold lhs_points in I. apply in_map_iff in I. destruct I as (r & <- & I). apply in_seq in I. split; [now rewrite map_length, seq_length|].
    apply Forall_forall. intros x Ix. apply in_map_iff in Ix. destruct Ix as (j & <- & Ij). apply in_seq in Ij.
    destruct (Hrow j r ltac:(lia) ltac:(lia)) as (m & Em). destruct (Hx j m r ltac:(lia) Em) as (Lm & _ & ->).
    destruct (rdpoints_ok n ltac:(lia) u m j Lm (U m j Lm ltac:(lia))) as [(V & Fx & B) _]. now apply unit_fin_in.
  - intros j Hj. exists (fun m => nth m (perm j) 0%nat). pose proof (Hp j Hj) as P. assert (Len : length (perm j) = n) by (rewrite (Permutation_length P); apply seq_length).
    assert (En : forall m, (m < n)%nat -> nth_error (perm j) m = Some (nth m (perm j) 0%nat)) by (intros m Hm; apply nth_error_nth'; lia).
    split; [intros m Hm; apply (Hx j m _ Hj (En m Hm))|]. split.
    + intros m m' Hm Hm' E. eapply NoDup_nth; try eassumption; try lia. eapply Permutation_NoDup; [apply Permutation_sym; exact P|apply seq_NoDup].
    + intros m Hm. destruct (Hx j m _ Hj (En m Hm)) as (_ & Lr & Er). set (r := nth m (perm j) 0%nat) in *.
      exists (map (fun col => random_lhsF n u perm r col) (seq 0 dim)), (random_lhsF n u perm r j). split; [now apply Hpt|]. split; [now apply Hco|].
      rewrite Er. pose proof (U m j Hm Hj) as Uu. destruct (rdpoints_ok n ltac:(lia) u m j Hm Uu) as [_ K]. apply Rabs_le_inv in K.
      destruct Uu as (_ & _ & Bu). pose proof (nR n ltac:(lia)) as N. assert (Ip : 0 < / INR n) by (apply Rinv_0_lt_compat; lra).
      replace (8 * e53) with (/ IZR (2 ^ 50)) in K.
      2:{ change (/ IZR (2 ^ 50)) with (bpow radix2 (-50)). unfold e53. change 8 with (bpow radix2 3). rewrite <- bpow_plus. reflexivity. }
      assert (L1 : INR m / INR n <= (INR m + fval (u m j)) / INR n) by (apply Rmult_le_compat_r; lra).
      assert (L2 : (INR m + fval (u m j)) / INR n <= INR (m + 1) / INR n). { apply Rmult_le_compat_r; [lra|]. rewrite plus_INR. simpl (INR 1). lra. }
      lra.
Qed.

(** the largest value below 1, which uniform_real_distribution(0, 1) may return *)
Definition almost1 : F := fofZe (2 ^ 53 - 1) (-53).
(** strictly below 1 is refuted: two points in one dimension, the second draw being the largest number below 1 *)
Theorem C10_half_open_refuted : exists (n dim : nat) (u : nat -> nat -> F) (perm : nat -> list nat),
  (forall i j, fvalid (u i j) /\ in_unit (u i j) /\ flt (u i j) f1 = true) /\ (forall j, Permutation (perm j) (seq 0 n)) /\
  exists p, In p (lhs_points dim n u perm) /\ p = [f1].
Proof.
  exists 2%nat, 1%nat, (fun _ _ => almost1), (fun _ => [0; 1]%nat). split; [|split].
  - intros _ _. split; [apply fofZe_valid|]. split; [split; vm_compute; reflexivity|vm_compute; reflexivity].
  - intros _. apply Permutation_refl.
  - exists [f1]. split; [|reflexivity]. right. left. vm_compute. reflexivity.
Qed.

(** non-vacuity: 3 points in 2 dimensions *)
Example C10_float_example : let u := fun i j : nat => fdiv (fofZ (Z.of_nat i)) (fofZ 4) in let perm := fun j : nat => (if (j =? 0)%nat then [2; 0; 1] else [0; 2; 1])%nat in
  (forall i j, (i < 3)%nat -> (j < 2)%nat -> fvalid (u i j) /\ in_unit (u i j)) /\ (forall j, (j < 2)%nat -> Permutation (perm j) (seq 0 3)) /\
  nth_error (lhs_points 2 3 u perm) 2 = Some [f0; fadd (fmul (fdiv f1 (fofZ 4)) (fsub (fdiv (fofZ 2) (fofZ 3)) (fdiv f1 (fofZ 3)))) (fdiv f1 (fofZ 3))].
Proof.
  cbv zeta. split; [|split].
  - intros i j Hi _. split; [apply fdiv_valid; apply fofZ_valid|]. destruct i as [|[|[|i]]]; [| | |lia]; split; vm_compute; reflexivity.
  - intros [|[|j]] H; simpl; [| |lia].
    + apply Permutation_trans with [0; 2; 1]%nat; [apply perm_swap|]. constructor. apply perm_swap.
    + constructor. apply perm_swap.
  - vm_compute. reflexivity.
Qed.
