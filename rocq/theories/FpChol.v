(** Rounding error analysis of the Cholesky factorisation of FpModel.v. *)
From Coq Require Import ZArith List Bool Lia Permutation Reals Lra.
From Coq Require Import Floats.SpecFloat.
From Flocq Require Import Core.
From Verif Require Import F64 F64R AdamFloat OptFloat FpModel FpErr LinAlgModel LinAlg FpAlg.
Import ListNotations.
Open Scope R_scope.

Notation bp := (bpow radix2).

(** ** numbers *)
Lemma uu_small : 0 < uu <= / 1000000.
Proof.
  split; [apply uu_pos|]. rewrite uu_inv. apply Rinv_le; [lra|]. apply IZR_le. discriminate.
Qed.
Lemma bp_le a b : (a <= b)%Z -> bp a <= bp b.
Proof. apply bpow_le. Qed.
Lemma bp_pos a : 0 < bp a. Proof. apply bpow_gt_0. Qed.

(** [c - sum] and [c + sum] as real numbers *)
Definition rdot (from len : nat) (f g : fvec) : R := rsum len (fun k => fval (f (from + k)%nat) * fval (g (from + k)%nat)).
Definition adot (from len : nat) (f g : fvec) : R := rsum len (fun k => Rabs (fval (f (from + k)%nat) * fval (g (from + k)%nat))).

Lemma terms_sum b from len f g :
  let l := map (fun p : F * F => (b, TMul (fst p) (snd p))) (prods from len f g) in
  tsum l = (if b then -1 else 1) * rdot from len f g /\ tabs l = adot from len f g.
Proof.
  cbv zeta. unfold rdot, adot, prods. induction len.
  - simpl. split; ring.
  - rewrite seq_S, !map_app, tsum_app, tabs_app. destruct IHlen as [-> ->]. simpl.
    unfold tval; simpl. split; [ring|]. rewrite Rplus_0_r. f_equal. rewrite Rabs_mult. destruct b.
    + replace (Rabs (-1)) with 1 by (rewrite Rabs_left; lra). ring.
    + rewrite Rabs_R1. ring.
Qed.

Lemma terms_ok (P : F -> Prop) b from len f g :
  (forall k, (from <= k < from + len)%nat -> P (f k) /\ P (g k)) ->
  Forall (fun t : bool * term => match snd t with TNum x => P x | TMul a b => P a /\ P b end)
    (map (fun p : F * F => (b, TMul (fst p) (snd p))) (prods from len f g)).
Proof.
  intros H. apply Forall_forall. intros t T. apply in_map_iff in T. destruct T as ((x & y) & <- & T).
  unfold prods in T. apply in_map_iff in T. destruct T as (k & E & T). inversion E; subst. apply in_seq in T. simpl. apply H. lia.
Qed.

Section Dot.
  Variables (m : nat) (sg : bool) (c : F) (from len : nat) (f g : fvec) (r : F).
  Hypothesis Hm : small m.
  Hypothesis Hc : fvalid c.
  Hypothesis Hv : forall k, (from <= k < from + len)%nat -> fvalid (f k) /\ fvalid (g k).
  Hypothesis Hr : sum_of m ((false, TNum c) :: map (fun p => (sg, TMul (fst p) (snd p))) (prods from len f g)) r.

  Lemma dot_valid : fvalid r.
  Proof.
    eapply sum_of_valid; [|exact Hr]. constructor; [exact Hc|]. now apply (terms_ok fvalid).
  Qed.
  Lemma dot_error : ffin r ->
    Rabs (fval r - (fval c + (if sg then -1 else 1) * rdot from len f g))
    <= 2 * INR m * uu * (Rabs (fval c) + adot from len f g) + 2 * INR m * e0.
  Proof.
    intros Hf.
    assert (V : Forall tvalid ((false, TNum c) :: map (fun p => (sg, TMul (fst p) (snd p))) (prods from len f g))).
    { constructor; [exact Hc|]. now apply (terms_ok fvalid). }
    pose proof (sum_of_error m _ r Hm V Hr Hf) as E.
    destruct (terms_sum sg from len f g) as [T1 T2].
    change (tsum (?x :: ?l)) with (tval x + tsum l) in E. simpl tsum in E. simpl tabs in E.
    unfold tval in E at 1 2. simpl in E. rewrite !Rmult_1_l in E.
    change (fold_right (fun t s => tval t + s) 0) with tsum in E. change (fold_right (fun t s => Rabs (tval t) + s) 0) with tabs in E.
    cbv zeta in T1, T2. rewrite T1, T2 in E. exact E.
  Qed.
  Lemma dot_fin : ffin c -> (forall k, (from <= k < from + len)%nat -> ffin (f k) /\ ffin (g k)) ->
    Rabs (fval c) + adot from len f g <= bp 990 -> ffin r.
  Proof.
    intros Fc Ff B. eapply sum_of_fin; [exact Hm| | |exact Hr|].
    - constructor; [exact Hc|]. now apply (terms_ok fvalid).
    - constructor; [exact Fc|]. now apply (terms_ok ffin).
    - destruct (terms_sum sg from len f g) as [T1 T2]. cbv zeta in T2.
      simpl tabs. change (fold_right (fun t s => Rabs (tval t) + s) 0) with tabs. rewrite T2.
      unfold tval; simpl. rewrite Rmult_1_l. exact B.
  Qed.
End Dot.

(** ** division and square root *)
Definition mid (b : F) : Prop := fvalid b /\ ffin b /\ bp (-400) <= fval b <= bp 400.

Lemma mid_e0 b : mid b -> 0 < fval b /\ e0 * fval b <= uu / 4.
Proof.
  intros (_ & _ & B1 & B2). pose proof (bp_pos (-400)). split; [lra|].
  apply Rle_trans with (e0 * bp 400).
  - apply Rmult_le_compat_l; auto. pose proof e0_pos; lra.
  - unfold e0, uu, Rdiv. rewrite <- bpow_plus. change (/ 4) with (bp (-2)). rewrite <- bpow_plus. apply bp_le. lia.
Qed.

Lemma quot_valid s b y : fvalid s -> fvalid b -> quot s b y -> fvalid y.
Proof.
  intros Hs Hb [-> | ->]; [now apply fdiv_valid|]. apply fmul_valid; auto. apply fdiv_valid; auto. apply f1_ok.
Qed.

Lemma recip b : mid b -> ffin (fdiv f1 b) -> Rabs (fval (fdiv f1 b) * fval b - 1) <= 5 / 4 * uu.
Proof.
  intros M Hf. destruct (mid_e0 b M) as [P E]. destruct M as (Vb & Fb & B). destruct f1_ok as (V1 & F1 & E1).
  destruct (fdiv_fin f1 b V1 Vb Fb ltac:(lra) Hf) as (_ & R). rewrite E1 in R. rewrite R.
  pose proof (rnd_error (1 / fval b)) as Er.
  replace (rnd (1 / fval b) * fval b - 1) with ((rnd (1 / fval b) - 1 / fval b) * fval b) by (field; lra).
  rewrite Rabs_mult, (Rabs_pos_eq (fval b)) by lra.
  assert (A : Rabs (1 / fval b) * fval b = 1).
  { rewrite <- (Rabs_pos_eq (fval b)) at 2 by lra. rewrite <- Rabs_mult. replace (1 / fval b * fval b) with 1 by (field; lra). apply Rabs_R1. }
  apply Rle_trans with ((uu * Rabs (1 / fval b) + e0) * fval b); [apply Rmult_le_compat_r; lra|].
  replace ((uu * Rabs (1 / fval b) + e0) * fval b) with (uu * (Rabs (1 / fval b) * fval b) + e0 * fval b) by ring. rewrite A. lra.
Qed.

Lemma quot_err s b y : fvalid s -> mid b -> quot s b y -> ffin y ->
  ffin s /\ Rabs (fval y * fval b - fval s) <= 4 * uu * Rabs (fval s) + e0 * fval b.
Proof.
  intros Hs M Q Hf. destruct (mid_e0 b M) as [P E]. pose proof M as (Vb & Fb & B). destruct f1_ok as (V1 & F1 & E1).
  pose proof uu_small as U. pose proof e0_pos as E0. pose proof (Rabs_pos (fval s)) as Ps.
  destruct Q as [-> | ->].
  - destruct (fdiv_fin s b Hs Vb Fb ltac:(lra) Hf) as (Fs & R). split; auto. rewrite R.
    pose proof (rnd_error (fval s / fval b)) as Er.
    replace (rnd (fval s / fval b) * fval b - fval s) with ((rnd (fval s / fval b) - fval s / fval b) * fval b) by (field; lra).
    rewrite Rabs_mult, (Rabs_pos_eq (fval b)) by lra.
    assert (A : Rabs (fval s / fval b) * fval b = Rabs (fval s)).
    { rewrite <- (Rabs_pos_eq (fval b)) at 2 by lra. rewrite <- Rabs_mult. f_equal. field. lra. }
    apply Rle_trans with ((uu * Rabs (fval s / fval b) + e0) * fval b); [apply Rmult_le_compat_r; lra|].
    replace ((uu * Rabs (fval s / fval b) + e0) * fval b) with (uu * (Rabs (fval s / fval b) * fval b) + e0 * fval b) by ring.
    rewrite A. nra.
  - destruct (fmul_fin s _ Hs (fdiv_valid _ _ V1 Vb) Hf) as (Fs & Fr & R). split; auto. rewrite R.
    pose proof (recip b M Fr) as Rc. set (r := fval (fdiv f1 b)) in *.
    pose proof (rnd_error (fval s * r)) as Er.
    replace (rnd (fval s * r) * fval b - fval s) with ((rnd (fval s * r) - fval s * r) * fval b + fval s * (r * fval b - 1)) by ring.
    apply Rle_trans with (1 := Rabs_triang _ _). rewrite !Rabs_mult, (Rabs_pos_eq (fval b)) by lra.
    assert (A : Rabs r * fval b <= 2).
    { rewrite <- (Rabs_pos_eq (fval b)) by lra. rewrite <- Rabs_mult.
      replace (r * fval b) with ((r * fval b - 1) + 1) by ring. pose proof (Rabs_triang (r * fval b - 1) 1). rewrite Rabs_R1 in *. lra. }
    assert (S1 : Rabs (rnd (fval s * r) - fval s * r) * fval b <= (uu * Rabs (fval s * r) + e0) * fval b) by (apply Rmult_le_compat_r; lra).
    assert (S2 : Rabs (fval s) * Rabs (r * fval b - 1) <= Rabs (fval s) * (5 / 4 * uu)) by (apply Rmult_le_compat_l; lra).
    rewrite Rabs_mult in S1.
    assert (S3 : uu * (Rabs (fval s) * Rabs r) * fval b <= uu * Rabs (fval s) * 2).
    { replace (uu * (Rabs (fval s) * Rabs r) * fval b) with (uu * Rabs (fval s) * (Rabs r * fval b)) by ring.
      apply Rmult_le_compat_l; nra. }
    nra.
Qed.

Lemma quot_fin s b y : fvalid s -> ffin s -> mid b -> quot s b y -> Rabs (fval s / fval b) <= bp 600 -> ffin y.
Proof.
  intros Hs Fs M Q B. destruct (mid_e0 b M) as [P E]. pose proof M as (Vb & Fb & B1 & B2). destruct f1_ok as (V1 & F1 & E1).
  destruct Q as [-> | ->].
  - apply fdiv_correct; auto; [lra|]. eapply rnd_fin; [exact B|]. apply bp_le. lia.
  - assert (Fr : ffin (fdiv f1 b)).
    { apply fdiv_correct; auto; [lra|]. rewrite E1. eapply rnd_fin with (b := bp 400); [|apply bp_le; lia].
      unfold Rdiv. rewrite Rmult_1_l, Rabs_pos_eq by (left; now apply Rinv_0_lt_compat).
      replace (bp 400) with (/ bp (-400)). 
      - apply Rinv_le; auto. apply bp_pos.
      - rewrite <- bpow_opp. reflexivity. }
    pose proof (recip b M Fr) as Rc. pose proof uu_small as U.
    apply fmul_correct; auto using fdiv_valid. eapply rnd_fin with (b := 2 * bp 600).
    + replace (fval s * fval (fdiv f1 b)) with (fval s / fval b * (fval (fdiv f1 b) * fval b)) by (field; lra).
      rewrite Rabs_mult, Rmult_comm. apply Rmult_le_compat; auto using Rabs_pos.
      replace (fval (fdiv f1 b) * fval b) with ((fval (fdiv f1 b) * fval b - 1) + 1) by ring.
      pose proof (Rabs_triang (fval (fdiv f1 b) * fval b - 1) 1). rewrite Rabs_R1 in *. lra.
    + change 2 with (bp 1). rewrite <- bpow_plus. apply bp_le. lia.
Qed.

Lemma sqrt_err s : fvalid s -> ffin s -> bp (-600) <= fval s <= bp 600 ->
  mid (fsqrt s) /\ Rabs (fval (fsqrt s) * fval (fsqrt s) - fval s) <= 8 * uu * fval s.
Proof.
  intros Vs Fs [B1 B2]. pose proof (bp_pos (-600)) as P.
  destruct (fsqrt_correct s Vs Fs ltac:(lra)) as (Fr & R).
  pose proof (rnd_error (sqrt (fval s))) as Er. rewrite <- R in Er.
  assert (Q1 : bp (-300) <= sqrt (fval s)).
  { replace (bp (-300)) with (sqrt (bp (-600))); [apply sqrt_le_1; lra|].
    replace (bp (-600)) with (bp (-300) * bp (-300)) by (rewrite <- bpow_plus; reflexivity). apply sqrt_square. left. apply bp_pos. }
  assert (Q2 : sqrt (fval s) <= bp 300).
  { replace (bp 300) with (sqrt (bp 600)); [apply sqrt_le_1; lra|].
    replace (bp 600) with (bp 300 * bp 300) by (rewrite <- bpow_plus; reflexivity). apply sqrt_square. left. apply bp_pos. }
  pose proof (bp_pos (-300)) as P3. pose proof uu_small as U.
  assert (E : e0 <= uu * sqrt (fval s)).
  { apply Rle_trans with (uu * bp (-300)); [|apply Rmult_le_compat_l; lra]. unfold e0, uu. rewrite <- bpow_plus. apply bp_le. lia. }
  rewrite (Rabs_pos_eq (sqrt (fval s))) in Er by lra.
  set (x := sqrt (fval s)) in *. assert (Sx : x * x = fval s) by (apply sqrt_sqrt; lra).
  set (l := fval (fsqrt s)) in *.
  assert (Er' : Rabs (l - x) <= 2 * uu * x) by lra. apply Rabs_le_inv in Er'.
  assert (L1 : x / 2 <= l <= 2 * x) by nra.
  split.
  - split; [now apply fsqrt_valid|]. split; auto. fold l. split.
    + apply Rle_trans with (x / 2); [|lra]. apply Rle_trans with (bp (-300) / 2); [|lra].
      unfold Rdiv. change (/ 2) with (bp (-1)). rewrite <- bpow_plus. apply bp_le. lia.
    + apply Rle_trans with (2 * x); [lra|]. apply Rle_trans with (2 * bp 300); [lra|].
      change 2 with (bp 1). rewrite <- bpow_plus. apply bp_le. lia.
  - rewrite <- Sx. replace (l * l - x * x) with ((l - x) * (l + x)) by ring. rewrite Rabs_mult.
    rewrite (Rabs_pos_eq (l + x)) by lra.
    apply Rle_trans with (2 * uu * x * (3 * x)); [apply Rmult_le_compat; [apply Rabs_pos|lra|apply Rabs_le; lra|lra]|].
    assert (0 <= uu * (x * x)) by (apply Rmult_le_pos; nra). lra.
Qed.

(** ** the factorisation, column by column *)
(** the factor as a real matrix: the lower triangle *)
Definition lw (L : fmat) (i c : nat) : R := if (c <=? i)%nat then fval (L i c) else 0.
Lemma lw_low L i c : (c <= i)%nat -> lw L i c = fval (L i c).
Proof. intros H. unfold lw. destruct (Nat.leb_spec c i); [auto|lia]. Qed.
Lemma lw_up L i c : (i < c)%nat -> lw L i c = 0.
Proof. intros H. unfold lw. destruct (Nat.leb_spec c i); [lia|auto]. Qed.

(** the backward error: [7 (m + 4)] units of rounding of the largest coefficient *)
Definition kap (m : nat) (D : R) : R := 7 * (INR m + 4) * uu * D.

Section Chol.
  (** [n] rows, the first [nc] columns are computed *)
  Variables (m n nc : nat) (A L : fmat) (a : nat -> nat -> R) (D lam : R).
  Hypothesis Hnc : (nc <= n)%nat.
  Hypothesis Hm : small m.
  Hypothesis HA : forall i j, (i < n)%nat -> (j < nc)%nat -> (j <= i)%nat ->
    fvalid (A i j) /\ ffin (A i j) /\ fval (A i j) = a i j /\ Rabs (a i j) <= D.
  Hypothesis Hsym : forall i j, (i < n)%nat -> (j < n)%nat -> a i j = a j i.
  Hypothesis HD : bp (-500) <= D <= bp 500.
  Hypothesis Heig : eig_min n a lam.
  Hypothesis Hlam : (INR n + 1) * kap m D <= lam.

  Hypothesis Hdiag : forall i, (i < n)%nat -> a i i - (lam - INR n * kap m D) <= 2 * D.
  Let l := lw L.
  Let mu := INR m * uu.

  Lemma D_pos : 0 < D. Proof. pose proof (bp_pos (-500)). lra. Qed.
  Lemma mu_small : 0 <= mu <= / 8192. Proof. now apply small_uu'. Qed.
  Lemma kap_eq : kap m D = 7 * (mu * D) + 28 * (uu * D). Proof. unfold kap, mu. ring. Qed.
  Lemma muD_pos : 0 <= mu * D. Proof. pose proof mu_small. pose proof D_pos. nra. Qed.
  Lemma uD_pos : 0 < uu * D. Proof. pose proof uu_pos. pose proof D_pos. nra. Qed.
  Lemma muD_small : mu * D <= D / 8192. Proof. pose proof mu_small. pose proof D_pos. unfold Rdiv. rewrite Rmult_comm. apply Rmult_le_compat_l; lra. Qed.
  Lemma uD_small : uu * D <= D / 1000000. Proof. pose proof uu_small. pose proof D_pos. unfold Rdiv. rewrite Rmult_comm. apply Rmult_le_compat_l; lra. Qed.
  Lemma e0_D : e0 * bp 450 <= uu * D / 16.
  Proof.
    apply Rle_trans with (uu * bp (-500) / 16).
    - unfold e0, uu, Rdiv. change (/ 16) with (bp (-4)). rewrite <- !bpow_plus. apply bp_le. lia.
    - unfold Rdiv. apply Rmult_le_compat_r; [lra|]. apply Rmult_le_compat_l; [pose proof uu_pos; lra|apply HD].
  Qed.
  Lemma me0 : 2 * INR m * e0 <= uu * D / 16.
  Proof.
    apply Rle_trans with (2 := e0_D). rewrite (Rmult_comm e0). apply Rmult_le_compat_r; [pose proof e0_pos; lra|].
    unfold small in Hm. apply Rle_trans with (2 * IZR (2 ^ 40)); [lra|]. rewrite bpow_pos_IZR by lia. change 2 with (bp 1). rewrite <- bpow_plus. apply bp_le. lia.
  Qed.

  (** what is known once the first [k] columns are computed *)
  Definition good (k : nat) : Prop :=
    (forall j, (j < k)%nat -> (j < n)%nat -> mid (L j j)) /\
    (forall i j, (i < n)%nat -> (j < k)%nat -> (j <= i)%nat -> fvalid (L i j) /\ ffin (L i j)) /\
    (forall i, (i < n)%nat -> ssq k (l i) <= 201 / 100 * D) /\
    (forall i j, (i < n)%nat -> (j < k)%nat -> (j <= i)%nat -> Rabs (a i j - rsum k (fun c => l i c * l j c)) <= kap m D).

  Lemma row_dot k i s : (k <= i < n)%nat -> (k < nc)%nat -> good k -> minus_dot m (A i k) (prods 0 k (L k) (L i)) s ->
    fvalid s /\ ffin s /\
    Rabs (fval s - (a i k - rsum k (fun c => l i c * l k c))) <= 602 / 100 * (mu * D) + uu * D / 16 /\
    Rabs (fval s) <= 31 / 10 * D.
  Proof.
    intros Hk Hkc (G1 & G2 & G3 & G4) Hs.
    assert (Vk : forall c, (0 <= c < 0 + k)%nat -> fvalid (L k c) /\ fvalid (L i c)).
    { intros c Hc. split; apply G2; lia. }
    assert (Fk : forall c, (0 <= c < 0 + k)%nat -> ffin (L k c) /\ ffin (L i c)).
    { intros c Hc. split; apply G2; lia. }
    destruct (HA i k) as (Va & Fa & Ea & Ba); try lia.
    assert (R1 : rdot 0 k (L k) (L i) = rsum k (fun c => l i c * l k c)).
    { apply rsum_ext. intros c Hc. unfold l. rewrite !lw_low by lia. simpl. ring. }
    assert (R2 : adot 0 k (L k) (L i) <= 201 / 100 * D).
    { apply Rle_trans with (rsum k (fun c => Rabs (l k c * l i c))).
      - right. apply rsum_ext. intros c Hc. unfold l. rewrite !lw_low by lia. reflexivity.
      - apply Rle_trans with (1 := amgm k (l k) (l i)). pose proof (G3 k ltac:(lia)). pose proof (G3 i ltac:(lia)). lra. }
    assert (R3 : 0 <= adot 0 k (L k) (L i)) by (apply rsum_nonneg; intros; apply Rabs_pos).
    pose proof D_pos as DP.
    assert (F : ffin s).
    { apply (dot_fin m true (A i k) 0 k (L k) (L i) s Hm Va Vk Hs Fa Fk).
      apply Rle_trans with (4 * bp 500); [rewrite Ea; lra|]. change 4 with (bp 2). rewrite <- bpow_plus. apply bp_le. lia. }
    pose proof (dot_valid m true (A i k) 0 k (L k) (L i) s Va Vk Hs) as V.
    pose proof (dot_error m true (A i k) 0 k (L k) (L i) s Hm Va Vk Hs F) as E.
    rewrite R1 in E. pose proof me0 as M0. pose proof mu_small as Mu. pose proof muD_small as MD. pose proof uD_small as UD.
    assert (E' : Rabs (fval s - (a i k - rsum k (fun c => l i c * l k c))) <= 602 / 100 * (mu * D) + uu * D / 16).
    { replace (a i k - rsum k (fun c => l i c * l k c)) with (fval (A i k) + -1 * rsum k (fun c => l i c * l k c)) by (rewrite Ea; ring).
      apply Rle_trans with (1 := E).
      assert (2 * INR m * uu * (Rabs (fval (A i k)) + adot 0 k (L k) (L i)) <= 2 * mu * (301 / 100 * D)).
      { replace (2 * INR m * uu) with (2 * mu) by (unfold mu; ring). rewrite Ea. apply Rmult_le_compat_l; lra. } lra. }
    repeat split; auto.
    assert (B : Rabs (a i k - rsum k (fun c => l i c * l k c)) <= 301 / 100 * D).
    { rewrite <- R1. replace (a i k - rdot 0 k (L k) (L i)) with (a i k + - rdot 0 k (L k) (L i)) by ring. apply Rle_trans with (1 := Rabs_triang _ _). rewrite Rabs_Ropp.
      assert (Rabs (rdot 0 k (L k) (L i)) <= adot 0 k (L k) (L i)) by apply rsum_abs. lra. }
    replace (fval s) with ((fval s - (a i k - rsum k (fun c => l i c * l k c))) + (a i k - rsum k (fun c => l i c * l k c))) by ring.
    apply Rle_trans with (1 := Rabs_triang _ _). lra.
  Qed.

  Lemma good_lower k : (k <= n)%nat -> good k -> lower k l.
  Proof.
    intros Hk (G1 & _). split.
    - intros i j Hi Hj H. now apply lw_up.
    - intros i Hi. unfold l. rewrite lw_low by lia. destruct (mid_e0 (L i i)); auto. apply G1; lia.
  Qed.
  Lemma good_pq k p q : (p < n)%nat -> (q < n)%nat -> (p < k)%nat \/ (q < k)%nat -> (p < k)%nat \/ (k <= p)%nat -> good k ->
    Rabs (a p q - rsum k (fun c => l p c * l q c)) <= kap m D.
  Proof.
    intros Hp Hq H _ (_ & _ & _ & G4). destruct (Nat.le_gt_cases q p) as [E|E].
    - apply G4; lia.
    - replace (a p q) with (a q p) by now apply Hsym.
      rewrite (rsum_ext k _ (fun c => l q c * l p c)) by (intros; ring). apply G4; lia.
  Qed.

  Lemma n_kap : INR n * kap m D <= lam /\ 0 < kap m D /\ kap m D <= lam - INR n * kap m D.
  Proof.
    assert (0 < kap m D) by (rewrite kap_eq; pose proof muD_pos; pose proof uD_pos; lra). lra.
  Qed.

  (** the argument of the square root is positive *)
  Lemma pivot_pos k s : (k < nc)%nat -> good k -> pivot m A L k s ->
    fvalid s /\ ffin s /\ uu * D <= fval s <= 31 / 10 * D /\
    Rabs (fval s - (a k k - ssq k (l k))) <= 602 / 100 * (mu * D) + uu * D / 16.
  Proof.
    intros Hk G Hs. destruct (row_dot k k s ltac:(lia) ltac:(lia) G Hs) as (V & F & E & B). repeat split; auto.
    - destruct n_kap as (N1 & N2 & N3).
      pose proof (schur n k k a l lam (kap m D) ltac:(lia) ltac:(lra) Heig (good_lower k ltac:(lia) G)) as S0.
      assert (S1 : lam - INR n * kap m D <= a k k - ssq k (l k)).
      { apply S0; auto; intros; apply good_pq; auto; lia. }
      unfold ssq in S1. apply Rabs_le_inv in E. rewrite kap_eq in *. pose proof muD_pos. pose proof uD_pos. lra.
    - apply Rle_trans with (1 := Rle_abs _). exact B.
  Qed.

  Lemma ssq_S k x : ssq (S k) x = ssq k x + x k * x k. Proof. reflexivity. Qed.

  Lemma uD_mid s : uu * D <= s <= 31 / 10 * D -> bp (-600) <= s <= bp 600.
  Proof.
    intros H. split.
    - apply Rle_trans with (uu * D); [|lra]. apply Rle_trans with (uu * bp (-500)).
      + unfold uu. rewrite <- bpow_plus. apply bp_le. lia.
      + apply Rmult_le_compat_l; [pose proof uu_pos; lra|apply HD].
    - apply Rle_trans with (4 * bp 500); [pose proof D_pos; lra|]. change 4 with (bp 2). rewrite <- bpow_plus. apply bp_le. lia.
  Qed.

  Lemma good_step k : (k < nc)%nat -> good k ->
    (exists s, pivot m A L k s /\ L k k = fsqrt s) -> (forall i, (k < i < n)%nat -> below m A L i k) -> good (S k).
  Proof.
    intros Hk G (s & Hs & Els) Hb.
    destruct (pivot_pos k s Hk G Hs) as (Vs & Fs & Bs & Es).
    destruct (sqrt_err s Vs Fs (uD_mid _ Bs)) as (Mk & Ek). rewrite <- Els in Mk, Ek.
    pose proof muD_pos as MP. pose proof uD_pos as UP. pose proof muD_small as MS. pose proof uD_small as US. pose proof D_pos as DP.
    pose proof uu_small as U. destruct n_kap as (N1 & N2 & N3).
    destruct (mid_e0 _ Mk) as (Lp & Le).
    pose proof G as (G1 & G2 & G3 & G4).
    (* diagonal *)
    assert (Dk : Rabs (a k k - ssq (S k) (l k)) <= kap m D).
    { rewrite ssq_S. unfold l at 2 3. rewrite lw_low by lia.
      replace (a k k - (ssq k (l k) + fval (L k k) * fval (L k k)))
        with (- (fval s - (a k k - ssq k (l k))) - (fval (L k k) * fval (L k k) - fval s)) by ring.
      apply Rle_trans with (1 := Rabs_triang _ _). rewrite !Rabs_Ropp. rewrite kap_eq.
      assert (8 * uu * fval s <= 8 * uu * (31 / 10 * D)) by (apply Rmult_le_compat_l; lra). lra. }
    (* entries below, seen with the exact quotient *)
    assert (Below : forall i, (k < i < n)%nat -> exists w, fvalid (L i k) /\ ffin (L i k)
        /\ ssq k (l i) + w * w <= 2 * D /\ Rabs (fval (L i k) - w) <= 4 * uu * Rabs w + e0
        /\ Rabs (a i k - rsum k (fun c => l i c * l k c) - fval (L i k) * fval (L k k)) <= kap m D).
    { intros i Hi. destruct (Hb i Hi) as (t & Ht & Hq).
      destruct (row_dot k i t ltac:(lia) ltac:(lia) G Ht) as (Vt & Ft & Et & Bt).
      set (w := fval t / fval (L k k)).
      assert (Ew : fval t = w * fval (L k k)) by (unfold w; field; lra).
      (* Schur complement with the exact quotient *)
      set (l' := fun p c => if (p =? i)%nat then (if (c =? k)%nat then w else l p c) else l p c).
      assert (L'k : forall p c, p <> i -> l' p c = l p c).
      { intros p c N. unfold l'. destruct (Nat.eqb_spec p i); [contradiction|auto]. }
      assert (L'c : forall c, c <> k -> l' i c = l i c).
      { intros c N. unfold l'. rewrite Nat.eqb_refl. destruct (Nat.eqb_spec c k); [contradiction|auto]. }
      assert (L'w : l' i k = w) by (unfold l'; now rewrite !Nat.eqb_refl).
      assert (Low : lower (S k) l').
      { split.
        - intros p c Hp Hc H. rewrite L'k by lia. now apply lw_up.
        - intros p Hp. rewrite L'k by lia. unfold l. rewrite lw_low by lia. destruct (Nat.eq_dec p k) as [->|]; [lra|].
          destruct (mid_e0 (L p p)); auto. apply G1; lia. }
      assert (PQ : forall p q, (p < S k)%nat -> (q < S k)%nat -> Rabs (a p q - rsum (S k) (fun c => l' p c * l' q c)) <= kap m D).
      { intros p q Hp Hq'. rewrite (rsum_ext (S k) _ (fun c => l p c * l q c)) by (intros; rewrite !L'k by lia; auto).
        destruct (Nat.eq_dec p k) as [->|Np], (Nat.eq_dec q k) as [->|Nq]; [exact Dk| | |]; simpl rsum.
        - replace (l q k) with 0 by (symmetry; apply lw_up; lia). rewrite Rmult_0_r, Rplus_0_r. apply good_pq; auto; lia.
        - replace (l p k) with 0 by (symmetry; apply lw_up; lia). rewrite Rmult_0_l, Rplus_0_r. apply good_pq; auto; lia.
        - replace (l p k) with 0 by (symmetry; apply lw_up; lia). rewrite Rmult_0_l, Rplus_0_r. apply good_pq; auto; lia. }
      assert (IP : forall p, (p < S k)%nat -> Rabs (a i p - rsum (S k) (fun c => l' i c * l' p c)) <= kap m D).
      { intros p Hp. simpl rsum. rewrite L'w, (L'k p k) by lia.
        rewrite (rsum_ext k _ (fun c => l i c * l p c)) by (intros; rewrite (L'k p), L'c by lia; auto).
        destruct (Nat.eq_dec p k) as [->|Np].
        - replace (l k k) with (fval (L k k)) by (symmetry; apply lw_low; lia). rewrite <- Ew.
          replace (a i k - (rsum k (fun c => l i c * l k c) + fval t)) with (- (fval t - (a i k - rsum k (fun c => l i c * l k c)))) by ring.
          rewrite Rabs_Ropp, kap_eq. lra.
        - replace (l p k) with 0 by (symmetry; apply lw_up; lia). rewrite Rmult_0_r, Rplus_0_r. apply good_pq; auto; lia. }
      pose proof (schur n (S k) i a l' lam (kap m D) ltac:(lia) ltac:(lra) Heig Low PQ) as S0.
      assert (S1 : lam - INR n * kap m D <= a i i - ssq (S k) (l' i)).
      { apply S0; auto. intros p Hp. replace (a p i) with (a i p) by (apply Hsym; lia).
        rewrite (rsum_ext (S k) _ (fun c => l' i c * l' p c)) by (intros; ring). now apply IP. }
      rewrite ssq_S, L'w in S1.
      assert (E1 : ssq k (l' i) = ssq k (l i)) by (apply rsum_ext; intros; rewrite L'c by lia; auto). rewrite E1 in S1.
      pose proof (Hdiag i ltac:(lia)) as Ai.
      assert (Wd : ssq k (l i) + w * w <= 2 * D) by lra.
      assert (Fl : ffin (L i k)).
      { apply (quot_fin t (L k k)); auto. fold w. destruct (Rle_or_lt (Rabs w) (bp 600)) as [|N]; auto. exfalso.
        pose proof (ssq_nonneg k (l i)) as Q0. pose proof (Rsqr_abs w) as Q. unfold Rsqr in Q.
        assert (bp 600 * bp 600 <= Rabs w * Rabs w) by (pose proof (bp_pos 600); apply Rmult_le_compat; lra).
        rewrite <- bpow_plus in H. assert (2 * bp 500 < bp (600 + 600)) by (change 2 with (bp 1); rewrite <- bpow_plus; apply bpow_lt; lia). lra. }
      destruct (quot_err t (L k k) (L i k) Vt Mk Hq Fl) as (_ & Eq).
      exists w. repeat split; auto.
      - eapply quot_valid; [exact Vt| |exact Hq]. apply Mk.
      - assert (X : fval (L i k) - w = (fval (L i k) * fval (L k k) - fval t) / fval (L k k)) by (rewrite Ew; field; lra).
        rewrite X. unfold Rdiv. rewrite Rabs_mult, Rabs_inv, (Rabs_pos_eq (fval (L k k))) by lra.
        apply Rmult_le_reg_r with (fval (L k k)); [lra|]. rewrite Rmult_assoc, Rinv_l, Rmult_1_r by lra.
        apply Rle_trans with (1 := Eq). rewrite Ew, Rabs_mult, (Rabs_pos_eq (fval (L k k))) by lra. right. ring.
      - replace (a i k - rsum k (fun c => l i c * l k c) - fval (L i k) * fval (L k k))
          with (- (fval t - (a i k - rsum k (fun c => l i c * l k c))) - (fval (L i k) * fval (L k k) - fval t)) by ring.
        apply Rle_trans with (1 := Rabs_triang _ _). rewrite !Rabs_Ropp, kap_eq.
        assert (4 * uu * Rabs (fval t) <= 4 * uu * (31 / 10 * D)) by (apply Rmult_le_compat_l; lra).
        assert (e0 * fval (L k k) <= uu * D / 16).
        { apply Rle_trans with (2 := e0_D). apply Rmult_le_compat_l; [pose proof e0_pos; lra|]. destruct Mk as (_ & _ & _ & Mk).
          apply Rle_trans with (1 := Mk). apply bp_le. lia. }
        lra. }
    (* the four facts *)
    repeat split.
    - destruct (Nat.eq_dec j k) as [->|]; [apply Mk|]. apply G1; lia.
    - destruct (Nat.eq_dec j k) as [->|]; [apply Mk|]. apply G1; lia.
    - destruct (Nat.eq_dec j k) as [->|]; [apply Mk|]. apply G1; lia.
    - destruct (Nat.eq_dec j k) as [->|]; [apply Mk|]. apply G1; lia.
    - destruct (Nat.eq_dec j k) as [->|]; [|apply G2; lia]. destruct (Nat.eq_dec i k) as [->|]; [apply Mk|].
      destruct (Below i ltac:(lia)) as (w & ? & ? & _); auto.
    - destruct (Nat.eq_dec j k) as [->|]; [|apply G2; lia]. destruct (Nat.eq_dec i k) as [->|]; [apply Mk|].
      destruct (Below i ltac:(lia)) as (w & ? & ? & _); auto.
    - intros i Hi. rewrite ssq_S. destruct (Nat.lt_trichotomy i k) as [H|[->|H]].
      + replace (l i k) with 0 by (symmetry; apply lw_up; lia). specialize (G3 i Hi). lra.
      + rewrite <- ssq_S. apply Rabs_le_inv in Dk. assert (Ak : a k k <= D) by (destruct (HA k k) as (_ & _ & _ & B); try lia; apply Rle_trans with (2 := B); apply Rle_abs).
        rewrite kap_eq in Dk. lra.
      + destruct (Below i ltac:(lia)) as (w & _ & _ & Wd & We & _). replace (l i k) with (fval (L i k)) by (symmetry; apply lw_low; lia).
        pose proof (ssq_nonneg k (l i)) as Q0.
        set (y := fval (L i k)) in *.
        assert (Y : Rabs y <= (1 + 4 * uu) * Rabs w + e0).
        { replace y with ((y - w) + w) by ring. pose proof (Rabs_triang (y - w) w). lra. }
        pose proof (Rsqr_abs w) as Sw. pose proof (Rsqr_abs y) as Sy. unfold Rsqr in Sw, Sy.
        pose proof (Rabs_pos w) as Pw. pose proof (Rabs_pos y) as Py. pose proof e0_pos as E0.
        assert (Y2 : Rabs y * Rabs y <= ((1 + 4 * uu) * Rabs w + e0) * ((1 + 4 * uu) * Rabs w + e0)) by (apply Rmult_le_compat; lra).
        assert (Y3 : 2 * ((1 + 4 * uu) * Rabs w) * e0 <= ((1 + 4 * uu) * Rabs w) * ((1 + 4 * uu) * Rabs w) / 1000 + 1000 * (e0 * e0)).
        { pose proof (Rle_0_sqr ((1 + 4 * uu) * Rabs w - 1000 * e0)) as Z. unfold Rsqr in Z. lra. }
        assert (Y4 : 1001 * (e0 * e0) <= D / 1000).
        { pose proof e0_D as ED. assert (e0 <= 1 / 2000000).
          { apply Rle_trans with (bp (-30)); [unfold e0; apply bp_le; lia|]. change (bp (-30)) with (/ 1073741824). lra. }
          assert (e0 * 1 <= e0 * bp 450) by (apply Rmult_le_compat_l; [lra|]; change 1 with (bp 0); apply bp_le; lia).
          assert (e0 <= D) by lra. assert (e0 * e0 <= 1 / 2000000 * D) by (apply Rmult_le_compat; lra). lra. }
        assert (Y5 : (1 + 4 * uu) * Rabs w * ((1 + 4 * uu) * Rabs w) <= 1001 / 1000 * (w * w)).
        { rewrite Sw. replace ((1 + 4 * uu) * Rabs w * ((1 + 4 * uu) * Rabs w)) with ((1 + 4 * uu) * (1 + 4 * uu) * (Rabs w * Rabs w)) by ring.
          apply Rmult_le_compat_r; nra. }
        assert (0 <= w * w) by nra. rewrite Sy. nra.
    - intros i j Hi Hj Hij. destruct (Nat.eq_dec j k) as [->|Nj].
      + destruct (Nat.eq_dec i k) as [->|Ni]; [exact Dk|]. destruct (Below i ltac:(lia)) as (w & _ & _ & _ & _ & B).
        simpl rsum. replace (l i k) with (fval (L i k)) by (symmetry; apply lw_low; lia). replace (l k k) with (fval (L k k)) by (symmetry; apply lw_low; lia).
        match goal with |- Rabs ?x <= _ => match type of B with Rabs ?y <= _ => replace x with y by ring end end. exact B.
      + simpl rsum. replace (l j k) with 0 by (symmetry; apply lw_up; lia). rewrite Rmult_0_r, Rplus_0_r. apply G4; lia.
  Qed.

  Lemma good_0 : good 0.
  Proof.
    repeat split; try (intros; lia). intros i Hi. unfold ssq. simpl. pose proof D_pos. lra.
  Qed.

  Lemma good_columns k : (k <= nc)%nat ->
    (forall j, (j < k)%nat -> (exists s, pivot m A L j s /\ L j j = fsqrt s) /\ forall i, (j < i < n)%nat -> below m A L i j) -> good k.
  Proof.
    induction k; intros Hk H; [apply good_0|]. destruct (H k ltac:(lia)). apply good_step; auto; try lia.
    apply IHk; [lia|]. intros j Hj. apply H. lia.
  Qed.
End Chol.
