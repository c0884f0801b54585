(** A GP computed from its data, then extended sample by sample: the state that C69-C75 are about. *)
From Coq Require Import ZArith List Bool Lia Permutation Reals.
From Coq Require Import Floats.SpecFloat.
From Verif Require Import F64 F64R FpModel FpGp Prop_Fp FpKerModel Prop_FpKer FpAcqModel Prop_FpAcq FpMeanModel.
Import ListNotations.
Close Scope R_scope.

(** ** only the coefficients with indices below the size matter *)
Lemma column_ext m n A A' L j : (j < n)%nat -> (forall i c, (i < n)%nat -> (c < n)%nat -> A i c = A' i c) -> column m n A L j -> column m n A' L j.
Proof.
  intros Hj H ((s & S1 & S2 & S3) & B). split.
  - exists s. split; auto. eapply pivot_ext; [apply H; auto| |exact S1]. auto.
  - intros i Hi. eapply below_ext; [lia|apply H; lia| |apply B; lia]. auto.
Qed.
Lemma llt_ext m n A A' L : (forall i c, (i < n)%nat -> (c < n)%nat -> A i c = A' i c) -> llt m n A L -> llt m n A' L.
Proof. intros H HL j Hj. apply column_ext with A; auto. Qed.
Lemma stops_ext m n A A' : (forall i c, (i < n)%nat -> (c < n)%nat -> A i c = A' i c) -> llt_stops m n A -> llt_stops m n A'.
Proof.
  intros H (L & k & s & Hk & C & P & E). exists L, k, s. split; auto. split; [intros j Hj; apply column_ext with A; auto; lia|]. split; auto.
  eapply pivot_ext; [apply H; auto| |exact P]. auto.
Qed.
Lemma chol_row_ext m n A A' L L' : (forall i c, (i <= n)%nat -> (c <= n)%nat -> A i c = A' i c) -> chol_row m n A L L' -> chol_row m n A' L L'.
Proof.
  intros H (C1 & C2 & s & C3 & C4). split; auto. split.
  - intros j Hj. eapply below_ext; [lia|apply H; lia| |apply C2; auto]. auto.
  - exists s. split; auto. eapply pivot_ext; [apply H; auto| |exact C3]. auto.
Qed.
Lemma built_ext m kf kf' n A L : built m kf n A L -> (forall i j, (i < n)%nat -> (j < n)%nat -> kf i j = kf' i j) ->
  exists A', (forall i j, (i < n)%nat -> (j < n)%nat -> A i j = A' i j) /\ built m kf' n A' L.
Proof.
  induction 1 as [n L H|n A L L' H IH HC]; intros HK.
  - exists (kernel_full kf'). assert (E : forall i j, (i < n)%nat -> (j < n)%nat -> kernel_full kf i j = kernel_full kf' i j).
    { intros i j Hi Hj. unfold kernel_full. destruct (j <=? i)%nat; now apply HK. }
    split; auto. constructor. now apply llt_ext with (kernel_full kf).
  - destruct IH as (A' & E & B); [intros; apply HK; lia|]. exists (kernel_add kf' n A').
    assert (E' : forall i j, (i <= n)%nat -> (j <= n)%nat -> kernel_add kf n A i j = kernel_add kf' n A' i j).
    { intros i j Hi Hj. unfold kernel_add. destruct (Nat.eqb_spec j n); [apply HK; lia|]. destruct (Nat.eqb_spec i n); [apply HK; lia|]. apply E; lia. }
    split; [intros; apply E'; lia|]. apply built_add with L; auto. now apply chol_row_ext with (kernel_add kf n A).
Qed.

Section Life.
  Variables (fexp : F -> F) (mk d : nat) (sf2 noise : F) (p : kpar) (m : nat) (mf : meanf).

  (** the kernel values, the factor and [_alpha] belong to the samples and observations of the GP *)
  Definition sound (g : fgp) : Prop :=
    let n := length (fg_xs g) in
    (exists kf A, (forall i j, (i < n)%nat -> (j < n)%nat -> computes fexp mk sf2 noise p (ptsf (fg_xs g) i) (ptsf (fg_xs g) j) (i =? j)%nat (kf i j)) /\
       (forall i j, (i < n)%nat -> (j < n)%nat -> A i j = fg_A g i j) /\ built m kf n A (fg_L g))
    /\ ((0 < n)%nat -> centred m mf g).

  Lemma sound_gp g : sound g -> (0 < length (fg_xs g))%nat ->
    gp_of fexp mk sf2 noise p (length (fg_xs g)) (ptsf (fg_xs g)) m (fg_L g) (residual (fg_ys g) (fg_mean g)) (fg_a g) /\ mean_val m mf (fg_ys g) (fg_mean g).
  Proof. intros ((kf & A & H1 & _ & H2) & H3) Hn. destruct (H3 Hn) as (M & Al). split; auto. exists kf, A. auto. Qed.

  Lemma sound_empty g : fg_xs g = [] -> sound g.
  Proof.
    intros E. unfold sound. rewrite E. cbn [length]. split; [|lia]. exists (fun _ _ => f0), (kernel_full (fun _ _ => f0)).
    split; [intros; lia|]. split; [intros; lia|]. constructor. intros j Hj. lia.
  Qed.

  (** [usual] (C70) without the samples *)
  Definition regular : Prop :=
    (libm_exp fexp (/ 2 ^ 52) /\ INR mk <= 128 /\ INR d <= 2 ^ 40 /\ param sf2 /\ fval sf2 <= 1 /\ kpar_ok d p /\
     fvalid noise /\ ffin noise /\ 99 / 10000 <= fval noise <= 9 / 10)%R.
  Lemma usual_of xs : regular -> Forall (point d) xs -> (0 < length xs <= 1000)%nat -> usual fexp mk d sf2 noise p (length xs) (ptsf xs).
  Proof.
    intros (H1 & H2 & H3 & H4 & H5 & H6 & H7 & H8 & H9) Hx Hn. rewrite Forall_forall in Hx.
    assert (P : forall i, (i <= length xs)%nat -> point d (ptsf xs i)).
    { intros i Hi. unfold ptsf. apply Hx. destruct (Nat.lt_ge_cases i (length xs)); [now apply nth_In|]. rewrite nth_overflow by auto. apply nth_In. lia. }
    exact (conj H1 (conj H2 (conj H3 (conj Hn (conj H4 (conj H5 (conj H6 (conj P (conj H7 (conj H8 H9)))))))))).
  Qed.

  Hypothesis Hp : kpar_ok d p.
  Hypothesis Hmk : (2 * d <= mk)%nat.

  Lemma sound_compute xs ys g : usual fexp mk d sf2 noise p (length xs) (ptsf xs) -> (INR m <= 3000)%R -> Forall (point d) xs ->
    gp_compute fexp mk sf2 noise p m mf xs ys g -> sound g.
  Proof.
    intros HU Hm Hx (E1 & E2 & (kf & K1 & K2 & K3) & HC). unfold sound. rewrite E1. split; [|auto].
    set (n := length xs) in *.
    assert (K1' : forall i j, (j <= i < n)%nat -> computes fexp mk sf2 noise p (ptsf xs i) (ptsf xs j) (i =? j)%nat (kf i j)) by exact K1.
    assert (P : forall i, (i < n)%nat -> point d (ptsf xs i)) by (intros i Hi; rewrite Forall_forall in Hx; apply Hx, nth_In, Hi).
    set (kf' := fun i j => if (j <=? i)%nat then kf i j else kval fexp sf2 noise p (ptsf xs i) (ptsf xs j) false).
    assert (KC : forall i j, (i < n)%nat -> (j < n)%nat -> computes fexp mk sf2 noise p (ptsf xs i) (ptsf xs j) (i =? j)%nat (kf' i j)).
    { intros i j Hi Hj. unfold kf'. destruct (Nat.leb_spec j i); [apply K1'; lia|]. rewrite (proj2 (Nat.eqb_neq i j)) by lia. apply kval_ok with d; auto. }
    assert (E : forall i j, fg_A g i j = kernel_full kf' i j).
    { intros i j. rewrite K2. unfold kernel_full, kf'. destruct (Nat.leb_spec j i); auto. rewrite (proj2 (Nat.leb_le i j)) by lia. auto. }
    exists kf', (kernel_full kf'). split; auto. split; [intros; symmetry; apply E|]. constructor.
    destruct K3 as [K3|K3]; [apply llt_ext with (fg_A g); auto|exfalso].
    assert (P' : forall i, (i <= n)%nat -> point d (ptsf xs i)) by apply HU.
    destruct (C70_factor fexp mk d sf2 noise p n (ptsf xs) kf' (fun i => kval fexp sf2 noise p (ptsf xs i) (ptsf xs n) false) (kval fexp sf2 noise p (ptsf xs n) (ptsf xs n) false) m HU) as (N & _); auto.
    - split; [exact KC|]. split; [intros i Hi; apply kval_ok with d; auto|]. apply kval_ok with d; auto.
    - apply N. now apply stops_ext with (fg_A g).
  Qed.

  Lemma sound_add g x y g' : sound g -> Forall (point d) (fg_xs g) -> point d x -> gp_add fexp mk sf2 noise p m mf g x y g' -> sound g'.
  Proof.
    intros ((kf & A & H1 & H2 & H3) & _) Hx Px (E1 & E2 & (k & K1 & K2 & K3) & HC). set (n := length (fg_xs g)) in *.
    unfold sound. split; [|auto]. assert (Ln : length (fg_xs g') = S n) by (rewrite E1, app_length; cbn; unfold n; lia). rewrite Ln.
    assert (P : forall i, (i < n)%nat -> point d (ptsf (fg_xs g) i)) by (intros i Hi; rewrite Forall_forall in Hx; apply Hx, nth_In, Hi).
    assert (X : forall i, (i < n)%nat -> ptsf (fg_xs g') i = ptsf (fg_xs g) i) by (intros i Hi; unfold ptsf; rewrite E1, app_nth1 by (unfold n in Hi; lia); apply nth_indep; unfold n in Hi; lia).
    assert (Xn : ptsf (fg_xs g') n = x) by (unfold ptsf; rewrite E1, app_nth2 by (unfold n; lia); now replace (n - length (fg_xs g))%nat with 0%nat by (unfold n; lia)).
    set (kf' := fun i j => if (j =? n)%nat then k i else if (i =? n)%nat then kval fexp sf2 noise p x (ptsf (fg_xs g) j) false else kf i j).
    destruct (built_ext m kf kf' n A (fg_L g) H3) as (A' & AE & B).
    { intros i j Hi Hj. unfold kf'. rewrite (proj2 (Nat.eqb_neq j n)), (proj2 (Nat.eqb_neq i n)) by lia. auto. }
    assert (E : forall i j, (i <= n)%nat -> (j <= n)%nat -> fg_A g' i j = kernel_add kf' n A' i j).
    { intros i j Hi Hj. rewrite K2. unfold kernel_add, kf'. rewrite Nat.eqb_refl. destruct (Nat.eqb_spec j n); auto. destruct (Nat.eqb_spec i n); auto.
      rewrite <- AE, H2 by lia. auto. }
    exists kf', (kernel_add kf' n A'). split; [|split].
    - intros i j Hi Hj. unfold kf'. destruct (Nat.eqb_spec j n) as [->|Nj]; [rewrite Xn; apply K1; lia|].
      destruct (Nat.eqb_spec i n) as [->|Ni]; [rewrite Xn, X by lia; rewrite (proj2 (Nat.eqb_neq n j)) by lia; apply kval_ok with d; auto; apply P; lia|].
      rewrite !X by lia. apply H1; lia.
    - intros i j Hi Hj. symmetry. apply E; lia.
    - apply built_add with (fg_L g); auto. apply chol_row_ext with (fg_A g'); auto.
  Qed.

  Lemma life_sound xs ys g : regular -> (INR m <= 3000)%R -> gp_life fexp mk sf2 noise p m mf xs ys g -> (length xs <= 1000)%nat -> Forall (point d) xs ->
    fg_xs g = xs /\ fg_ys g = ys /\ length ys = length xs /\ sound g.
  Proof.
    intros HR Hm H. induction H as [g E1 E2|xs ys g N Hl HC|xs ys g x y g' H IH HA]; intros Hn Hx.
    - split; auto. split; auto. split; auto. now apply sound_empty.
    - assert (0 < length xs)%nat by (destruct xs; [easy|cbn; lia]).
      split; [apply HC|]. split; [apply HC|]. split; auto. apply sound_compute with (xs := xs) (ys := ys); auto. apply usual_of; auto.
    - rewrite app_length in Hn. cbn in Hn. apply Forall_app in Hx. destruct Hx as (Hx & Px). inversion Px; subst.
      destruct IH as (I1 & I2 & I3 & I4); auto; [lia|]. split; [rewrite <- I1; apply HA|]. split; [rewrite <- I2; apply HA|]. split; [rewrite !app_length; cbn; lia|].
      apply sound_add with (g := g) (x := x) (y := y); auto. now rewrite I1.
  Qed.
End Life.
