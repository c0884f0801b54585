(** C56: [ehvi2d] computes the expected hypervolume improvement. *)
From Coq Require Import Reals List Bool ZArith Lia Lra Permutation Sorted.
From Coquelicot Require Import Coquelicot.
From Verif Require Import LinAlgModel LinAlg MatCalc GaussInt KernelModel GPModel AcquiModel Prop_EI Prop_Eci EhviModel.
Import ListNotations.
Open Scope R_scope.

(** * Specification *)
(** the error function *)
Definition is_erf (erf : R -> R) : Prop := forall x, is_RInt (fun t => 2 / sqrt PI * exp (- (t * t))) 0 x (erf x).
(** height up to which the vertical line at [t] is dominated by [P], from [low] upwards *)
Definition cover (P : list individual) (low t : R) : R :=
  fold_right (fun p m => if Rle_dec t (f0 p) then Rmax (f1 p) m else m) low P.
(** [v] is the area dominated by (x, y) and not by [P], right of and above the reference point *)
Definition is_hvi (P : list individual) (r : R * R) (x y v : R) : Prop :=
  (x < fst r -> v = 0) /\ (fst r <= x -> is_RInt (fun t => Rmax 0 (y - cover P (snd r) t)) (fst r) x v).
(** [v] is the expectation of the improvement for independent normal x and y *)
Definition is_ehvi (P : list individual) (r mu s : R * R) (v : R) : Prop :=
  exists (hvi : R -> R -> R) (inner : R -> R), (forall x y, is_hvi P r x y (hvi x y)) /\
    (forall x, is_RInt_gen (fun y => hvi x y * density (snd mu) (snd s) y) (Rbar_locally m_infty) (Rbar_locally p_infty) (inner x)) /\
    is_RInt_gen (fun x => inner x * density (fst mu) (fst s) x) (Rbar_locally m_infty) (Rbar_locally p_infty) v.
(** no point dominates another one (copies allowed), none is below the reference point *)
Definition front (P : list individual) (r : R * R) : Prop :=
  (forall p q, In p P -> In q P -> f0 p <= f0 q -> f1 p <= f1 q -> f0 p = f0 q /\ f1 p = f1 q) /\
  (forall p, In p P -> fst r <= f0 p /\ snd r <= f1 p).
(** the contract of std::sort with [xcomparator] *)
Definition sorts (sort : list individual -> list individual) : Prop :=
  forall P, Permutation P (sort P) /\ StronglySorted (fun p q => ~ f0 q < f0 p) (sort P).

(** * The improvement as a sum of products *)
Lemma cover_cons p P low t : cover (p :: P) low t = if Rle_dec t (f0 p) then Rmax (f1 p) (cover P low t) else cover P low t.
Proof. reflexivity. Qed.
Lemma cover_perm P Q low t : Permutation P Q -> cover P low t = cover Q low t.
Proof.
  intro H. induction H; rewrite ?cover_cons; try congruence.
  - now rewrite IHPermutation.
  - destruct (Rle_dec t (f0 x)), (Rle_dec t (f0 y)); try reflexivity. rewrite !Rmax_assoc. now rewrite (Rmax_comm (f1 y)).
Qed.
(** a staircase starting at abscissa [a] *)
Fixpoint stairs (a low : R) (Q : list individual) : Prop :=
  match Q with
  | [] => True
  | p :: Q' => a <= f0 p /\ low <= f1 p /\ List.Forall (fun q => f1 q <= f1 p) Q' /\ stairs (f0 p) low Q'
  end.
Fixpoint hv (low a : R) (Q : list individual) (x y : R) : R :=
  match Q with
  | [] => Rmax 0 (x - a) * Rmax 0 (y - low)
  | p :: Q' => (Rmax 0 (x - a) - Rmax 0 (x - f0 p)) * Rmax 0 (y - f1 p) + hv low (f0 p) Q' x y
  end.
Lemma hv_left low Q : forall a x y, stairs a low Q -> x <= a -> hv low a Q x y = 0.
Proof.
  induction Q as [|p Q IH]; intros a x y H Hx; cbn; rewrite (Rmax_left 0 (x - a)) by lra; [ring|].
  destruct H as (H1 & _ & _ & H4). rewrite Rmax_left by lra. rewrite IH; [ring|exact H4|lra].
Qed.
Lemma is_RInt_const' a b c v : v = (b - a) * c -> is_RInt (fun _ : R => c) a b v.
Proof. intros ->. exact (is_RInt_const a b c). Qed.
Lemma hv_area low Q : forall a x y, stairs a low Q -> a <= x -> is_RInt (fun t => Rmax 0 (y - cover Q low t)) a x (hv low a Q x y).
Proof.
  induction Q as [|p Q IH]; intros a x y H Hx; cbn [hv].
  - cbn. apply is_RInt_const'. rewrite (Rmax_right 0 (x - a)) by lra. reflexivity.
  - destruct H as (H1 & H2 & H3 & H4).
    assert (Cov : forall t, t <= f0 p -> cover (p :: Q) low t = f1 p).
    { intros t Ht. cbn. destruct (Rle_dec t (f0 p)); [|lra]. apply Rmax_left.
      assert (G : forall Q', List.Forall (fun q => f1 q <= f1 p) Q' -> cover Q' low t <= f1 p); [|now apply G].
      clear -H2. intros Q' HQ. induction HQ as [|q Q' Hq HQ IH]; cbn; [exact H2|]. destruct (Rle_dec t (f0 q)); [now apply Rmax_lub|exact IH]. }
    assert (Cov' : forall t, f0 p < t -> cover (p :: Q) low t = cover Q low t).
    { intros t Ht. cbn. destruct (Rle_dec t (f0 p)); [lra|reflexivity]. }
    assert (Left : forall z, a <= z -> z <= f0 p -> is_RInt (fun t => Rmax 0 (y - cover (p :: Q) low t)) a z ((z - a) * Rmax 0 (y - f1 p))).
    { intros z Hz1 Hz2. apply is_RInt_ext with (f := fun _ => Rmax 0 (y - f1 p)); [|now apply is_RInt_const'].
      intros t [_ Ht]. rewrite Rmax_right in Ht by lra. rewrite Cov by lra. reflexivity. }
    destruct (Rle_dec x (f0 p)) as [Hp|Hp].
    + rewrite (Rmax_right 0 (x - a)), (Rmax_left 0 (x - f0 p)) by lra. rewrite hv_left by assumption.
      replace ((x - a - 0) * Rmax 0 (y - f1 p) + 0) with ((x - a) * Rmax 0 (y - f1 p)) by ring. now apply Left.
    + rewrite (Rmax_right 0 (x - a)), (Rmax_right 0 (x - f0 p)) by lra. replace (x - a - (x - f0 p)) with (f0 p - a) by ring.
      apply (@is_RInt_Chasles R_NormedModule _ a (f0 p) x); [apply Left; lra|].
      apply is_RInt_ext with (f := fun t => Rmax 0 (y - cover Q low t)); [|apply IH; [exact H4|lra]].
      intros t [Ht _]. rewrite Rmin_left in Ht by lra. now rewrite Cov'.
Qed.

(** ** Expectation *)
Section Expect.
Variables (mu0 s0 mu1 s1 low : R).
Hypothesis Hs0 : 0 < s0.
Hypothesis Hs1 : 0 < s1.
(** expected improvements *)
Let EX t := ei_value erfc0 (mu0 - t) s0.
Let EY t := ei_value erfc0 (mu1 - t) s1.
Lemma EX_ok t : expected_improvement mu0 s0 t (EX t). Proof. apply ei_is_expectation; [exact Hs0|apply erfc0_ok]. Qed.
Lemma EY_ok t : expected_improvement mu1 s1 t (EY t). Proof. apply ei_is_expectation; [exact Hs1|apply erfc0_ok]. Qed.
Notation everywhere f v := (is_RInt_gen f (Rbar_locally m_infty) (Rbar_locally p_infty) v).
Lemma ev_plus f g (u v : R) : everywhere f u -> everywhere g v -> everywhere (fun x => f x + g x) (u + v).
Proof. intros Hf Hg. apply (is_RInt_gen_plus (V := R_NormedModule) f g u v Hf Hg). Qed.
Lemma ev_scal f c (u : R) : everywhere f u -> everywhere (fun x => c * f x) (c * u).
Proof. intros Hf. apply (is_RInt_gen_scal (V := R_NormedModule) f c u Hf). Qed.
Lemma ev_ext (f g : R -> R) (u : R) : (forall x, f x = g x) -> everywhere f u -> everywhere g u.
Proof.
  intros H Hf. apply (is_RInt_gen_ext (V := R_NormedModule) f g u); [|exact Hf].
  apply filter_forall. intros [a b] x _. apply H.
Qed.
Fixpoint hvE (a : R) (Q : list individual) (x : R) : R :=
  match Q with
  | [] => Rmax 0 (x - a) * EY low
  | p :: Q' => (Rmax 0 (x - a) - Rmax 0 (x - f0 p)) * EY (f1 p) + hvE (f0 p) Q' x
  end.
Fixpoint hvEE (a : R) (Q : list individual) : R :=
  match Q with
  | [] => EX a * EY low
  | p :: Q' => (EX a - EX (f0 p)) * EY (f1 p) + hvEE (f0 p) Q'
  end.
Lemma inner_ok Q : forall a x, everywhere (fun y => hv low a Q x y * density mu1 s1 y) (hvE a Q x).
Proof.
  induction Q as [|p Q IH]; intros a x; cbn [hv hvE].
  - apply ev_ext with (f := fun y => Rmax 0 (x - a) * (Rmax 0 (y - low) * density mu1 s1 y)); [intro; ring|]. apply ev_scal, EY_ok.
  - apply ev_ext with (f := fun y => (Rmax 0 (x - a) - Rmax 0 (x - f0 p)) * (Rmax 0 (y - f1 p) * density mu1 s1 y) + hv low (f0 p) Q x y * density mu1 s1 y); [intro; ring|].
    apply ev_plus; [apply ev_scal, EY_ok|apply IH].
Qed.
Lemma outer_ok Q : forall a, everywhere (fun x => hvE a Q x * density mu0 s0 x) (hvEE a Q).
Proof.
  induction Q as [|p Q IH]; intro a; cbn [hvE hvEE].
  - apply ev_ext with (f := fun x => EY low * (Rmax 0 (x - a) * density mu0 s0 x)); [intro; ring|]. rewrite Rmult_comm. apply ev_scal, EX_ok.
  - apply ev_ext with (f := fun x => (EY (f1 p) * (Rmax 0 (x - a) * density mu0 s0 x) + - EY (f1 p) * (Rmax 0 (x - f0 p) * density mu0 s0 x)) + hvE (f0 p) Q x * density mu0 s0 x); [intro; ring|].
    apply ev_plus; [|apply IH]. replace ((EX a - EX (f0 p)) * EY (f1 p)) with (EY (f1 p) * EX a + - EY (f1 p) * EX (f0 p)) by ring.
    apply ev_plus; apply ev_scal, EX_ok.
Qed.
End Expect.

(** * The sum over the cells *)
Section Algebra.
Variables (k : nat) (a b A TA B TB : nat -> R).
Hypothesis HT : TA (S k) = 0.
(** row [q] lies between ordinates [b q] and [b (q - 1)]; nothing above row 0 *)
Definition prev (f : nat -> R) (q : nat) : R := match q with O => 0 | S q' => f q' end.
Definition Pj (j : nat) : R := A j - A (S j) - (a (S j) - a j) * TA (S j).
Definition Qq (q : nat) (c : R) : R := B q + (b q - c) * TB q - (prev B q + (prev b q - c) * prev TB q).
Definition psi1 (q j : nat) : R := A j + (a j - a q) * TA j - (A (S j) + (a (S j) - a q) * TA (S j)).
Definition Sm (q n : nat) : R := rsum n (fun m => (a (S (q + m)) - a q) * (b (q + m)%nat - b (S (q + m)))).
Definition term (q j : nat) : R := psi1 q j * Qq q (b j) - Sm q (j - q) * (TA j - TA (S j)) * (TB q - prev TB q).
Definition gq (q j : nat) : R := rsum (j - q) (fun m => (a (S (q + m)) - a (q + m)%nat) * Qq q (b (q + m)%nat)).

Lemma Q_shift q c d : Qq q d = Qq q c + (c - d) * (TB q - prev TB q).
Proof. unfold Qq. ring. Qed.
Lemma g_eq q n : (a (q + n)%nat - a q) * Qq q (b (q + n)%nat) - Sm q n * (TB q - prev TB q) = gq q (q + n).
Proof.
  unfold gq. replace (q + n - q)%nat with n by lia. induction n as [|n IH]; [unfold Sm; cbn [rsum]; rewrite Nat.add_0_r; ring|].
  unfold Sm in *. cbn [rsum]. rewrite <- IH. rewrite Nat.add_succ_r. rewrite (Q_shift q (b (q + n)%nat) (b (S (q + n)))). ring.
Qed.
Lemma term_eq q j : (q <= j)%nat -> term q j = (TA j - TA (S j)) * gq q j + Pj j * Qq q (b j).
Proof.
  intro H. unfold term. pose proof (g_eq q (j - q)) as G. replace (q + (j - q))%nat with j in G by lia. rewrite <- G.
  unfold psi1, Pj. ring.
Qed.
Lemma sumQ j c : rsum (S j) (fun q => Qq q c) = B j + (b j - c) * TB j.
Proof.
  induction j as [|j IH]; [cbn [rsum]; unfold Qq, prev; ring|].
  change (rsum (S (S j)) (fun q => Qq q c)) with (rsum (S j) (fun q => Qq q c) + Qq (S j) c). rewrite IH. unfold Qq, prev. ring.
Qed.
Definition W (j : nat) : R := rsum j (fun m => (a (S m) - a m) * B m).
Lemma col_sum j : rsum (S j) (fun q => gq q j) = W j.
Proof.
  induction j as [|j IH]; [cbn [rsum]; unfold gq, W; cbn; ring|].
  change (rsum (S (S j)) (fun q => gq q (S j))) with (rsum (S j) (fun q => gq q (S j)) + gq (S j) (S j)).
  rewrite (rsum_ext (S j) _ (fun q => gq q j + (a (S j) - a j) * Qq q (b j))).
  - rewrite rsum_plus, IH, rsum_scal_l, sumQ. unfold gq, W. rewrite Nat.sub_diag. cbn [rsum]. ring.
  - intros q Hq. unfold gq. replace (S j - q)%nat with (S (j - q)) by lia. cbn [rsum]. replace (q + (j - q))%nat with j by lia. reflexivity.
Qed.
Lemma tri N (F : nat -> nat -> R) : rsum N (fun q => rsum (N - q) (fun n => F q (q + n)%nat)) = rsum N (fun j => rsum (S j) (fun q => F q j)).
Proof.
  induction N as [|N IH]; [reflexivity|].
  change (rsum (S N) (fun j => rsum (S j) (fun q => F q j))) with (rsum N (fun j => rsum (S j) (fun q => F q j)) + rsum (S N) (fun q => F q N)).
  rewrite <- IH. change (rsum (S N) (fun q => F q N)) with (rsum N (fun q => F q N) + F N N).
  change (rsum (S N) (fun q => rsum (S N - q) (fun n => F q (q + n)%nat))) with (rsum N (fun q => rsum (S N - q) (fun n => F q (q + n)%nat)) + rsum (S N - N) (fun n => F N (N + n)%nat)).
  replace (S N - N)%nat with 1%nat by lia. cbn [rsum]. rewrite Nat.add_0_r.
  rewrite (rsum_ext N (fun q => rsum (S N - q) (fun n => F q (q + n)%nat)) (fun q => rsum (N - q) (fun n => F q (q + n)%nat) + F q N)).
  - rewrite rsum_plus. ring.
  - intros q Hq. replace (S N - q)%nat with (S (N - q)) by lia. cbn [rsum]. now replace (q + (N - q))%nat with N by lia.
Qed.
Lemma abel N : rsum N (fun j => (TA j - TA (S j)) * W j) = rsum N (fun m => (a (S m) - a m) * B m * TA (S m)) - W N * TA N.
Proof. induction N as [|N IH]; [cbn [rsum]; unfold W; cbn; ring|]. cbn [rsum]. rewrite IH. unfold W. cbn [rsum]. ring. Qed.
Lemma total : rsum (S k) (fun q => rsum (S k - q) (fun n => term q (q + n))) = rsum (S k) (fun m => (A m - A (S m)) * B m).
Proof.
  rewrite (tri (S k) term). rewrite (rsum_ext (S k) _ (fun j => (TA j - TA (S j)) * W j + Pj j * B j)).
  - rewrite rsum_plus, abel, HT. rewrite Rmult_0_r, Rminus_0_r, <- rsum_plus. apply rsum_ext. intros j _. unfold Pj. ring.
  - intros j _. rewrite (rsum_ext (S j) _ (fun q => (TA j - TA (S j)) * gq q j + Pj j * Qq q (b j))).
    + rewrite rsum_plus, !rsum_scal_l, col_sum, sumQ. ring.
    + intros q Hq. apply term_eq. lia.
Qed.
Lemma term_nonneg q j : (q <= j)%nat -> (forall m, (m < j)%nat -> a m <= a (S m)) -> 0 <= TA j - TA (S j) -> 0 <= Pj j ->
  (forall m, (q <= m <= j)%nat -> 0 <= Qq q (b m)) -> 0 <= term q j.
Proof.
  intros H Ha Ht HP HQ. rewrite term_eq by exact H. apply Rplus_le_le_0_compat.
  - apply Rmult_le_pos; [exact Ht|]. apply rsum_nonneg. intros m Hm. apply Rmult_le_pos; [specialize (Ha (q + m)%nat ltac:(lia)); lra|apply HQ; lia].
  - apply Rmult_le_pos; [exact HP|apply HQ; lia].
Qed.
End Algebra.

(** * Normal tails *)
Section Tails.
Variables (mu s : R).
Hypothesis Hs : 0 < s.
Variable erf : R -> R.
Hypothesis He : is_erf erf.
Notation pdf := (gausspdf (/ sqrt (2 * PI))).
Notation cdf := (gausscdf erf (sqrt 2)).
Notation psi := (exipsi erf (sqrt 2) (/ sqrt (2 * PI))).
Definition tail (c : R) : R := 1 / 2 * erfc0 (- ((mu - c) / s) / sqrt 2).
Definition ei_ (c : R) : R := ei_value erfc0 (mu - c) s.
Lemma erf_eq x : erf x = 2 / sqrt PI * E x.
Proof.
  assert (HI : is_RInt (fun t => 2 / sqrt PI * exp (- (t * t))) 0 x (2 / sqrt PI * E x)) by (apply (is_RInt_scal ge 0 x (2 / sqrt PI) (E x)); apply (RInt_correct ge), ge_int).
  transitivity (RInt (fun t => 2 / sqrt PI * exp (- (t * t))) 0 x); [symmetry|]; apply is_RInt_unique; [apply He|exact HI].
Qed.
Lemma cdf_fin c : cdf (scaled (Fin c) mu s) = Some (1 - tail c).
Proof.
  cbn. destruct (Req_EM_T s 0); [lra|]. cbn. rewrite erf_eq. unfold tail, erfc0. f_equal. pose proof sqrt2_pos.
  replace (- ((mu - c) / s) / sqrt 2) with ((c - mu) / s / sqrt 2) by (field; split; lra). field. apply Rgt_not_eq, sqrtPI_pos.
Qed.
Lemma cdf_inf : cdf (scaled Infinity mu s) = Some 1.
Proof. cbn. destruct (Rlt_dec s 0); [lra|reflexivity]. Qed.
Lemma psi_fin f c : psi f (Fin c) mu s = Some (ei_ c + (c - f) * tail c + (f - mu)).
Proof.
  unfold exipsi. rewrite cdf_fin. cbn. destruct (Req_EM_T s 0); [lra|]. cbn. f_equal.
  unfold ei_, ei_value. cbn zeta. change (1 / 2 * erfc0 (- ((mu - c) / s) / sqrt 2)) with (tail c).
  replace (- (1 / 2) * ((mu - c) / s) ^ 2) with (- ((c - mu) / s * ((c - mu) / s)) / 2) by (field; lra). unfold Rdiv. ring.
Qed.
Lemma psi_inf f : psi f Infinity mu s = Some (f - mu).
Proof. unfold exipsi. rewrite cdf_inf. cbn. destruct (Rlt_dec s 0); [lra|]. cbn. f_equal. ring. Qed.
Lemma tail_range c : 0 <= tail c <= 1.
Proof. apply (prob_above_range mu s c Hs). apply (prob_above_value mu s c Hs erfc0 erfc0_ok). Qed.
Lemma ei_pos c : 0 <= ei_ c. Proof. apply (ei_nonneg mu s c Hs). apply erfc0_ok. Qed.
Lemma tail_mono c d : c <= d -> tail d <= tail c.
Proof.
  intro H. assert (HI : is_RInt (density mu s) c d (tail c - tail d)).
  { assert (V : forall t, tail t = 1 / 2 - / sqrt PI * E ((t - mu) / (s * sqrt 2))).
    { intro t. pose proof sqrt2_pos. unfold tail, erfc0. replace (- ((mu - t) / s) / sqrt 2) with ((t - mu) / (s * sqrt 2)) by (field; split; lra). field. apply Rgt_not_eq, sqrtPI_pos. }
    rewrite !V. replace (1 / 2 - / sqrt PI * E ((c - mu) / (s * sqrt 2)) - (1 / 2 - / sqrt PI * E ((d - mu) / (s * sqrt 2)))) with
      (/ sqrt PI * E ((d - mu) / (s * sqrt 2)) - / sqrt PI * E ((c - mu) / (s * sqrt 2))) by ring.
    apply (is_RInt_derive (fun t => / sqrt PI * E ((t - mu) / (s * sqrt 2))) (density mu s)); intros; [now apply A_der|apply density_cont]. }
  pose proof (is_RInt_ge_0 (density mu s) c d (tail c - tail d) H HI (fun x _ => dens_pos mu s Hs x)). lra.
Qed.
(** the integral of (y - f) over the half line from [c] *)
Lemma above_mono f c d : f <= c -> c <= d -> ei_ d + (d - f) * tail d <= ei_ c + (c - f) * tail c.
Proof.
  intros Hf H.
  assert (HI : is_RInt (fun y => (y - f) * density mu s y) c d ((ei_ c + (c - f) * tail c) - (ei_ d + (d - f) * tail d))).
  { assert (V : forall t, ei_ t + (t - f) * tail t = (mu - f) / 2 - ((mu - f) * / sqrt PI * E ((t - mu) / (s * sqrt 2)) - s * (exp (- (1 / 2) * ((t - mu) / s) ^ 2) / sqrt (2 * PI)))).
    { intro t. pose proof sqrt2_pos as H2. pose proof sqrtPI_pos as HP. unfold ei_. rewrite (ei_value_eq mu s t Hs erfc0 erfc0_ok).
      unfold tail, erfc0. replace (- ((mu - t) / s) / sqrt 2) with ((t - mu) / (s * sqrt 2)) by (field; split; lra). field. split; [apply Rgt_not_eq; rewrite sqrt2PI; now apply Rmult_lt_0_compat|lra]. }
    rewrite !V.
    match goal with |- is_RInt _ _ _ (?k - ?x - (?k - ?y)) => replace (k - x - (k - y)) with (y - x) by ring end.
    apply (is_RInt_derive (fun t => (mu - f) * / sqrt PI * E ((t - mu) / (s * sqrt 2)) - s * (exp (- (1 / 2) * ((t - mu) / s) ^ 2) / sqrt (2 * PI))) (fun y => (y - f) * density mu s y));
      intros; [now apply (A_derive mu s f Hs)|apply dens_cont]. }
  assert (0 <= (ei_ c + (c - f) * tail c) - (ei_ d + (d - f) * tail d)); [|lra].
  apply (is_RInt_ge_0 (fun y => (y - f) * density mu s y) c d _ H HI). intros x Hx. apply Rmult_le_pos; [lra|now apply dens_pos].
Qed.
Lemma above_pos f c : f <= c -> 0 <= ei_ c + (c - f) * tail c.
Proof. intro H. pose proof (ei_pos c). pose proof (tail_range c). assert (0 <= (c - f) * tail c) by (apply Rmult_le_pos; lra). lra. Qed.
End Tails.

(** * The loops *)
Section Loops.
Variables (Q : list individual) (r mu s : R * R) (erf : R -> R).
Hypothesis He : is_erf erf.
Hypothesis Hs0 : 0 < fst s.
Hypothesis Hs1 : 0 < snd s.
Let k := length Q.
Definition as_ (m : nat) : R := nth m (fst r :: map f0 Q) 0.
Definition bs_ (m : nat) : R := nth m (map f1 Q) (snd r).
Notation a := as_. Notation b := bs_.
Definition A_ (m : nat) : R := if (m <=? k)%nat then ei_ (fst mu) (fst s) (a m) else 0.
Definition TA_ (m : nat) : R := if (m <=? k)%nat then tail (fst mu) (fst s) (a m) else 0.
Definition B_ (m : nat) : R := ei_ (snd mu) (snd s) (b m).
Definition TB_ (m : nat) : R := tail (snd mu) (snd s) (b m).
Notation term := (term a b A_ TA_ B_ TB_).
Notation Sm := (Sm a b).
Notation CELL := (cell erf (sqrt 2) (/ sqrt (2 * PI)) Q r mu s).

Lemma at_Q m : (m < k)%nat -> exists p, at_ Q m = Done p /\ f0 p = a (S m) /\ f1 p = b m.
Proof.
  intro H. unfold at_. destruct (nth_error Q m) as [p|] eqn:Ep; [|apply nth_error_None in Ep; unfold k in H; lia].
  exists p. split; [reflexivity|]. unfold as_, bs_. cbn [nth]. split; symmetry; apply nth_error_nth; now apply map_nth_error.
Qed.
Lemma b_k : b k = snd r. Proof. unfold bs_. apply nth_overflow. rewrite map_length. unfold k. lia. Qed.
Lemma A_in m : (m <= k)%nat -> A_ m = ei_ (fst mu) (fst s) (a m) /\ TA_ m = tail (fst mu) (fst s) (a m).
Proof. intro H. unfold A_, TA_. destruct (Nat.leb_spec m k); [auto|lia]. Qed.
Lemma A_out : A_ (S k) = 0 /\ TA_ (S k) = 0.
Proof. unfold A_, TA_. destruct (Nat.leb_spec (S k) k); [lia|auto]. Qed.

Lemma cell_eq q j ans : (q <= j <= k)%nat ->
  CELL (k - q) (Z.of_nat q - 1) j (ans, Sm q (j - 1 - q), (Z.of_nat j - 1)%Z) = Done (ans + Rmax 0 (term q j), Sm q (j - q), Z.of_nat j).
Proof.
  intros [H1 H2]. unfold cell. fold k.
  assert (E1 : (if (j =? k)%nat then Done (snd r, Infinity) else bind (at_ Q j) (fun p => Done (f1 p, Fin (f0 p)))) =
     Done (b j, if (j =? k)%nat then Infinity else Fin (a (S j)))).
  { destruct (Nat.eqb_spec j k) as [->|]; [now rewrite b_k|]. destruct (at_Q j ltac:(lia)) as (p & -> & P1 & P2). cbn [bind]. now rewrite P1, P2. }
  rewrite E1. cbn [bind]. clear E1.
  assert (E2 : (if (k - q =? k)%nat then Done (fst r, Infinity) else bind (at_ Q (k - (k - q) - 1)) (fun p => Done (f0 p, Fin (f1 p)))) =
     Done (a q, match q with O => Infinity | S q' => Fin (b q') end)).
  { destruct q as [|q]; [rewrite Nat.sub_0_r, Nat.eqb_refl; reflexivity|]. destruct (Nat.eqb_spec (k - S q) k); [lia|].
    replace (k - (k - S q) - 1)%nat with q by lia. destruct (at_Q q ltac:(lia)) as (p & -> & P1 & P2). cbn [bind]. now rewrite P1, P2. }
  rewrite E2. cbn [bind]. clear E2.
  assert (E3 : (if (j =? 0)%nat then Done (fst r) else bind (at_ Q (j - 1)) (fun p => Done (f0 p))) = Done (a j)).
  { destruct j as [|j]; [reflexivity|]. cbn [Nat.eqb]. replace (S j - 1)%nat with j by lia. destruct (at_Q j ltac:(lia)) as (p & -> & P1 & P2). cbn [bind]. now rewrite P1. }
  rewrite E3. cbn [bind]. clear E3.
  assert (E4 : (if (k - q =? 0)%nat then Done (snd r) else bind (at_ Q (k - (k - q))) (fun p => Done (f1 p))) = Done (b q)).
  { destruct (Nat.eqb_spec (k - q) 0); [replace q with k by lia; now rewrite b_k|]. replace (k - (k - q))%nat with q by lia.
    destruct (at_Q q ltac:(lia)) as (p & -> & P1 & P2). cbn [bind]. now rewrite P2. }
  rewrite E4. cbn [bind]. clear E4.
  assert (E5 : (if (Z.of_nat q - 1 <? Z.of_nat j - 1)%Z
        then bind (if (Z.of_nat j - 1 <? 0)%Z then Undefined else at_ Q (Z.to_nat (Z.of_nat j - 1))) (fun p =>
             Done (Sm q (j - 1 - q) + (f0 p - a q) * (f1 p - b j)))
        else Done (Sm q (j - 1 - q))) = Done (Sm q (j - q))).
  { destruct (Z.ltb_spec (Z.of_nat q - 1) (Z.of_nat j - 1)).
    - destruct (Z.ltb_spec (Z.of_nat j - 1) 0); [lia|]. replace (Z.to_nat (Z.of_nat j - 1)) with (j - 1)%nat by lia.
      destruct (at_Q (j - 1) ltac:(lia)) as (p & -> & P1 & P2). cbn [bind]. rewrite P1, P2. f_equal.
      replace (j - q)%nat with (S (j - 1 - q)) by lia. unfold Prop_Ehvi.Sm. cbn [rsum]. replace (q + (j - 1 - q))%nat with (j - 1)%nat by lia.
      replace (S (j - 1)) with j by lia. ring.
    - assert (j = q) as -> by lia. replace (q - 1 - q)%nat with 0%nat by lia. now rewrite Nat.sub_diag. }
  rewrite E5. cbn [bind]. clear E5. cbn zeta.
  assert (X1 : exipsi erf (sqrt 2) (/ sqrt (2 * PI)) (a q) (if (j =? k)%nat then Infinity else Fin (a (S j))) (fst mu) (fst s) =
    Some (A_ (S j) + (a (S j) - a q) * TA_ (S j) + (a q - fst mu))).
  { destruct (Nat.eqb_spec j k) as [->|]; [rewrite psi_inf by assumption; destruct A_out as [-> ->]; f_equal; ring|].
    rewrite psi_fin by assumption. destruct (A_in (S j) ltac:(lia)) as [-> ->]. reflexivity. }
  assert (X2 : exipsi erf (sqrt 2) (/ sqrt (2 * PI)) (b j) (match q with O => Infinity | S q' => Fin (b q') end) (snd mu) (snd s) =
    Some (prev B_ q + (prev b q - b j) * prev TB_ q + (b j - snd mu))).
  { destruct q as [|q]; [rewrite psi_inf by assumption; cbn [prev]; f_equal; ring|]. rewrite psi_fin by assumption. reflexivity. }
  assert (X3 : gausscdf erf (sqrt 2) (scaled (if (j =? k)%nat then Infinity else Fin (a (S j))) (fst mu) (fst s)) = Some (1 - TA_ (S j))).
  { destruct (Nat.eqb_spec j k) as [->|]; [rewrite cdf_inf by assumption; destruct A_out as [_ ->]; f_equal; ring|].
    rewrite cdf_fin by assumption. destruct (A_in (S j) ltac:(lia)) as [_ ->]. reflexivity. }
  assert (X4 : gausscdf erf (sqrt 2) (scaled (match q with O => Infinity | S q' => Fin (b q') end) (snd mu) (snd s)) = Some (1 - prev TB_ q)).
  { destruct q as [|q]; [rewrite cdf_inf by assumption; cbn [prev]; f_equal; ring|]. now rewrite cdf_fin by assumption. }
  rewrite X1, X2, X3, X4. rewrite !psi_fin, !cdf_fin by assumption. cbn [nsub nmul].
  destruct (A_in j H2) as [EA ET]. rewrite <- EA, <- ET. fold (B_ q) (TB_ q).
  match goal with |- context [Rlt_dec 0 ?x] => assert (Et : x = term q j) end.
  { unfold Prop_Ehvi.term, Prop_Ehvi.psi1, Qq. ring. }
  rewrite Et. f_equal. f_equal; [f_equal|lia].
  destruct (Rlt_dec 0 (term q j)); [rewrite Rmax_right by lra; reflexivity|rewrite Rmax_left by lra; ring].
Qed.
Lemma row_eq q n : forall j ans, (q <= j)%nat -> (j + n <= S k)%nat ->
  for_ (CELL (k - q) (Z.of_nat q - 1)) (seq j n) (ans, Sm q (j - 1 - q), (Z.of_nat j - 1)%Z) =
  Done (ans + rsum n (fun m => Rmax 0 (term q (j + m))), Sm q (j + n - 1 - q), (Z.of_nat (j + n) - 1)%Z).
Proof.
  induction n as [|n IH]; intros j ans H1 H2; cbn [seq for_].
  - cbn [rsum]. rewrite Nat.add_0_r, Rplus_0_r. reflexivity.
  - rewrite cell_eq by lia. cbn [bind]. replace (j - q)%nat with (S j - 1 - q)%nat by lia. replace (Z.of_nat j) with (Z.of_nat (S j) - 1)%Z by lia.
    rewrite IH by lia. rewrite (rsum_S_first n (fun m => Rmax 0 (term q (j + m)))). do 2 f_equal; [f_equal; [|f_equal; lia]|lia].
    rewrite Nat.add_0_r, <- Rplus_assoc. f_equal. apply rsum_ext. intros m _. do 2 f_equal. lia.
Qed.
Lemma rows_eq n : forall i ans, (i + n <= S k)%nat ->
  for_ (fun i answer => let Sstart := (Z.of_nat k - 1 - Z.of_nat i)%Z in
    bind (for_ (CELL i Sstart) (seq (k - i) (i + 1)) (answer, 0, Sstart)) (fun st => Done (fst (fst st)))) (seq i n) ans =
  Done (ans + rsum n (fun m => rsum (i + m + 1) (fun t => Rmax 0 (term (k - (i + m)) (k - (i + m) + t))))).
Proof.
  induction n as [|n IH]; intros i ans H; cbn [seq for_]; [cbn [rsum]; now rewrite Rplus_0_r|]. cbv zeta.
  pose proof (row_eq (k - i) (i + 1) (k - i) ans ltac:(lia) ltac:(lia)) as R1.
  replace (k - (k - i))%nat with i in R1 by lia. replace (k - i - 1 - (k - i))%nat with 0%nat in R1 by lia. change (Sm (k - i) 0) with 0 in R1.
  replace (Z.of_nat k - 1 - Z.of_nat i)%Z with (Z.of_nat (k - i) - 1)%Z by lia. rewrite R1. cbn [bind fst].
  cbv zeta in IH. rewrite (IH (S i)) by lia. f_equal. rewrite (rsum_S_first n). rewrite Nat.add_0_r, <- Rplus_assoc. f_equal.
  apply rsum_ext. intros m _. replace (S i + m)%nat with (i + S m)%nat by lia. reflexivity.
Qed.
Lemma rsum_rev n (f : nat -> R) : rsum n (fun m => f (n - 1 - m)%nat) = rsum n f.
Proof.
  induction n as [|n IH]; [reflexivity|]. rewrite rsum_S_first. cbn [rsum]. rewrite <- IH. replace (S n - 1 - 0)%nat with n by lia.
  rewrite Rplus_comm. f_equal. apply rsum_ext. intros m Hm. f_equal. lia.
Qed.
Lemma sorted_general : ehvi2d_sorted erf (sqrt 2) (/ sqrt (2 * PI)) Q r mu s = Done (rsum (S k) (fun q => rsum (S k - q) (fun n => Rmax 0 (term q (q + n))))).
Proof.
  unfold ehvi2d_sorted. fold k. rewrite rows_eq by lia. f_equal. rewrite Rplus_0_l. rewrite Nat.add_1_r.
  rewrite <- (rsum_rev (S k) (fun q => rsum (S k - q) (fun n => Rmax 0 (term q (q + n))))).
  apply rsum_ext. intros m Hm. replace (S k - 1 - m)%nat with (k - (0 + m))%nat by lia.
  replace (S k - (k - (0 + m)))%nat with (0 + m + 1)%nat by lia. reflexivity.
Qed.
Lemma sorted_below : exists v, ehvi2d_sorted erf (sqrt 2) (/ sqrt (2 * PI)) Q r mu s = Done v /\ rsum (S k) (fun m => (A_ m - A_ (S m)) * B_ m) <= v.
Proof.
  eexists. split; [apply sorted_general|]. rewrite <- (total k a b A_ TA_ B_ TB_ (proj2 A_out)).
  apply rsum_le. intros q _. apply rsum_le. intros n _. apply Rmax_r.
Qed.
Hypothesis Ha : forall m, (m < k)%nat -> a m <= a (S m).
Hypothesis Hb : forall m, (m < k)%nat -> b (S m) <= b m.
Lemma Ha' m n : (m <= n <= k)%nat -> a m <= a n.
Proof. intros [H1 H2]. induction H1 as [|n H1 IH]; [lra|]. specialize (Ha n ltac:(lia)). specialize (IH ltac:(lia)). lra. Qed.
Lemma Hb' m n : (m <= n <= k)%nat -> b n <= b m.
Proof. intros [H1 H2]. induction H1 as [|n H1 IH]; [lra|]. specialize (Hb n ltac:(lia)). specialize (IH ltac:(lia)). lra. Qed.
Lemma term_pos q j : (q <= j <= k)%nat -> 0 <= term q j.
Proof.
  intros [H1 H2]. apply term_nonneg; [exact H1|intros m Hm; apply Ha; lia| | |].
  - destruct (A_in j H2) as [_ ->]. destruct (Nat.eq_dec j k) as [->|]; [rewrite (proj2 A_out); pose proof (tail_range (fst mu) (fst s) Hs0 (a k)); lra|].
    destruct (A_in (S j) ltac:(lia)) as [_ ->]. pose proof (tail_mono (fst mu) (fst s) Hs0 (a j) (a (S j)) (Ha j ltac:(lia))). lra.
  - unfold Pj. destruct (A_in j H2) as [-> _]. destruct (Nat.eq_dec j k) as [->|].
    + destruct A_out as [-> ->]. pose proof (ei_pos (fst mu) (fst s) Hs0 (a k)). lra.
    + destruct (A_in (S j) ltac:(lia)) as [-> ->]. pose proof (above_mono (fst mu) (fst s) Hs0 (a j) (a j) (a (S j)) (Rle_refl _) (Ha j ltac:(lia))). lra.
  - intros m Hm. unfold Qq, B_, TB_. pose proof (Hb' q m ltac:(lia)) as L. destruct q as [|q]; cbn [prev].
    + pose proof (above_pos (snd mu) (snd s) Hs1 (b m) (b 0%nat) L). lra.
    + pose proof (above_mono (snd mu) (snd s) Hs1 (b m) (b (S q)) (b q) L (Hb q ltac:(lia))). lra.
Qed.
Lemma sorted_value : ehvi2d_sorted erf (sqrt 2) (/ sqrt (2 * PI)) Q r mu s = Done (rsum (S k) (fun m => (A_ m - A_ (S m)) * B_ m)).
Proof.
  rewrite sorted_general. f_equal. rewrite <- (total k a b A_ TA_ B_ TB_ (proj2 A_out)).
  apply rsum_ext. intros q Hq. apply rsum_ext. intros n Hn. apply Rmax_right, term_pos. lia.
Qed.
End Loops.

Lemma value_eq low mu s : forall Q a,
  rsum (S (length Q)) (fun m => (A_ Q (a, low) mu s m - A_ Q (a, low) mu s (S m)) * B_ Q (a, low) mu s m) = hvEE (fst mu) (fst s) (snd mu) (snd s) low a Q.
Proof.
  induction Q as [|p Q IH]; intro a; [cbn; unfold A_, B_, ei_, as_, bs_; cbn; ring|].
  change (length (p :: Q)) with (S (length Q)). rewrite rsum_S_first. cbn [hvEE]. rewrite <- IH. f_equal.
Qed.

(** ** C56.  Partial: the constants 1.41421356237 and 0.3989422804 are read as the numbers they stand for *)
Theorem C56_ehvi2d_partial erf sort P r mu s : is_erf erf -> sorts sort -> front P r -> 0 < fst s -> 0 < snd s ->
  exists v, ehvi2d erf (sqrt 2) (/ sqrt (2 * PI)) sort P r mu s = Done v /\ is_ehvi P r mu s v /\ 0 <= v.
Proof.
  intros He Hsort [F1 F2] Hs0 Hs1. destruct (Hsort P) as [HP HS]. destruct r as [r0 r1]. set (Q := sort P) in *.
  assert (St : stairs r0 r1 Q).
  { assert (F1' : forall p q, In p Q -> In q Q -> f0 p <= f0 q -> f1 p <= f1 q -> f0 p = f0 q /\ f1 p = f1 q).
    { intros p q Hp Hq. apply F1; now apply (Permutation_in _ (Permutation_sym HP)). }
    assert (F2' : forall p, In p Q -> r0 <= f0 p /\ r1 <= f1 p) by (intros p Hp; apply F2; now apply (Permutation_in _ (Permutation_sym HP))).
    clear F1 F2 HP Hsort. clearbody Q. assert (Lo : forall p, In p Q -> r0 <= f0 p) by (intros p Hp; apply F2', Hp).
    assert (Lb : forall p, In p Q -> r1 <= f1 p) by (intros p Hp; apply F2', Hp). clear F2'. generalize dependent r0.
    induction HS as [|p Q HS IH Hp]; intros r0 Lo; cbn; [exact I|].
    split; [apply Lo; now left|]. split; [apply Lb; now left|]. split.
    - apply List.Forall_forall. intros q Hq. rewrite List.Forall_forall in Hp. specialize (Hp q Hq). apply Rnot_lt_le in Hp.
      destruct (Rle_dec (f1 q) (f1 p)) as [|N]; [assumption|]. destruct (F1' p q (or_introl eq_refl) (or_intror Hq) Hp); lra.
    - apply IH; [intros; apply F1'; try (now right); assumption|intros; apply Lb; now right|].
      intros q Hq. rewrite List.Forall_forall in Hp. specialize (Hp q Hq). lra. }
  assert (Ab : forall Q a, stairs a r1 Q -> (forall m, (m < length Q)%nat -> as_ Q (a, r1) m <= as_ Q (a, r1) (S m)) /\
    (forall m, (m < length Q)%nat -> bs_ Q (a, r1) (S m) <= bs_ Q (a, r1) m)).
  { clear. induction Q as [|p Q IH]; intros a H; [split; intros m Hm; cbn in Hm; lia|]. destruct H as (H1 & H2 & H3 & H4).
    destruct (IH _ H4) as [I1 I2]. split; intros [|m] Hm; cbn [length] in Hm.
    - exact H1.
    - apply (I1 m). lia.
    - unfold bs_. cbn [map nth snd]. destruct Q as [|q Q]; [exact H2|]. inversion H3; subst. assumption.
    - apply (I2 m). lia. }
  destruct (Ab Q r0 St) as [Ha Hb].
  exists (hvEE (fst mu) (fst s) (snd mu) (snd s) r1 r0 Q). split; [|split].
  - unfold ehvi2d. fold Q. rewrite (sorted_value Q (r0, r1) mu s erf He Hs0 Hs1 Ha Hb). f_equal. apply value_eq.
  - exists (hv r1 r0 Q), (hvE (snd mu) (snd s) r1 r0 Q). split; [|split].
    + intros x y. split; cbn [fst snd].
      * intro Hx. apply hv_left; [exact St|lra].
      * intro Hx. apply is_RInt_ext with (f := fun t => Rmax 0 (y - cover Q r1 t)); [|now apply hv_area].
        intros t _. now rewrite (cover_perm P Q).
    + intro x. now apply inner_ok.
    + now apply outer_ok.
  - clear -St Hs0 Hs1. assert (G : forall Q a, stairs a r1 Q -> 0 <= hvEE (fst mu) (fst s) (snd mu) (snd s) r1 a Q); [|now apply G].
    clear St Q. induction Q as [|p Q IH]; intros a H; cbn [hvEE].
    + apply Rmult_le_pos; [now apply (ei_pos (fst mu) (fst s))|now apply (ei_pos (snd mu) (snd s))].
    + destruct H as (H1 & _ & _ & H4). apply Rplus_le_le_0_compat; [|now apply IH]. apply Rmult_le_pos; [|now apply (ei_pos (snd mu) (snd s))].
      pose proof (above_mono (fst mu) (fst s) Hs0 a a (f0 p) (Rle_refl a) H1) as M.
      pose proof (tail_range (fst mu) (fst s) Hs0 (f0 p)). unfold ei_ in M. assert (0 <= (f0 p - a) * tail (fst mu) (fst s) (f0 p)) by (apply Rmult_le_pos; lra). lra.
Qed.
