(** Facts for C74: how much the exact posterior changes between two points. *)
From Coq Require Import ZArith List Bool Lia Reals Lra.
From Coquelicot Require Import Coquelicot.
From Verif Require Import F64 F64R FpModel LinAlgModel LinAlg FpAlg FpChol FpSolve FpGp Prop_Fp.
From Verif Require Import KernelModel KernelFacts FpKerModel FpKer Prop_FpKer FpAcqModel FpAcq MatCalc.
Import ListNotations.
Open Scope R_scope.

(** * The kernels near the diagonal *)
Lemma from_zero (f f' : R -> R) t : 0 <= t -> f 0 = 0 -> (forall x, 0 <= x -> is_derive f x (f' x)) -> (forall x, 0 <= x -> 0 <= f' x) -> 0 <= f t.
Proof.
  intros Ht F0 D P. destruct (MVT_gen f 0 t f') as (s & Hs & E).
  - intros x Hx. rewrite Rmin_left in Hx by lra. apply D. lra.
  - intros x Hx. rewrite Rmin_left in Hx by lra. apply continuity_pt_filterlim, @ex_derive_continuous. exists (f' x). apply D. lra.
  - rewrite Rmin_left in Hs by lra. rewrite F0, !Rminus_0_r in E. rewrite E. apply Rmult_le_pos; [apply P|]; lra.
Qed.
Lemma mat3_below t : 0 <= t -> 1 - (1 + t) * exp (- t) <= t * t / 2.
Proof.
  intros Ht. assert (H : 0 <= t * t / 2 - 1 + (1 + t) * exp (- t)); [|lra].
  apply (from_zero (fun t => t * t / 2 - 1 + (1 + t) * exp (- t)) (fun t => t * (1 - exp (- t))) t Ht).
  - rewrite Ropp_0, exp_0. field.
  - intros x _. auto_derive; [trivial|]. field.
  - intros x Hx. apply Rmult_le_pos; [lra|]. destruct (unit_exp x Hx). lra.
Qed.
Lemma mat5_below t : 0 <= t -> 1 - (1 + t + t * t / 3) * exp (- t) <= t * t / 6.
Proof.
  intros Ht. assert (H : 0 <= t * t / 6 - 1 + (1 + t + t * t / 3) * exp (- t)); [|lra].
  apply (from_zero (fun t => t * t / 6 - 1 + (1 + t + t * t / 3) * exp (- t)) (fun t => t / 3 * (1 - (1 + t) * exp (- t))) t Ht).
  - rewrite Ropp_0, exp_0. field.
  - intros x _. auto_derive; [trivial|]. field.
  - intros x Hx. apply Rmult_le_pos; [lra|]. destruct (xexp x Hx) as (_ & _ & _ & _ & _ & G). lra.
Qed.

(** curvature of the correlation at the diagonal *)
Definition slope (p : kpar) : R := match p with PExp _ | PArd _ => 1 | PMatern3 _ => 3 | PMatern5 _ => 5 / 3 end.
Definition scales (p : kpar) : list F := match p with PExp l | PMatern3 l | PMatern5 l => [l] | PArd ell => ell end.
(** coordinates within [h] *)
Definition near_pt (h : R) (v w : fpt) : Prop := length v = length w /\ forall i, (i < length v)%nat -> Rabs (vget (rpt v) i - vget (rpt w) i) <= h.

Lemma sq_le a b : Rabs a <= b -> a * a <= b * b.
Proof. intros H. rewrite <- (Rabs_pos_eq (a * a)) by apply Rle_0_sqr. rewrite Rabs_mult. apply Rmult_le_compat; auto; apply Rabs_pos. Qed.
Lemma sqdist_near h v w : near_pt h v w -> sqdist (rpt v) (rpt w) <= INR (length v) * (h * h).
Proof.
  intros (Hl & H). unfold sqdist. unfold rpt at 1. rewrite map_length, <- rsum_const. apply rsum_le. intros i Hi. now apply sq_le, H.
Qed.
Lemma quot_sq s n h l lam : 0 <= n -> 0 < lam -> lam <= l -> s <= n * (h * h) -> s / (l * l) <= n * (h / lam * (h / lam)).
Proof.
  intros Hn Hl L S. assert (0 <= h * h) by apply Rle_0_sqr. assert (0 <= n * (h * h)) by now apply Rmult_le_pos. assert (P : 0 < lam * lam) by now apply Rmult_lt_0_compat.
  apply Rle_trans with (n * (h * h) / (l * l)). { apply Rmult_le_compat_r; auto. left. apply Rinv_0_lt_compat. apply Rmult_lt_0_compat; lra. }
  replace (n * (h / lam * (h / lam))) with (n * (h * h) / (lam * lam)) by (field; lra). apply Rmult_le_compat_l; auto.
  apply Rinv_le_contravar; auto. apply Rmult_le_compat; lra.
Qed.
Lemma exact_close d sf2 p v w h lam : param sf2 -> kpar_ok d p -> length v = d -> near_pt h v w ->
  0 < lam -> (forall l, In l (scales p) -> lam <= fval l) ->
  2 * (fval sf2 - exact sf2 p v w) <= fval sf2 * (slope p * INR d * (h / lam * (h / lam))).
Proof.
  intros Hs Hp Hd Hn Hl HL. pose proof (param_pos sf2 Hs) as Sp. pose proof (sqdist_near h v w Hn) as Q. rewrite Hd in Q. pose proof (pos_INR d) as D0.
  pose proof (sqdist_nonneg (rpt v) (rpt w)) as Q0.
  assert (G : forall g b, 2 * (1 - g) <= b -> 2 * (fval sf2 - fval sf2 * g) <= fval sf2 * b).
  { intros g b H. replace (2 * (fval sf2 - fval sf2 * g)) with (fval sf2 * (2 * (1 - g))) by ring. apply Rmult_le_compat_l; lra. }
  destruct p as [l|l|l|ell]; cbn [exact kpar_ok scales slope] in *; try (pose proof (param_pos l Hp) as Lp; specialize (HL l (or_introl eq_refl));
    pose proof (quot_sq _ _ h (fval l) lam D0 Hl HL Q) as Z; set (s := sqdist (rpt v) (rpt w)) in *).
  - unfold exp_kernel. cbn [iso_new i_sf2 i_l]. fold s. apply G. pose proof (exp_ineq1_le (- (1 / 2) * (s / (fval l * fval l)))) as E.
    set (u := s / (fval l * fval l)) in *. lra.
  - unfold matern3_kernel, dist. cbn [iso_new i_sf2 i_l]. fold s. set (t := sqrt 3 * sqrt s / fval l).
    assert (T : 0 <= t). { apply Rmult_le_pos; [apply Rmult_le_pos; apply sqrt_pos|left; now apply Rinv_0_lt_compat]. }
    assert (TT : t * t = 3 * (s / (fval l * fval l))).
    { unfold t. replace (sqrt 3 * sqrt s / fval l * (sqrt 3 * sqrt s / fval l)) with (sqrt 3 * sqrt 3 * (sqrt s * sqrt s) / (fval l * fval l)) by (field; lra). rewrite !sqrt_def by lra. field. lra. }
    rewrite Rmult_assoc. apply G. pose proof (mat3_below t T). lra.
  - unfold matern5_kernel, dist. cbn [iso_new i_sf2 i_l]. fold s. set (t := sqrt 5 * sqrt s / fval l).
    assert (T : 0 <= t). { apply Rmult_le_pos; [apply Rmult_le_pos; apply sqrt_pos|left; now apply Rinv_0_lt_compat]. }
    assert (TT : t * t = 5 * (s / (fval l * fval l))).
    { unfold t. replace (sqrt 5 * sqrt s / fval l * (sqrt 5 * sqrt s / fval l)) with (sqrt 5 * sqrt 5 * (sqrt s * sqrt s) / (fval l * fval l)) by (field; lra). rewrite !sqrt_def by lra. field. lra. }
    replace (5 * (sqrt s * sqrt s) / (3 * (fval l * fval l))) with (t * t / 3) by (rewrite TT, sqrt_def by lra; field; lra).
    rewrite Rmult_assoc. apply G. pose proof (mat5_below t T). lra.
  - unfold ard_kernel. cbn [ard_of a_sf2]. apply G. destruct Hp as (He & Hp). unfold ard_z. cbn [Nat.ltb Nat.leb ard_of a_dim a_ell].
    set (z := rsum (length ell) _).
    assert (Z : z <= INR d * (h / lam * (h / lam))).
    { unfold z. rewrite He, <- rsum_const. apply rsum_le. intros i Hi.
      assert (In (nth i ell f0) ell) by (apply nth_In; lia).
      assert (E : vget (rpt ell) i = fval (nth i ell f0)).
      { unfold vget, rpt. change 0 with (fval f0). now rewrite map_nth. }
      rewrite E. specialize (HL _ H). destruct Hn as (_ & Hn). specialize (Hn i ltac:(lia)).
      set (a := vget (rpt v) i - vget (rpt w) i) in *. set (l := fval (nth i ell f0)) in *.
      pose proof (quot_sq (a * a) 1 h l lam ltac:(lra) Hl HL ltac:(rewrite Rmult_1_l; now apply sq_le)) as Q1.
      replace (a * a / (l * l)) with (a / l * (a / l)) in Q1 by (field; lra). lra. }
    pose proof (exp_ineq1_le (- (1 / 2) * z)) as E. lra.
Qed.

(** * The posterior at two points *)
(** [K]: the kernel matrix of [n] samples (indices below [n]) and two more points ([n], [n+1]) *)
Section Two.
  Variables (n : nat) (K B : nat -> nat -> R) (eta : R).
  Hypothesis He : 0 < eta.
  Hypothesis Hs : symm (S (S n)) K.
  Hypothesis Hp : psd (S (S n)) K.
  Hypothesis HB : is_inv n (noisy K eta) B.
  Let kv i := K i n.
  Let kw i := K i (S n).
  Let form (x y : nat -> R) := rsum n (fun i => x i * rsum n (fun j => B i j * y j)).
  Let Vv := K n n - form kv kv.
  Let Vw := K (S n) (S n) - form kw kw.
  Let C := K n (S n) - form kv kw.
  Let prior a b := a * a * K n n + 2 * (a * b) * K n (S n) + b * b * K (S n) (S n).

  Lemma B_symm : symm n B.
  Proof.
    assert (Sn : symm n (noisy K eta)).
    { apply noisy_symm. intros i j Hi Hj. apply Hs; lia. }
    apply (right_inv_symm n (noisy K eta) B Sn). apply HB.
  Qed.
  Lemma form_symm x y : form x y = form y x.
  Proof.
    unfold form. transitivity (rsum n (fun i => rsum n (fun j => x i * (B i j * y j)))); [apply rsum_ext; intros; now rewrite rsum_scal_l|].
    rewrite rsum_swap. apply rsum_ext. intros i Hi. rewrite <- rsum_scal_l. apply rsum_ext. intros j Hj. rewrite (B_symm i j Hi Hj). ring.
  Qed.
  Lemma form_comb a b x y : form (fun i => a * x i + b * y i) (fun i => a * x i + b * y i) = a * a * form x x + 2 * (a * b) * form x y + b * b * form y y.
  Proof.
    assert (L : forall z u v, form z (fun i => a * u i + b * v i) = a * form z u + b * form z v).
    { intros z u v. unfold form. rewrite <- !rsum_scal_l, <- rsum_plus. apply rsum_ext. intros i Hi.
      rewrite (rsum_ext n (fun j => B i j * (a * u j + b * v j)) (fun j => a * (B i j * u j) + b * (B i j * v j))) by (intros; ring).
      rewrite rsum_plus, !rsum_scal_l. ring. }
    rewrite L, (form_symm (fun i => a * x i + b * y i) x), (form_symm (fun i => a * x i + b * y i) y), !L, (form_symm y x). ring.
  Qed.
  Lemma psd_sub : psd n K.
  Proof. exact (psd_minor n K (psd_minor (S n) K Hp)). Qed.
  Lemma form_quad x : form x x = quad n (noisy K eta) (mvec n B x).
  Proof. rewrite quad_mvec. apply rsum_ext. intros i Hi. rewrite (inv_mvec n _ B x HB i Hi). unfold mvec. ring. Qed.
  Lemma form_nonneg x : 0 <= form x x.
  Proof. rewrite form_quad. apply Rle_trans with (2 := noisy_eig n K eta psd_sub _). apply Rmult_le_pos; [lra|apply ssq_nonneg]. Qed.
  Lemma quad_noisy x : quad n K x <= quad n (noisy K eta) x.
  Proof.
    assert (E : quad n (noisy K eta) x = quad n K x + eta * ssq n x).
    { unfold quad, noisy, ssq. rewrite <- rsum_scal_l, <- rsum_plus. apply rsum_ext. intros i Hi.
      transitivity (rsum n (fun j => x i * x j * K i j + (if (i =? j)%nat then eta * (x i * x j) else 0))).
      - apply rsum_ext. intros j Hj. destruct (i =? j)%nat; ring.
      - rewrite rsum_plus. f_equal. rewrite (rsum_delta' n i (fun j => eta * (x i * x j)) Hi). ring. }
    rewrite E. pose proof (ssq_nonneg n x). assert (0 <= eta * ssq n x) by (apply Rmult_le_pos; lra). lra.
  Qed.
  Lemma quad_two c a b : quad (S (S n)) K (fun i => if (i <? n)%nat then c i else if (i =? n)%nat then a else b)
    = quad n K c + 2 * rsum n (fun i => c i * (a * kv i + b * kw i)) + prior a b.
  Proof.
    set (z := fun i => if (i <? n)%nat then c i else if (i =? n)%nat then a else b).
    assert (Z1 : forall i, (i < n)%nat -> z i = c i) by (intros i Hi; unfold z; now rewrite (proj2 (Nat.ltb_lt i n) Hi)).
    assert (Z2 : z n = a) by (unfold z; now rewrite Nat.ltb_irrefl, Nat.eqb_refl).
    assert (Z3 : z (S n) = b) by (unfold z; rewrite (proj2 (Nat.ltb_ge (S n) n)) by lia; now rewrite (proj2 (Nat.eqb_neq (S n) n)) by lia).
    unfold quad. cbn [rsum]. rewrite Z2, Z3.
    assert (E1 : rsum n (fun i => rsum n (fun j => z i * z j * K i j) + z i * a * K i n + z i * b * K i (S n))
      = quad n K c + rsum n (fun i => c i * (a * kv i + b * kw i))).
    { unfold quad. rewrite <- rsum_plus. apply rsum_ext. intros i Hi. rewrite (rsum_ext n _ (fun j => c i * c j * K i j)) by (intros j Hj; now rewrite !Z1).
      rewrite Z1 by auto. unfold kv, kw. ring. }
    assert (E2 : forall r q, (r = n \/ r = S n) -> rsum n (fun j => q * z j * K r j) = q * rsum n (fun j => K j r * c j)).
    { intros r q Hr. rewrite <- rsum_scal_l. apply rsum_ext. intros j Hj. rewrite Z1, (Hs r j) by lia. ring. }
    rewrite E1, !E2 by auto. rewrite (Hs (S n) n) by lia.
    assert (E3 : rsum n (fun i => c i * (a * kv i + b * kw i)) = a * rsum n (fun j => K j n * c j) + b * rsum n (fun j => K j (S n) * c j)).
    { rewrite <- !rsum_scal_l, <- rsum_plus. apply rsum_ext. intros i Hi. unfold kv, kw. ring. }
    rewrite E3. fold (quad n K c). unfold prior. ring.
  Qed.

  Lemma post_form a b : 0 <= a * a * Vv + 2 * (a * b) * C + b * b * Vw <= prior a b.
  Proof.
    set (k := fun i => a * kv i + b * kw i).
    assert (E : a * a * Vv + 2 * (a * b) * C + b * b * Vw = prior a b - form k k).
    { unfold k. rewrite form_comb. unfold Vv, Vw, C, prior. ring. }
    rewrite E. pose proof (form_nonneg k). split; [|lra].
    pose proof (Hp (fun i => if (i <? n)%nat then - mvec n B k i else if (i =? n)%nat then a else b)) as P. cbv beta in P. rewrite quad_two in P.
    assert (E1 : quad n K (fun i => - mvec n B k i) = quad n K (mvec n B k)) by (apply rsum_ext; intros i Hi; apply rsum_ext; intros j Hj; ring).
    assert (E2 : rsum n (fun i => - mvec n B k i * (a * kv i + b * kw i)) = - form k k).
    { unfold form. rewrite <- rsum_opp. apply rsum_ext. intros i Hi. unfold mvec, k. ring. }
    rewrite E1, E2 in P. pose proof (quad_noisy (mvec n B k)) as Q. rewrite <- form_quad in Q. lra.
  Qed.
  (** the standard deviations differ by no more than the distance of the two points for the kernel *)
  Lemma sd_two : 0 < Vv -> 0 < Vw -> (sqrt Vv - sqrt Vw) * (sqrt Vv - sqrt Vw) <= K n n + K (S n) (S n) - 2 * K n (S n).
  Proof.
    intros Pv Pw. pose proof (sqrt_lt_R0 _ Pv) as Sv. pose proof (sqrt_lt_R0 _ Pw) as Sw.
    pose proof (sqrt_def Vv ltac:(lra)) as Ev. pose proof (sqrt_def Vw ltac:(lra)) as Ew. set (sv := sqrt Vv) in *. set (sw := sqrt Vw) in *.
    destruct (post_form sw (- sv)) as (P & _). destruct (post_form 1 (-1)) as (_ & Q).
    assert (Cb : C <= sv * sw).
    { assert (X : 0 < sv * sw) by now apply Rmult_lt_0_compat.
      apply Rmult_le_reg_l with (sv * sw); auto. rewrite <- Ev, <- Ew in P. clear - P. nra. }
    unfold prior in Q. clear - Cb Ev Ew Q. nra.
  Qed.
End Two.

(** the kernel as a function of its second argument *)
Lemma kernel_two c a b k1 k2 K : 0 < c -> (forall x, quad 3 K x >= 0) -> K 0%nat 0%nat = c -> K 1%nat 1%nat = a -> K 2%nat 2%nat = b -> K 0%nat 1%nat = k1 -> K 1%nat 0%nat = k1 ->
  K 0%nat 2%nat = k2 -> K 2%nat 0%nat = k2 -> K 1%nat 2%nat = K 2%nat 1%nat -> (k1 - k2) * (k1 - k2) <= c * (a + b - 2 * K 1%nat 2%nat).
Proof.
  intros Hc H E00 E11 E22 E01 E10 E02 E20 E12. pose proof (H (fun i => match i with 0%nat => - (k1 - k2) / c | 1%nat => 1 | _ => -1 end)) as P.
  unfold quad in P. cbn [rsum] in P. rewrite E00, E11, E22, E01, E10, E02, E20, <- E12 in P. set (e := K 1%nat 2%nat) in *. set (d := k1 - k2) in *.
  assert (Q : 0 <= - (d * d) / c + (a + b - 2 * e)).
  { apply Rge_le in P. eapply Rle_trans; [exact P|]. right. unfold d. field. lra. }
  apply Rmult_le_reg_l with (/ c); [now apply Rinv_0_lt_compat|]. replace (/ c * (c * (a + b - 2 * e))) with (a + b - 2 * e) by (field; lra).
  replace (- (d * d) / c) with (- (/ c * (d * d))) in Q by (field; lra). lra.
Qed.
