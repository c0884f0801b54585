(** C66: the declared solutions of the benchmark functions, and [Benchmark::accuracy] *)
From Coq Require Import Reals List Lra Lia Machin Ratan.
From Verif Require Import LinAlgModel KernelModel BenchModel.
Import ListNotations.
Open Scope R_scope.

(** * Specification, independent of the code *)
(** a point of the unit box that the optimizers search *)
Definition in_box (n : nat) (x : vec) : Prop := length x = n /\ forall i, (i < n)%nat -> 0 <= vget x i <= 1.
(** [x] is a global minimiser of [f] on the unit box *)
Definition minimiser (n : nat) (f : vec -> R) (x : vec) : Prop := in_box n x /\ forall y, in_box n y -> f x <= f y.
(** [M] is the maximum over the unit box of what the optimizer is given to maximise *)
Definition max_value (n : nat) (g : vec -> R) (M : R) : Prop :=
  (exists x, in_box n x /\ g x = M) /\ forall y, in_box n y -> g y <= M.

(** * Helpers *)
Lemma vec2 : forall x : vec, length x = 2%nat -> x = [vget x 0; vget x 1].
Proof. intros [|a [|b [|]]] H; try discriminate. reflexivity. Qed.
Lemma vec4 : forall x : vec, length x = 4%nat -> x = [vget x 0; vget x 1; vget x 2; vget x 3].
Proof. intros [|a [|b [|c [|d [|]]]]] H; try discriminate. reflexivity. Qed.
Lemma box2 : forall a b, 0 <= a <= 1 -> 0 <= b <= 1 -> in_box 2 [a; b].
Proof. intros a b Ha Hb. split; [reflexivity|]. intros [|[|i]] Hi; simpl; auto; lia. Qed.

(** sphere *)
Lemma sphere_min : forall x, length x = 2%nat -> 0 <= b_f sphere x /\ (b_f sphere x = 0 <-> x = [0.5; 0.5]).
Proof.
  intros x Hx. cbn [b_f sphere]. unfold sqr.
  pose proof (Rle_0_sqr (vget x 0 - 0.5)) as Qa. pose proof (Rle_0_sqr (vget x 1 - 0.5)) as Qb. unfold Rsqr in *. split; [lra|]. split; intro H.
  - rewrite (vec2 x Hx). assert (vget x 0 - 0.5 = 0) by (apply Rsqr_0_uniq; unfold Rsqr; lra). assert (vget x 1 - 0.5 = 0) by (apply Rsqr_0_uniq; unfold Rsqr; lra).
    f_equal; [lra|]. f_equal. lra.
  - subst x. cbn [vget nth]. lra.
Qed.

(** ellipsoid *)
Lemma t_osz_0 : t_osz 0 = 0.
Proof. unfold t_osz, sign. destruct (Rlt_dec 0 0); [lra|]. ring. Qed.
Lemma t_osz_pos : forall x, x <> 0 -> 0 < t_osz x * t_osz x.
Proof.
  intros x Hx. apply Rlt_0_sqr. unfold t_osz, sign. apply Rmult_integral_contrapositive_currified; [|apply Rgt_not_eq, exp_pos].
  destruct Rlt_dec; [lra|]. destruct Rlt_dec; lra.
Qed.
Lemma ellipsoid_min : forall x, length x = 2%nat -> 2 <= b_f ellipsoid x /\ (b_f ellipsoid x = 2 <-> x = [0.5; 0.5]).
Proof.
  intros x Hx. cbn [b_f ellipsoid rsum]. cbv zeta.
  assert (H : forall a, 0 <= t_osz a * t_osz a) by (intro; nra).
  pose proof (H (vget x 0 - 0.5)) as H0. pose proof (H (vget x 1 - 0.5)) as H1. split; [simpl pow; lra|]. split; intro E.
  - rewrite (vec2 x Hx). simpl pow in E.
    assert (vget x 0 = 0.5). { destruct (Req_dec (vget x 0 - 0.5) 0); [lra|]. pose proof (t_osz_pos _ H2). lra. }
    assert (vget x 1 = 0.5). { destruct (Req_dec (vget x 1 - 0.5) 0); [lra|]. pose proof (t_osz_pos _ H3). lra. }
    congruence.
  - subst x. cbn [vget nth]. replace (0.5 - 0.5) with 0 by lra. rewrite t_osz_0. lra.
Qed.

(** Rastrigin *)
Lemma rastrigin_min : forall x, length x = 4%nat -> 0 <= b_f rastrigin x /\ (b_f rastrigin x = 0 <-> In x (b_sols rastrigin)).
Proof.
  intros x Hx. cbn [b_f b_sols rastrigin rsum]. cbv zeta. replace (INR 4) with 4 by (simpl; lra).
  pose proof (fun i => COS_bound (2 * PI * (2 * vget x i - 1))) as H.
  pose proof (H 0%nat); pose proof (H 1%nat); pose proof (H 2%nat); pose proof (H 3%nat).
  pose proof (fun i => Rle_0_sqr (2 * vget x i - 1)) as Q. unfold Rsqr in Q.
  pose proof (Q 0%nat); pose proof (Q 1%nat); pose proof (Q 2%nat); pose proof (Q 3%nat).
  split; [lra|]. split; intro E.
  - left. rewrite (vec4 x Hx). replace ((0 + 1) / 2) with (/ 2) by lra.
    assert (Z : forall a, (2 * a - 1) * (2 * a - 1) <= 0 -> / 2 = a) by (intros; nra).
    rewrite <- (Z (vget x 0)) by lra. rewrite <- (Z (vget x 1)) by lra. rewrite <- (Z (vget x 2)) by lra. rewrite <- (Z (vget x 3)) by lra. reflexivity.
  - destruct E as [E|[]]. subst x. cbn [vget nth]. replace (2 * ((0 + 1) / 2) - 1) with 0 by lra. replace (2 * PI * 0) with 0 by ring. rewrite cos_0. lra.
Qed.

(** Goldstein-Price *)
Lemma goldstein_facts : forall x y, 3 <= goldstein_r x y /\ (goldstein_r x y = 3 <-> x = 0 /\ y = -1).
Proof.
  intros x y. unfold goldstein_r, sqr. set (s := x + y). set (t := 2 * x - 3 * y).
  replace (1 + _) with (1 + (s + 1) * (s + 1) * (3 * s * s - 14 * s + 19)) by (unfold s; ring).
  replace (30 + _) with (3 + (t - 3) * (t - 3) * (3 * t * t + 2 * t + 3)) by (unfold t; ring).
  assert (P1 : 0 < 3 * s * s - 14 * s + 19) by (pose proof (Rle_0_sqr (3 * s - 7)) as Q; unfold Rsqr in Q; lra).
  assert (P2 : 0 < 3 * t * t + 2 * t + 3) by (pose proof (Rle_0_sqr (3 * t + 1)) as Q; unfold Rsqr in Q; lra).
  assert (A1 : 0 <= (s + 1) * (s + 1)) by apply Rle_0_sqr. assert (A2 : 0 <= (t - 3) * (t - 3)) by apply Rle_0_sqr.
  pose proof (Rmult_le_pos _ _ A1 (Rlt_le _ _ P1)) as B1. pose proof (Rmult_le_pos _ _ A2 (Rlt_le _ _ P2)) as B2.
  set (u := (s + 1) * (s + 1) * (3 * s * s - 14 * s + 19)) in *. set (v := (t - 3) * (t - 3) * (3 * t * t + 2 * t + 3)) in *.
  pose proof (Rmult_le_pos _ _ B1 B2). split; [nra|]. split.
  - intro E. assert (u = 0) by nra. assert (v = 0) by nra.
    assert (E1 : s + 1 = 0). { destruct (Rmult_integral _ _ H0) as [K|K]; [|lra]. nra. }
    assert (E2 : t - 3 = 0). { destruct (Rmult_integral _ _ H1) as [K|K]; [|lra]. nra. }
    unfold s, t in *. split; lra.
  - intros [-> ->]. unfold u, v, s, t. lra.
Qed.
Lemma goldstein_min : forall x, length x = 2%nat ->
  (ln 3 - 8.693) / 2.427 <= b_f goldstein_price x /\ (b_f goldstein_price x = (ln 3 - 8.693) / 2.427 <-> x = [0.5; 0.25]).
Proof.
  intros x Hx. cbn [b_f goldstein_price]. destruct (goldstein_facts (4 * vget x 0 - 2) (4 * vget x 1 - 2)) as [G Q].
  set (r := goldstein_r _ _) in *. assert (ln 3 <= ln r) by (destruct G as [G|G]; [left; apply ln_increasing; lra|rewrite G; apply Rle_refl]). split; [lra|]. rewrite (vec2 x Hx). split; intro K.
  - assert (ln r = ln 3) by lra. apply ln_inv in H0; [|lra|lra]. apply Q in H0. destruct H0. assert (vget x 0 = 0.5) by lra. assert (vget x 1 = 0.25) by lra. congruence.
  - injection K as K0 K1. assert (r = 3) by (apply Q; lra). rewrite H0. reflexivity.
Qed.

(** Branin *)
Lemma pi_bounds : 3.14159265 < PI < 3.14159266.
Proof.
  pose proof (PI_2_3_7_ineq 4) as [H1 H2]. unfold PI_2_3_7_tg, tg_alt, Ratan_seq in *.
  cbn [sum_f_R0 Nat.mul Nat.add pow] in *. simpl INR in *. split; lra.
Qed.
Lemma inv_pi : 0.3183 < / PI < 0.3184.
Proof. pose proof pi_bounds. pose proof (Rinv_r PI PI_neq0). split; nra. Qed.
Definition cb := 10 - 10 / (8 * PI).
Lemma cb_bounds : 9 < cb < 10.
Proof. unfold cb. pose proof inv_pi. assert (Q : 10 / (8 * PI) = 5 / 4 * / PI) by (field; apply PI_neq0). rewrite Q. lra. Qed.
Definition bmin := (- cb - 44.81) / 51.95.
Lemma branin_lower : forall x, bmin <= b_f branin x.
Proof.
  intro x. cbn [b_f branin]. cbv zeta. fold cb. pose proof cb_bounds. destruct (COS_bound (vget x 0 * 15 - 5)) as [C _].
  assert (0 <= sqr (vget x 1 * 15 - 5.1 * sqr (vget x 0 * 15 - 5) / (4 * sqr PI) + 5 * (vget x 0 * 15 - 5) / PI - 6)) by apply Rle_0_sqr.
  unfold bmin. nra.
Qed.
(** the shape of the function around its valley *)
Lemma branin_at : forall x1 x2, b_f branin [(x1 + 5) / 15; x2 / 15]
  = (Rsqr (x2 - 51 / 10 * x1 * x1 / (4 * PI * PI) + 5 * x1 / PI - 6) + cb * cos x1 - 44.81) / 51.95.
Proof.
  intros x1 x2. cbn [b_f branin]. cbv zeta. cbn [vget nth]. replace ((x1 + 5) / 15 * 15 - 5) with x1 by lra. replace (x2 / 15 * 15) with x2 by lra.
  unfold cb, sqr, Rsqr. replace 5.1 with (51 / 10) by lra. pose proof PI_neq0. f_equal. f_equal. f_equal. f_equal; field; assumption.
Qed.
Lemma cos_m1 : forall x, cos x = -1 -> exists k : Z, x = PI + 2 * IZR k * PI.
Proof.
  intros x H. assert (K : cos (x - PI) = 1) by (rewrite cos_minus, cos_PI, sin_PI; lra).
  assert (S0 : sin ((x - PI) / 2) = 0). { assert (Q := cos_2a_sin ((x - PI) / 2)). replace (2 * ((x - PI) / 2)) with (x - PI) in Q by lra. nra. }
  destruct (sin_eq_0_0 _ S0) as [k Hk]. exists k. lra.
Qed.
Lemma branin_eq : forall x, length x = 2%nat -> in_box 2 x ->
  (b_f branin x = bmin <-> In x [[(- PI + 5) / 15; 12.275 / 15]; [(PI + 5) / 15; 2.275 / 15]; [(3 * PI + 5) / 15; 2.475 / 15]]).
Proof.
  intros x Hx [_ B]. pose proof pi_bounds as HP. pose proof PI_neq0 as NP. split; intro E.
  - set (x1 := vget x 0 * 15 - 5). set (x2 := vget x 1 * 15).
    assert (X : x = [(x1 + 5) / 15; x2 / 15]). { rewrite (vec2 x Hx). unfold x1, x2. f_equal; [lra|]. f_equal. lra. }
    rewrite X in E |- *. rewrite branin_at in E. unfold bmin in E. pose proof cb_bounds. destruct (COS_bound x1) as [C _].
    set (w := x2 - 51 / 10 * x1 * x1 / (4 * PI * PI) + 5 * x1 / PI - 6) in *. pose proof (Rle_0_sqr w).
    assert (Ec : cos x1 = -1) by nra. assert (Ew : w = 0) by (apply Rsqr_0_uniq; nra).
    destruct (cos_m1 x1 Ec) as [k Hk]. assert (B0 := B 0%nat ltac:(lia)).
    assert (R1 : -5 <= x1 <= 10) by (unfold x1; lra).
    assert (K : (k = -1 \/ k = 0 \/ k = 1)%Z).
    { assert (-2 < IZR k) by nra. assert (IZR k < 2) by nra. apply lt_IZR in H1. apply lt_IZR in H2. lia. }
    unfold w in Ew. destruct K as [-> | [-> | ->]].
    + left. replace x1 with (- PI) in Ew |- * by lra. assert (x2 = 12.275); [|congruence].
      replace (51 / 10 * - PI * - PI / (4 * PI * PI)) with (51 / 40) in Ew by (field; assumption). replace (5 * - PI / PI) with (-5) in Ew by (field; assumption). lra.
    + right; left. replace x1 with PI in Ew |- * by lra. assert (x2 = 2.275); [|congruence].
      replace (51 / 10 * PI * PI / (4 * PI * PI)) with (51 / 40) in Ew by (field; assumption). replace (5 * PI / PI) with 5 in Ew by (field; assumption). lra.
    + right; right; left. replace x1 with (3 * PI) in Ew |- * by lra. assert (x2 = 2.475); [|congruence].
      replace (51 / 10 * (3 * PI) * (3 * PI) / (4 * PI * PI)) with (459 / 40) in Ew by (field; assumption). replace (5 * (3 * PI) / PI) with 15 in Ew by (field; assumption). lra.
  - assert (C3 : cos (3 * PI) = -1). { replace (3 * PI) with (PI + 2 * INR 1 * PI) by (simpl; ring). rewrite cos_period. apply cos_PI. }
    destruct E as [<- | [<- | [<- | []]]]; rewrite branin_at.
    + rewrite cos_neg, cos_PI. unfold bmin. replace (12.275 - _ + _ - 6) with 0 by (replace 12.275 with (491 / 40) by lra; field; assumption). unfold Rsqr. lra.
    + rewrite cos_PI. unfold bmin. replace (2.275 - _ + _ - 6) with 0 by (replace 2.275 with (91 / 40) by lra; field; assumption). unfold Rsqr. lra.
    + rewrite C3. unfold bmin. replace (2.475 - _ + _ - 6) with 0 by (replace 2.475 with (99 / 40) by lra; field; assumption). unfold Rsqr. lra.
Qed.
(** the third declared row *)
Definition row3 : vec := [(9.42478 + 5) / 15; 2.475 / 15].
Lemma row3_near : bmin < b_f branin row3 <= bmin + 1e-10.
Proof.
  pose proof pi_bounds as HP. pose proof inv_pi as HI. split.
  - destruct (branin_lower row3) as [L|L]; [exact L|]. exfalso. symmetry in L. apply branin_eq in L; [|reflexivity|apply box2; lra].
    destruct L as [L | [L | [L | []]]]; injection L; intros; lra.
  - unfold row3. rewrite branin_at. pose proof cb_bounds. set (e := 9.42478 - 3 * PI). assert (He : -1e-5 <= e <= 1e-5) by (unfold e; lra).
    replace 9.42478 with (3 * PI + e) by (unfold e; lra).
    replace (2.475 - _ + _ - 6) with (e * / PI * (- (53 / 20) - 51 / 40 * (e * / PI))) by (replace 2.475 with (99 / 40) by lra; field; apply PI_neq0).
    assert (C : -1 + e * e / 2 >= cos (3 * PI + e)).
    { replace (3 * PI + e) with (e + PI + 2 * INR 1 * PI) by (simpl; ring). rewrite cos_period, neg_cos.
      assert (Q := cos_2a_sin (e / 2)). replace (2 * (e / 2)) with e in Q by lra.
      assert (Hs : Rabs (sin (e / 2)) <= Rabs (e / 2)).
      { unfold Rabs at 2. destruct Rcase_abs as [N|N].
        - assert (0 < - (e / 2)) by lra. pose proof (sin_lt_x _ H0) as U. assert (0 <= sin (- (e / 2))) by (apply sin_ge_0; lra). rewrite sin_neg in *. rewrite Rabs_left1; lra.
        - destruct N as [N|N]; [|rewrite N, sin_0, Rabs_R0; lra]. pose proof (sin_lt_x _ N). assert (0 <= sin (e / 2)) by (apply sin_ge_0; lra). rewrite Rabs_right; lra. }
      apply Rsqr_le_abs_1 in Hs. unfold Rsqr in Hs. lra. }
    assert (Hp : -4e-6 <= e * / PI <= 4e-6) by (split; nra). set (p := e * / PI) in *. unfold Rsqr, bmin.
    assert (0 <= e * e <= 1e-10) by nra. assert (0 <= p * p <= 1.6e-11) by nra.
    assert (W : p * (- (53 / 20) - 51 / 40 * p) * (p * (- (53 / 20) - 51 / 40 * p)) <= 1.6e-11 * 9).
    { replace (p * (- (53 / 20) - 51 / 40 * p) * (p * (- (53 / 20) - 51 / 40 * p))) with (p * p * ((- (53 / 20) - 51 / 40 * p) * (- (53 / 20) - 51 / 40 * p))) by ring.
      apply Rmult_le_compat; nra. }
    assert (cb * cos (3 * PI + e) <= - cb + 5 * 1e-10) by nra. lra.
Qed.

(** six-hump camel *)
Definition camel (x y : R) : R := (4 - 2.1 * (x * x) + x * x * (x * x) / 3) * (x * x) + x * y + (-4 + 4 * (y * y)) * (y * y).
Lemma camel_f : forall x, b_f six_hump_camel x = camel (-3 + 6 * vget x 0) (-2 + 4 * vget x 1).
Proof. reflexivity. Qed.
(** a lower bound for each [x], by duality in [y * y] *)
Lemma camel_dual : forall x y u, u * u = x * x -> 0 < u -> let k := 0.0877 in
  camel x y >= u ^ 6 / 3 - 2.1 * u ^ 4 + (4 - 4 * (k * k)) * u ^ 2 - (4 * k + / (32 * k)) * u - 1.
Proof.
  intros x y u Hu Pu k. unfold camel. rewrite <- Hu.
  assert (A : 4 * (y * y) * (y * y) - 4 * (y * y) >= 8 * (k * u) * (y * y) - 4 * (1 / 2 + k * u) * (1 / 2 + k * u)).
  { pose proof (Rle_0_sqr (y * y - (1 / 2 + k * u))). unfold Rsqr in *. lra. }
  assert (B : 8 * (k * u) * (y * y) + x * y >= - u * / (32 * k)).
  { assert (Hk : k = 0.0877) by reflexivity. pose proof (Rle_0_sqr (16 * k * u * y + x)) as Q. unfold Rsqr in Q.
    assert (0 < 32 * k * u) by nra.
    assert ((32 * k * u) * (8 * (k * u) * (y * y) + x * y) >= - (x * x)) by nra.
    assert ((32 * k * u) * (- u * / (32 * k)) = - (x * x)) by (rewrite <- Hu; field; lra).
    apply Rle_ge. apply (Rmult_le_reg_l (32 * k * u)); lra. }
  simpl pow. nra.
Qed.
Lemma camel_poly : forall u, 0 <= u ->
  u ^ 6 / 3 - 2.1 * u ^ 4 + (4 - 4 * (0.0877 * 0.0877)) * u ^ 2 - (4 * 0.0877 + / (32 * 0.0877)) * u - 1 >= -1.03162850.
Proof.
  intros u Hu. set (d := u - 0.08984).
  set (q := (1 / 3) * (u * u * u * u) + (1123 / 18750) * (u * u * u) + (-326863871 / 156250000) * (u * u) + (-551310314633 / 1464843750000) * u + (57399824607292141 / 14648437500000000)).
  assert (Hq : 0.2 <= q).
  { pose proof (Rle_0_sqr (u * u + 0.08984 * u - 3.22)) as H1. pose proof (Rle_0_sqr (u - 1.8)) as H2. pose proof (Rle_0_sqr u) as H4. unfold Rsqr in *. unfold q. lra. }
  assert (Hd : 0 <= d * d) by apply Rle_0_sqr. pose proof (Rmult_le_compat_l _ _ _ Hd Hq) as H.
  replace (u ^ 6 / 3 - 2.1 * u ^ 4 + (4 - 4 * (0.0877 * 0.0877)) * u ^ 2 - (4 * 0.0877 + / (32 * 0.0877)) * u - 1)
    with (d * d * q + (-2083547430375551189 / 133819580078125000000000) * d + (466954548103537264753 / 10036468505859375000000000000) - 1.0316285) by (unfold d, q; simpl pow; lra).
  pose proof (Rle_0_sqr (d - (2083547430375551189 / 53527832031250000000000))) as H3. unfold Rsqr in H3. lra.
Qed.

Lemma camel_lower : forall x y, -1.0316285 <= camel x y.
Proof.
  intros x y. destruct (Req_dec x 0) as [->|N].
  - unfold camel. pose proof (Rle_0_sqr (y * y - 1 / 2)) as Q. unfold Rsqr in Q. lra.
  - assert (P := Rabs_pos_lt x N). assert (U : Rabs x * Rabs x = x * x) by (rewrite <- Rabs_mult; apply Rabs_pos_eq, Rle_0_sqr).
    pose proof (camel_dual x y (Rabs x) U P) as H. cbv zeta in H. pose proof (camel_poly (Rabs x) (Rlt_le _ _ P)). lra.
Qed.
Lemma camel_sols : forall s, In s (b_sols six_hump_camel) -> -1.0316285 < b_f six_hump_camel s < -1.0316284.
Proof.
  intros s H. rewrite camel_f. destruct H as [<-|[<-|[]]]; cbn [vget nth]; unfold camel.
  - replace (-3 + 6 * ((0.0898 + 3) / 6)) with 0.0898 by lra. replace (-2 + 4 * ((-0.7126 + 2) / 4)) with (-0.7126) by lra. lra.
  - replace (-3 + 6 * ((-0.0898 + 3) / 6)) with (-0.0898) by lra. replace (-2 + 4 * ((0.7126 + 2) / 4)) with 0.7126 by lra. lra.
Qed.

(** * C66 *)
(** Sphere, Ellipsoid, Rastrigin, Goldstein-Price: the declared solutions are exactly the global minimisers *)
Definition exact : list bench := [sphere; ellipsoid; rastrigin; goldstein_price].
Lemma exact_min : forall b, In b exact -> exists m, forall x, length x = b_dim b -> m <= b_f b x /\ (b_f b x = m <-> In x (b_sols b)).
Proof.
  intros b [<-|[<-|[<-|[<-|[]]]]]; [exists 0|exists 2|exists 0|exists ((ln 3 - 8.693) / 2.427)]; intros x Hx.
  - destruct (sphere_min x Hx) as [A B]. split; [exact A|]. rewrite B. simpl. intuition congruence.
  - destruct (ellipsoid_min x Hx) as [A B]. split; [exact A|]. rewrite B. simpl. intuition congruence.
  - exact (rastrigin_min x Hx).
  - destruct (goldstein_min x Hx) as [A B]. split; [exact A|]. rewrite B. simpl. intuition congruence.
Qed.
Lemma exact_sols : forall b s, In b exact -> In s (b_sols b) -> in_box (b_dim b) s.
Proof.
  intros b s [<-|[<-|[<-|[<-|[]]]]] [<-|[]]; try (apply box2; lra). split; [reflexivity|]. intros [|[|[|[|i]]]] Hi; cbn [vget nth]; try lra. simpl in Hi. lia.
Qed.
Lemma exact_nonempty : forall b, In b exact -> exists s, b_sols b = [s].
Proof. intros b [<-|[<-|[<-|[<-|[]]]]]; eexists; reflexivity. Qed.

Theorem C66_solutions : forall b, In b exact ->
  (forall x, minimiser (b_dim b) (b_f b) x <-> In x (b_sols b))
  /\ (forall s y, In s (b_sols b) -> length y = b_dim b -> b_f b s <= b_f b y).
Proof.
  intros b Hb. destruct (exact_min b Hb) as [m Hm]. destruct (exact_nonempty b Hb) as [s Hs].
  assert (Is : In s (b_sols b)) by (rewrite Hs; now left). pose proof (exact_sols b s Hb Is) as [Ls Bs].
  split.
  - intro x. split.
    + intros [[Lx Bx] Mx]. apply (Hm x Lx). apply Rle_antisym; [|apply (Hm x Lx)].
      pose proof (proj2 (proj2 (Hm s Ls)) Is) as Es. rewrite <- Es. apply Mx. now split.
    + intro I. pose proof (exact_sols b x Hb I) as Bx. split; [exact Bx|]. intros y [Ly _].
      rewrite (proj2 (proj2 (Hm x (proj1 Bx))) I). apply (Hm y Ly).
  - intros s' y I Ly. pose proof (exact_sols b s' Hb I) as [Ls' _]. rewrite (proj2 (proj2 (Hm s' Ls')) I). apply (Hm y Ly).
Qed.

(** [accuracy] of a value is the gap to the optimum *)
Theorem C66_accuracy : forall b M v, In b exact -> max_value (b_dim b) (benchmark b) M -> v <= M -> accuracy b v = Some (M - v).
Proof.
  intros b M v Hb [[x [Bx Ex]] Hmax] Hv. destruct (exact_min b Hb) as [m Hm]. destruct (exact_nonempty b Hb) as [s Hs].
  assert (Is : In s (b_sols b)) by (rewrite Hs; now left). pose proof (exact_sols b s Hb Is) as Bs.
  pose proof (proj2 (proj2 (Hm s (proj1 Bs))) Is) as Es. pose proof (Hmax s Bs) as Hs'. unfold benchmark in *.
  pose proof (proj1 (Hm x (proj1 Bx))). unfold accuracy. rewrite Hs. cbn [fold_left]. f_equal. rewrite Es in *. rewrite Rabs_left1; lra.
Qed.

(** Branin: two of the three rows are minimisers, the third declared one is the rounding of the third minimiser *)
Theorem C66_branin_partial :
  (forall x, minimiser 2 (b_f branin) x <-> In x [[(- PI + 5) / 15; 12.275 / 15]; [(PI + 5) / 15; 2.275 / 15]; [(3 * PI + 5) / 15; 2.475 / 15]])
  /\ (forall M v, max_value 2 (benchmark branin) M -> v <= M -> exists a, accuracy branin v = Some a /\ M - v - 1e-10 <= a <= M - v).
Proof.
  pose proof pi_bounds as HP. set (l := [_; _; _]).
  assert (Bl : forall x, In x l -> in_box 2 x). { intros x [<-|[<-|[<-|[]]]]; apply box2; lra. }
  assert (I1 : In [(- PI + 5) / 15; 12.275 / 15] l) by now left. assert (I2 : In [(PI + 5) / 15; 2.275 / 15] l) by now right; left.
  assert (Eq : forall x, In x l -> b_f branin x = bmin). { intros x I. apply branin_eq; [apply (Bl x I)|apply (Bl x I)|exact I]. }
  split.
  - intro x. split.
    + intros [Bx Mx]. apply branin_eq; [apply Bx|exact Bx|]. apply Rle_antisym; [|apply branin_lower]. rewrite <- (Eq _ I1). apply Mx. apply (Bl _ I1).
    + intro I. split; [now apply Bl|]. intros y _. rewrite (Eq x I). apply branin_lower.
  - intros M v [[x [Bx Ex]] Hmax] Hv. pose proof (Hmax _ (Bl _ I1)) as H1. unfold benchmark in *. rewrite (Eq _ I1) in H1. pose proof (branin_lower x).
    unfold accuracy. cbn [b_sols branin fold_left]. eexists. split; [reflexivity|].
    rewrite (Eq _ I1), (Eq _ I2). pose proof row3_near as R3. fold row3. cbv zeta. rewrite (Rabs_left1 (v + bmin)) by lra.
    destruct (Rlt_dec (- (v + bmin)) (- (v + bmin))); [lra|]. unfold Rabs. destruct Rcase_abs; destruct Rlt_dec; lra.
Qed.
(** ... so a value that is not optimal has accuracy 0 *)
Theorem C66_branin_refuted : exists x, in_box 2 x /\ ~ minimiser 2 (b_f branin) x /\ In x (b_sols branin) /\ accuracy branin (benchmark branin x) = Some 0.
Proof.
  exists row3. pose proof row3_near as R3. pose proof pi_bounds as HP. split; [apply box2; lra|]. split; [|split; [right; right; now left|]].
  - intros [_ H]. assert (B : in_box 2 [(PI + 5) / 15; 2.275 / 15]) by (apply box2; lra). specialize (H _ B).
    assert (b_f branin [(PI + 5) / 15; 2.275 / 15] = bmin); [|lra]. apply branin_eq; [reflexivity|exact B|right; now left].
  - unfold accuracy, benchmark. cbn [b_sols branin fold_left]. cbv zeta. fold row3. replace (- b_f branin row3 + b_f branin row3) with 0 by ring.
    rewrite Rabs_R0. f_equal. assert (Z : forall t, 0 <= t -> (if Rlt_dec 0 t then 0 else t) = 0) by (intros t Ht; destruct Rlt_dec; lra).
    apply Z. destruct Rlt_dec; apply Rabs_pos.
Qed.

(** Six-hump camel: the declared points reach the minimum up to 1e-7, and accuracy is right up to that *)
Theorem C66_camel_partial :
  (forall s y, In s (b_sols six_hump_camel) -> length y = 2%nat -> b_f six_hump_camel s - 1e-7 <= b_f six_hump_camel y)
  /\ (forall x, in_box 2 x -> exists a, accuracy six_hump_camel (benchmark six_hump_camel x) = Some a
        /\ (forall y, in_box 2 y -> b_f six_hump_camel x - b_f six_hump_camel y - 1e-7 <= a)
        /\ (exists y, in_box 2 y /\ a <= b_f six_hump_camel x - b_f six_hump_camel y + 1e-7)).
Proof.
  split.
  - intros s y I _. pose proof (camel_sols s I). pose proof (camel_lower (-3 + 6 * vget y 0) (-2 + 4 * vget y 1)) as L. rewrite <- camel_f in L. lra.
  - intros x Bx. pose proof (camel_lower (-3 + 6 * vget x 0) (-2 + 4 * vget x 1)) as L. rewrite <- camel_f in L.
    set (s1 := [(0.0898 + 3) / 6; (-0.7126 + 2) / 4]). set (s2 := [(-0.0898 + 3) / 6; (0.7126 + 2) / 4]).
    pose proof (camel_sols s1 (or_introl eq_refl)) as H1. pose proof (camel_sols s2 (or_intror (or_introl eq_refl))) as H2.
    unfold accuracy, benchmark. cbn [b_sols six_hump_camel fold_left]. fold s1 s2. cbv zeta. eexists. split; [reflexivity|]. split.
    + intros y _. pose proof (camel_lower (-3 + 6 * vget y 0) (-2 + 4 * vget y 1)) as Ly. rewrite <- camel_f in Ly.
      pose proof (Rle_abs (- (- b_f six_hump_camel x + b_f six_hump_camel s1))). pose proof (Rle_abs (- (- b_f six_hump_camel x + b_f six_hump_camel s2))).
      rewrite Rabs_Ropp in *. destruct Rlt_dec; lra.
    + assert (B1 : in_box 2 s1) by (apply box2; lra).
      assert (A : (if Rlt_dec (Rabs (- b_f six_hump_camel x + b_f six_hump_camel s2)) (Rabs (- b_f six_hump_camel x + b_f six_hump_camel s1))
                   then Rabs (- b_f six_hump_camel x + b_f six_hump_camel s2) else Rabs (- b_f six_hump_camel x + b_f six_hump_camel s1))
                  <= Rabs (- b_f six_hump_camel x + b_f six_hump_camel s1)) by (destruct Rlt_dec; lra).
      destruct (Rle_dec (b_f six_hump_camel s1) (b_f six_hump_camel x)).
      * exists s1. split; [exact B1|]. rewrite (Rabs_left1 (- b_f six_hump_camel x + b_f six_hump_camel s1)) in * by lra. lra.
      * exists x. split; [exact Bx|]. rewrite (Rabs_right (- b_f six_hump_camel x + b_f six_hump_camel s1)) in * by lra. lra.
Qed.
(** ... but they are not minimisers, so a point better than all of them is reported as less accurate than they are *)
Theorem C66_camel_refuted : exists x, in_box 2 x /\ (forall s, In s (b_sols six_hump_camel) -> b_f six_hump_camel x < b_f six_hump_camel s)
  /\ (forall s, In s (b_sols six_hump_camel) -> accuracy six_hump_camel (benchmark six_hump_camel s) = Some 0)
  /\ exists a, accuracy six_hump_camel (benchmark six_hump_camel x) = Some a /\ 0 < a.
Proof.
  exists [(0.08984 + 3) / 6; (-0.712656 + 2) / 4].
  set (x := [_; _]). set (s1 := [(0.0898 + 3) / 6; (-0.7126 + 2) / 4]). set (s2 := [(-0.0898 + 3) / 6; (0.7126 + 2) / 4]).
  assert (E1 : b_f six_hump_camel s1 = camel 0.0898 (-0.7126)) by (rewrite camel_f; unfold s1; cbn [vget nth]; f_equal; lra).
  assert (E2 : b_f six_hump_camel s2 = camel 0.0898 (-0.7126)).
  { rewrite camel_f; unfold s2; cbn [vget nth]. replace (-3 + _) with (-0.0898) by lra. replace (-2 + _) with 0.7126 by lra. unfold camel. lra. }
  assert (Ex : b_f six_hump_camel x < camel 0.0898 (-0.7126)).
  { rewrite camel_f; unfold x; cbn [vget nth]. replace (-3 + _) with 0.08984 by lra. replace (-2 + _) with (-0.712656) by lra. unfold camel. lra. }
  split; [apply box2; lra|]. split; [|split].
  - intros s [<-|[<-|[]]]; fold s1 s2; lra.
  - intros s I. assert (Es : b_f six_hump_camel s = camel 0.0898 (-0.7126)) by (destruct I as [<-|[<-|[]]]; assumption).
    unfold accuracy, benchmark. cbn [b_sols six_hump_camel fold_left]. fold s1 s2. cbv zeta. rewrite Es, E1, E2.
    replace (- camel 0.0898 (-0.7126) + camel 0.0898 (-0.7126)) with 0 by ring. rewrite Rabs_R0. destruct Rlt_dec; reflexivity.
  - eexists. unfold accuracy, benchmark. cbn [b_sols six_hump_camel fold_left]. fold s1 s2. cbv zeta. split; [reflexivity|].
    rewrite E1, E2. destruct Rlt_dec; apply Rabs_pos_lt, Rgt_not_eq; lra.
Qed.

(** The hypotheses can be met: the optimum exists, and accuracy of a value away from it is positive *)
Example C66_nonvacuous : max_value 2 (benchmark sphere) 0 /\ accuracy sphere (benchmark sphere [1; 0.5]) = Some 0.25
  /\ In rastrigin exact /\ (exists x, minimiser 4 (b_f rastrigin) x) /\ exists M, max_value 2 (benchmark branin) M.
Proof.
  assert (M : max_value 2 (benchmark sphere) 0).
  { split.
    - exists [0.5; 0.5]. split; [apply box2; lra|]. unfold benchmark. rewrite (proj2 (proj2 (sphere_min [0.5; 0.5] eq_refl)) eq_refl). lra.
    - intros y [Ly _]. unfold benchmark. pose proof (proj1 (sphere_min y Ly)). lra. }
  split; [exact M|]. split; [|split; [|split]].
  - rewrite (C66_accuracy sphere 0 _ (or_introl eq_refl) M); unfold benchmark; cbn [b_f sphere vget nth]; unfold sqr; [f_equal|]; lra.
  - simpl. tauto.
  - eexists. apply (C66_solutions rastrigin); [simpl; tauto|]. now left.
  - destruct (proj2 (proj1 C66_branin_partial _) (or_introl eq_refl)) as [B H]. eexists. split; [eexists; split; [exact B|reflexivity]|].
    intros y Hy. unfold benchmark. apply Ropp_le_contravar. now apply H.
Qed.
