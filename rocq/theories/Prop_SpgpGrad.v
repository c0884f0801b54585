(** C65: the gradient that the sparse Gaussian process gives to the optimizer of its parameters. *)
From Coq Require Import Reals List Bool Lia Lra ZArith.
From Coquelicot Require Import Coquelicot.
From Verif Require Import LinAlgModel LinAlg KernelModel KernelSpec KernelGrad Psd Det MatCalc GPModel GPSpec GPFacts MeanFacts Prop_Lik SpgpModel SpgpSpec SpgpAlg SpgpGradAlg Prop_Spgp Prop_Spgp2 Prop_SpgpLik.
Import ListNotations.
Open Scope R_scope.

Section Grad.
Variables (m n d : nat) (del : R) (h : hyper) (X : nat -> nat -> R) (r : nat -> R).
Let c := SpgpModel.h_c h.
Let sg := SpgpModel.h_sig h.
Let K0 := l_K d h X.
Variables (L Lm : nat -> nat -> R).
Hypothesis Hb : forall k, (k < d)%nat -> 0 < SpgpModel.h_b h k.
Hypothesis Hc : 0 < SpgpModel.h_c h.
Hypothesis Hs : 0 < SpgpModel.h_sig h.
Hypothesis Hdel : 0 < del.
Hypothesis CL : is_chol m L (l_Q d del h).
Hypothesis CM : is_chol m Lm (l_M m n d h X L).
Variable Ai : nat -> nat -> R.
Hypothesis HAi : is_inv n (A_ m K0 c sg (inv_of m L)) Ai.
Hypothesis SAi : symm n Ai.
Let Hep : forall j, (j < n)%nat -> 0 < ep m L K0 c sg j := fun j _ => l_ep_pos m d del h X Hb Hc Hs Hdel L CL j.
Let Kc := l_Kc m d h X L.
Let Lt := g_Lt m L Lm.
Let Gi := inv_of m Lt.
Let G a b := rsum m (fun k => Lt a k * Lt b k).
Let y := l_y m d h X r L.
Let Vv := l_V m d h X L.
Let be := w_beta m n L K0 c sg Ai r.
Let B1 := g_B1 m d h X L Lm.
Let b1 := g_b1 m n d h X r L Lm.
Let P := g_P m d h X L.
Let mu := g_mu m n d h X r L Lm.
Let big := g_big m n d h X r L Lm.
Let iQ := g_invQ m L.
Let iA := g_invA m L Lm.
Let e := l_ep m d h X L.

Let CG : is_chol m Lt G := Lt_chol m n (l_Q d del h) L K0 c sg CL Lm CM.
Let HG : is_inv m G Gi := proj1 (inv_of_is_inv m Lt G CG).
Let HB : is_inv m (l_Q d del h) (inv_of m L) := proj1 (inv_of_is_inv m L _ CL).
Let HM : is_inv m (l_M m n d h X L) (inv_of m Lm) := proj1 (inv_of_is_inv m Lm _ CM).
Lemma gP_eq a j : (a < m)%nat -> P a j = w_P m L K0 c sg a j.
Proof.
  intro Ha. unfold P, g_P. rewrite (bwd_ext m L L _ (fwd m L (fun b => Kc b j))); auto.
  - apply (both_inv m L _ _ _ a CL HB Ha).
  - intros b Hb'. exact (V_Kc m (l_Q d del h) L K0 c sg CL b j Hb').
Qed.
Lemma iLmV_eq i j : (i < m)%nat -> l_iLmV m d h X L Lm i j = fwd m Lt (fun a => Kc a j) i.
Proof.
  intro Hi. unfold l_iLmV. rewrite (fwd_ext m Lm Lm _ (fwd m L (fun b => Kc b j))); auto.
  - apply (fwd_mul m L Lm _ (proj1 CL) (proj1 CM) i Hi).
  - intros b Hb'. exact (V_Kc m (l_Q d del h) L K0 c sg CL b j Hb').
Qed.
Lemma bet_eq i : (i < m)%nat -> l_bet m n d h X r L Lm i = fwd m Lt (fun a => rsum n (fun j => Kc a j * y j)) i.
Proof.
  intro Hi. unfold l_bet. rewrite (rsum_ext n _ (fun j => fwd m Lt (fun a => Kc a j) i * y j)) by (intros j _; now rewrite iLmV_eq).
  exact (fwd_sum m Lt n Kc y i (proj1 CG) Hi).
Qed.
Lemma B1_eq a j : (a < m)%nat -> B1 a j = mvec m Gi (fun b => Kc b j) a.
Proof.
  intro Ha. unfold B1, g_B1. fold Lt. rewrite (bwd_ext m Lt Lt _ (fwd m Lt (fun b => Kc b j))); auto.
  - apply (both_inv m Lt G Gi _ a CG HG Ha).
  - intros i Hi. now apply iLmV_eq.
Qed.
Lemma b1_eq a : (a < m)%nat -> b1 a = mvec m Gi (fun b => rsum n (fun j => Kc b j * y j)) a.
Proof.
  intro Ha. unfold b1, g_b1. fold Lt. rewrite (bwd_ext m Lt Lt _ (fwd m Lt (fun b => rsum n (fun j => Kc b j * y j)))); auto.
  - apply (both_inv m Lt G Gi _ a CG HG Ha).
  - intros i Hi. now apply bet_eq.
Qed.
Lemma iQ_eq a b : (a < m)%nat -> (b < m)%nat -> iQ a b = inv_of m L a b.
Proof. intros Ha Hb'. exact (inv_of_delta m L _ _ a b CL HB Ha Hb'). Qed.
Lemma iA_eq a b : (a < m)%nat -> (b < m)%nat -> iA a b = Gi a b.
Proof. intros Ha Hb'. exact (inv_of_delta m Lt G Gi a b CG HG Ha Hb'). Qed.
Lemma mu_eq j : (j < n)%nat -> mu j = y j - sg * be j.
Proof.
  intro Hj. etransitivity; [|exact (mu_beta m n (l_Q d del h) L K0 c sg CL Hs Hep Ai Lm r HAi CM j Hj)]. unfold mu, g_mu. apply rsum_ext. intros i Hi. f_equal.
  rewrite (bwd_ext m Lm Lm _ (fwd m Lm (fun a => rsum n (fun k => V m L K0 c sg a k * y_ m L K0 c sg r k)))); auto.
  - apply (both_inv m Lm _ _ _ i CM HM Hi).
  - intros a Ha. exact (l_bet_fwd m n d h X r L Lm a CM Ha).
Qed.
Lemma be_eq j : (j < n)%nat -> be j = (y j - mu j) / sg.
Proof. intro Hj. rewrite mu_eq by auto. field. unfold sg. lra. Qed.
Lemma betV j : (j < n)%nat -> rsum m (fun i => l_bet m n d h X r L Lm i * l_iLmV m d h X L Lm i j) = mu j.
Proof.
  intro Hj. unfold mu, g_mu.
  transitivity (rsum m (fun a => rsum m (fun b => rsum n (fun k => V m L K0 c sg a k * y_ m L K0 c sg r k) * inv_of m Lm a b * Vv b j))).
  - rewrite (bilin_chol m Lm _ _ (fun a => rsum n (fun k => V m L K0 c sg a k * y_ m L K0 c sg r k)) (fun b => Vv b j) CM HM). apply rsum_ext. intros i Hi. f_equal.
    exact (l_bet_fwd m n d h X r L Lm i CM Hi).
  - rewrite rsum_swap. apply rsum_ext. intros b Hb'. rewrite rsum_scal_r. f_equal.
    rewrite (bwd_ext m Lm Lm _ (fwd m Lm (fun a => rsum n (fun k => V m L K0 c sg a k * y_ m L K0 c sg r k)))); auto.
    + rewrite (both_inv m Lm _ _ _ b CM HM Hb'). unfold mvec. apply rsum_ext. intros a Ha. rewrite (proj2 (inv_of_is_inv m Lm _ CM) a b) by auto. ring.
    + intros a Ha. exact (l_bet_fwd m n d h X r L Lm a CM Ha).
Qed.
Lemma big_eq j : (j < n)%nat -> big j / sg = 1 / 2 * w_Z m n L K0 c sg Ai r j j.
Proof.
  intro Hj. unfold big, g_big. rewrite betV by auto.
  pose proof (VMV m n (l_Q d del h) L K0 c sg CL Hs Hep Ai Lm HAi CM j Hj) as E.
  change (rsum m (fun i => l_iLmV m d h X L Lm i j * l_iLmV m d h X L Lm i j) = 1 - sg * Hi_ m L K0 c sg Ai j j) in E. rewrite E.
  fold mu y. rewrite mu_eq by auto. unfold w_Z. fold be. fold sg. replace 0.5 with (1 / 2) by lra. field. unfold sg. lra.
Qed.
Lemma PHi' a j : (a < m)%nat -> (j < n)%nat -> B1 a j = rsum n (fun i => w_P m L K0 c sg a i * Hi_ m L K0 c sg Ai i j).
Proof. intros Ha Hj. rewrite B1_eq by auto. symmetry. exact (PHi m n (l_Q d del h) L K0 c sg CL Hs Hep Ai Lm HAi CM a j Ha Hj). Qed.
Lemma P_beta' a : (a < m)%nat -> b1 a = rsum n (fun j => w_P m L K0 c sg a j * be j).
Proof. intros Ha. rewrite b1_eq by auto. symmetry. exact (P_beta m n (l_Q d del h) L K0 c sg CL Hs Hep Ai Lm r HAi CM a Ha). Qed.
Lemma PHP' a b : (a < m)%nat -> (b < m)%nat -> iQ a b - sg * iA a b = rsum n (fun j => B1 a j * w_P m L K0 c sg b j).
Proof.
  intros Ha Hb'. rewrite iQ_eq, iA_eq by auto. etransitivity; [symmetry; exact (PHP m n (l_Q d del h) L K0 c sg CL Lm CM a b Ha Hb')|].
  apply rsum_ext. intros j Hj. now rewrite B1_eq.
Qed.
Lemma U_eq a j : (a < m)%nat -> (j < n)%nat -> w_U m n L K0 c sg Ai r a j = B1 a j - b1 a * ((y j - mu j) / sg).
Proof.
  intros Ha Hj. rewrite <- be_eq by auto. rewrite PHi', P_beta' by auto. unfold w_U, w_Z. fold be.
  rewrite <- rsum_scal_r, <- rsum_minus. apply rsum_ext. intros i _. ring.
Qed.
Lemma T_eq a b : (a < m)%nat -> (b < m)%nat -> w_T m n L K0 c sg Ai r a b = iQ a b - sg * iA a b - b1 a * b1 b.
Proof.
  intros Ha Hb'. unfold w_T. rewrite PHP' by auto. rewrite (P_beta' b) by auto.
  rewrite <- rsum_scal_l, <- rsum_minus. apply rsum_ext. intros j Hj. rewrite U_eq by auto. rewrite <- be_eq by auto. ring.
Qed.
Lemma iQ_symm a b : iQ a b = iQ b a.
Proof. unfold iQ, g_invQ. apply rsum_ext. intros; ring. Qed.
Lemma iA_symm a b : iA a b = iA b a.
Proof. unfold iA, g_invA. apply rsum_ext. intros; ring. Qed.

(** the derivative for given derivatives of the matrices *)
Definition gform (dK dQ : nat -> nat -> R) (cs : R) : R :=
  rsum m (fun a => rsum n (fun j => (B1 a j - b1 a * ((y j - mu j) / sg)) * dK a j))
  - 1 / 2 * rsum m (fun a => rsum m (fun b => (iQ a b - sg * iA a b - b1 a * b1 b) * dQ a b))
  + rsum n (fun j => big j / sg * (cs / e j - 2 * rsum m (fun a => P a j * dK a j) + rsum m (fun a => rsum m (fun b => P a j * dQ a b * P b j)))).
Lemma gform_spec K' Q' c' s' :
  let al := fun i => rsum n (fun j => Ai i j * r j) in
  let qp := q' m (fun _ => K0) Q' K' 0 (fun _ => L) in
  - (1 / 2 * rsum n (fun i => rsum n (fun j => (al i * al j - Ai i j) * (qp i j + delta i j * (c' - qp i i + s'))))) =
  gform (fun a j => K' a j / sqrt (e j)) Q' (c' + s').
Proof.
  intros al qp. etransitivity; [exact (scaled_grad m n L K0 c sg Ai r Q' K' c' s' Hep SAi)|]. unfold gform.
  f_equal; [f_equal|].
  - apply rsum_ext. intros a Ha. apply rsum_ext. intros j Hj. now rewrite U_eq.
  - f_equal. apply rsum_ext. intros a Ha. apply rsum_ext. intros b Hb'. now rewrite T_eq.
  - apply rsum_ext. intros j Hj. rewrite big_eq by auto. f_equal. f_equal; [f_equal; f_equal|].
    + apply rsum_ext. intros a Ha. now rewrite gP_eq.
    + apply rsum_ext. intros a Ha. apply rsum_ext. intros b Hb'. now rewrite !gP_eq.
Qed.

Lemma gform_ext dK dK2 dQ dQ2 cs : (forall a j, (a < m)%nat -> (j < n)%nat -> dK a j = dK2 a j) -> (forall a b, (a < m)%nat -> (b < m)%nat -> dQ a b = dQ2 a b) ->
  gform dK dQ cs = gform dK2 dQ2 cs.
Proof.
  intros E1 E2. unfold gform. f_equal; [f_equal|].
  - apply rsum_ext. intros a Ha. apply rsum_ext. intros j Hj. now rewrite E1.
  - f_equal. apply rsum_ext. intros a Ha. apply rsum_ext. intros b Hb'. now rewrite E2.
  - apply rsum_ext. intros j Hj. do 2 f_equal; [f_equal; f_equal|].
    + apply rsum_ext. intros a Ha. now rewrite E1.
    + apply rsum_ext. intros a Ha. apply rsum_ext. intros b Hb'. now rewrite E2.
Qed.
Lemma rsum_plus2 p q (f g : nat -> nat -> R) : rsum p (fun a => rsum q (fun b => f a b + g a b)) = rsum p (fun a => rsum q (fun b => f a b)) + rsum p (fun a => rsum q (fun b => g a b)).
Proof. rewrite <- rsum_plus. apply rsum_ext. intros a _. apply rsum_plus. Qed.
Lemma rsum_scal2 p q z (f : nat -> nat -> R) : rsum p (fun a => rsum q (fun b => z * f a b)) = z * rsum p (fun a => rsum q (fun b => f a b)).
Proof. rewrite <- rsum_scal_l. apply rsum_ext. intros a _. apply rsum_scal_l. Qed.
Lemma gform_plus dK dK2 dQ dQ2 c1 c2 : gform (fun a j => dK a j + dK2 a j) (fun a b => dQ a b + dQ2 a b) (c1 + c2) = gform dK dQ c1 + gform dK2 dQ2 c2.
Proof.
  unfold gform.
  set (u := fun a j => B1 a j - b1 a * ((y j - mu j) / sg)). set (T := fun a b => iQ a b - sg * iA a b - b1 a * b1 b).
  rewrite (rsum_ext m _ (fun a => rsum n (fun j => u a j * dK a j + u a j * dK2 a j))) by (intros a _; apply rsum_ext; intros j _; unfold u; ring).
  rewrite (rsum_ext m (fun a => rsum m (fun b => (iQ a b - sg * iA a b - b1 a * b1 b) * (dQ a b + dQ2 a b))) (fun a => rsum m (fun b => T a b * dQ a b + T a b * dQ2 a b))) by (intros a _; apply rsum_ext; intros b _; unfold T; ring).
  rewrite !rsum_plus2.
  rewrite (rsum_ext n (fun j => big j / sg * ((c1 + c2) / e j - 2 * rsum m (fun a => P a j * (dK a j + dK2 a j)) + rsum m (fun a => rsum m (fun b => P a j * (dQ a b + dQ2 a b) * P b j))))
    (fun j => big j / sg * (c1 / e j - 2 * rsum m (fun a => P a j * dK a j) + rsum m (fun a => rsum m (fun b => P a j * dQ a b * P b j)))
      + big j / sg * (c2 / e j - 2 * rsum m (fun a => P a j * dK2 a j) + rsum m (fun a => rsum m (fun b => P a j * dQ2 a b * P b j))))).
  - rewrite rsum_plus. unfold u, T. ring.
  - intros j _. rewrite (rsum_ext m (fun a => P a j * (dK a j + dK2 a j)) (fun a => P a j * dK a j + P a j * dK2 a j)) by (intros; ring).
    rewrite (rsum_ext m (fun a => rsum m (fun b => P a j * (dQ a b + dQ2 a b) * P b j)) (fun a => rsum m (fun b => P a j * dQ a b * P b j + P a j * dQ2 a b * P b j))) by (intros a _; apply rsum_ext; intros; ring).
    rewrite rsum_plus, rsum_plus2. unfold Rdiv. ring.
Qed.
Lemma gform_scal z dK dQ cs : gform (fun a j => z * dK a j) (fun a b => z * dQ a b) (z * cs) = z * gform dK dQ cs.
Proof.
  unfold gform.
  rewrite (rsum_ext m (fun a => rsum n (fun j => (B1 a j - b1 a * ((y j - mu j) / sg)) * (z * dK a j))) (fun a => rsum n (fun j => z * ((B1 a j - b1 a * ((y j - mu j) / sg)) * dK a j)))) by (intros a _; apply rsum_ext; intros; ring).
  rewrite (rsum_ext m (fun a => rsum m (fun b => (iQ a b - sg * iA a b - b1 a * b1 b) * (z * dQ a b))) (fun a => rsum m (fun b => z * ((iQ a b - sg * iA a b - b1 a * b1 b) * dQ a b)))) by (intros a _; apply rsum_ext; intros; ring).
  rewrite !rsum_scal2.
  rewrite (rsum_ext n (fun j => big j / sg * (z * cs / e j - 2 * rsum m (fun a => P a j * (z * dK a j)) + rsum m (fun a => rsum m (fun b => P a j * (z * dQ a b) * P b j))))
    (fun j => z * (big j / sg * (cs / e j - 2 * rsum m (fun a => P a j * dK a j) + rsum m (fun a => rsum m (fun b => P a j * dQ a b * P b j)))))).
  - rewrite rsum_scal_l. ring.
  - intros j _. rewrite (rsum_ext m (fun a => P a j * (z * dK a j)) (fun a => z * (P a j * dK a j))) by (intros; ring).
    rewrite (rsum_ext m (fun a => rsum m (fun b => P a j * (z * dQ a b) * P b j)) (fun a => rsum m (fun b => z * (P a j * dQ a b * P b j)))) by (intros a _; apply rsum_ext; intros; ring).
    rewrite rsum_scal_l, rsum_scal2. unfold Rdiv. ring.
Qed.
Lemma gform_sum D dK dQ : gform (fun a j => rsum D (fun k => dK k a j)) (fun a b => rsum D (fun k => dQ k a b)) 0 = rsum D (fun k => gform (dK k) (dQ k) 0).
Proof.
  induction D as [|D IH]; cbn [rsum].
  - pose proof (gform_scal 0 (fun _ _ => 0) (fun _ _ => 0) 0) as Z. rewrite !Rmult_0_l in Z. rewrite <- Z at 2. apply gform_ext; intros; ring.
  - rewrite <- IH. rewrite <- gform_plus. f_equal. ring.
Qed.
Lemma antisym_sum (S D : nat -> nat -> R) v : (forall a b, (a < m)%nat -> (b < m)%nat -> S a b = S b a) -> (forall a b, (a < m)%nat -> (b < m)%nat -> D a b = - D b a) ->
  rsum m (fun a => rsum m (fun b => S a b * ((v a - v b) * D a b))) = 2 * rsum m (fun a => v a * rsum m (fun b => S a b * D a b)).
Proof.
  intros HS HD. rewrite (rsum_ext m _ (fun a => rsum m (fun b => v a * (S a b * D a b) + v b * (S b a * D b a)))).
  - rewrite rsum_plus2. rewrite (rsum_swap m m (fun a b => v b * (S b a * D b a))).
    rewrite (rsum_ext m (fun a => rsum m (fun b => v a * (S a b * D a b))) (fun a => v a * rsum m (fun b => S a b * D a b))) by (intros a _; apply rsum_scal_l). ring.
  - intros a Ha. apply rsum_ext. intros b Hb'. rewrite (HS b a), (HD b a) by auto. ring.
Qed.

(** ** One input coordinate *)
Section Coord.
Variable k : nat.
Hypothesis Hk : (k < d)%nat.
Let dK := g_dK m d h X L k.
Let dQ := g_dQ d del h k.
Let lx := fun j => l_x h X j k.
Let lb := fun a => l_xb h a k.
Lemma dQ_anti a b : dQ a b = - dQ b a.
Proof.
  unfold dQ, g_dQ. assert (E : l_Q d del h a b = l_Q d del h b a).
  { rewrite !(l_Q_cov d h (fun k0 H => Rlt_le _ _ (Hb k0 H))). unfold pseudo_cov. rewrite se_sym, delta_sym. reflexivity. }
  rewrite E. ring.
Qed.
(** the common factor of lines 536, 543 *)
Definition g_D (a : nat) : R :=
  b1 a * (rsum n (fun j => dK a j * (y j - mu j)) / sg + rsum m (fun b => dQ a b * b1 b)) * -1
   + rsum m (fun b => (iQ a b - iA a b * sg) * dQ a b)
   + rsum n (fun j => g_epdot m d h X L k a j * big j)
   - rsum m (fun b => dQ a b * g_TT m n d h X r L Lm a b) * (2 / sg)
   + rsum n (fun j => dK a j * B1 a j).
Lemma dfxb_D a : g_dfxb m n d del h X r L Lm a k = g_D a * sqrt (SpgpModel.h_b h k).
Proof. reflexivity. Qed.
Lemma gX v : gform (fun a j => v a * dK a j) (fun a b => - ((v a - v b) * dQ a b)) 0 = rsum m (fun a => v a * g_D a).
Proof.
  unfold gform.
  assert (E1 : rsum m (fun a => rsum n (fun j => (B1 a j - b1 a * ((y j - mu j) / sg)) * (v a * dK a j))) = rsum m (fun a => v a * (rsum n (fun j => dK a j * B1 a j) - b1 a * (rsum n (fun j => dK a j * (y j - mu j)) / sg)))).
  { apply rsum_ext. intros a _. unfold Rdiv. rewrite <- rsum_scal_r, <- rsum_scal_l, <- rsum_minus, <- rsum_scal_l. apply rsum_ext. intros; ring. }
  assert (E2 : rsum m (fun a => rsum m (fun b => (iQ a b - sg * iA a b - b1 a * b1 b) * - ((v a - v b) * dQ a b))) = -2 * rsum m (fun a => v a * (rsum m (fun b => (iQ a b - iA a b * sg) * dQ a b) - b1 a * rsum m (fun b => dQ a b * b1 b)))).
  { rewrite (rsum_ext m _ (fun a => rsum m (fun b => -1 * ((iQ a b - sg * iA a b - b1 a * b1 b) * ((v a - v b) * dQ a b))))) by (intros a _; apply rsum_ext; intros; ring).
    rewrite rsum_scal2, (antisym_sum (fun a b => iQ a b - sg * iA a b - b1 a * b1 b) dQ v); [|intros; rewrite iQ_symm, iA_symm; ring|intros; apply dQ_anti].
    replace (-1 * (2 * rsum m (fun a => v a * rsum m (fun b => (iQ a b - sg * iA a b - b1 a * b1 b) * dQ a b)))) with (-2 * rsum m (fun a => v a * rsum m (fun b => (iQ a b - sg * iA a b - b1 a * b1 b) * dQ a b))) by ring. f_equal.
    apply rsum_ext. intros a _. f_equal. rewrite <- rsum_scal_l, <- rsum_minus. apply rsum_ext. intros; ring. }
  assert (E3 : rsum n (fun j => big j / sg * (0 / e j - 2 * rsum m (fun a => P a j * (v a * dK a j)) + rsum m (fun a => rsum m (fun b => P a j * - ((v a - v b) * dQ a b) * P b j))))
    = rsum m (fun a => v a * (rsum n (fun j => g_epdot m d h X L k a j * big j) - rsum m (fun b => dQ a b * g_TT m n d h X r L Lm a b) * (2 / sg)))).
  { transitivity (rsum n (fun j => rsum m (fun a => v a * (g_epdot m d h X L k a j * big j) - v a * rsum m (fun b => dQ a b * (P a j * (P b j * big j)) * (2 / sg))))).
    - apply rsum_ext. intros j Hj. rewrite rsum_minus.
      rewrite (rsum_ext m (fun a => rsum m (fun b => P a j * - ((v a - v b) * dQ a b) * P b j)) (fun a => rsum m (fun b => -1 * ((P a j * P b j) * ((v a - v b) * dQ a b))))) by (intros a _; apply rsum_ext; intros; ring).
      rewrite rsum_scal2, (antisym_sum (fun a b => P a j * P b j) dQ v); [|intros; ring|intros; apply dQ_anti].
      rewrite (rsum_ext m (fun a => v a * (g_epdot m d h X L k a j * big j)) (fun a => -2 * (big j / sg) * (P a j * (v a * dK a j)))).
      2:{ intros a _. unfold g_epdot. fold P dK. change (SpgpModel.h_sig h) with sg. unfold Rdiv. unfold dK, P, sg. ring. }
      rewrite (rsum_ext m (fun a => v a * rsum m (fun b => dQ a b * (P a j * (P b j * big j)) * (2 / sg))) (fun a => 2 * (big j / sg) * (v a * rsum m (fun b => P a j * P b j * dQ a b)))).
      2:{ intros a _. transitivity (v a * (rsum m (fun b => P a j * P b j * dQ a b) * (2 * (big j / sg)))); [|ring]. f_equal. rewrite <- rsum_scal_r. apply rsum_ext. intros; unfold Rdiv; ring. }
      rewrite !rsum_scal_l. unfold Rdiv. ring.
    - rewrite rsum_swap. apply rsum_ext. intros a _. rewrite rsum_minus, !rsum_scal_l. rewrite Rmult_minus_distr_l. f_equal. f_equal.
      rewrite rsum_swap, <- rsum_scal_r. apply rsum_ext. intros b _. rewrite rsum_scal_r. f_equal. rewrite rsum_scal_l. reflexivity. }
  rewrite E1, E2, E3. replace (- (1 / 2) * 1) with (- (1 / 2)) by ring.
  match goal with |- ?x - 1 / 2 * (-2 * ?w) + ?z = _ => replace (x - 1 / 2 * (-2 * w) + z) with (x + w + z) by field end.
  rewrite <- !rsum_plus. apply rsum_ext. intros a _. unfold g_D. ring.
Qed.
(** the part that moves the samples *)
Lemma gXj (u : nat -> R) : gform (fun a j => u j * dK a j) (fun _ _ => 0) 0 =
  rsum n (fun j => rsum m (fun a => dK a j * B1 a j) * u j) - rsum n (fun j => ((y j - mu j) * rsum m (fun a => b1 a * dK a j) / sg + g_epPmod m d h X L k j * big j) * u j).
Proof.
  unfold gform. rewrite (rsum_0 m (fun a => rsum m (fun b => (iQ a b - sg * iA a b - b1 a * b1 b) * 0))) by (intros; apply rsum_0; intros; ring).
  rewrite rsum_swap. rewrite Rmult_0_r, Rminus_0_r, <- rsum_minus, <- rsum_plus. apply rsum_ext. intros j _.
  rewrite (rsum_0 m (fun a => rsum m (fun b => P a j * 0 * P b j))) by (intros; apply rsum_0; intros; ring).
  rewrite (rsum_ext m (fun a => (B1 a j - b1 a * ((y j - mu j) / sg)) * (u j * dK a j)) (fun a => u j * (dK a j * B1 a j) - (y j - mu j) / sg * u j * (b1 a * dK a j))) by (intros; ring).
  rewrite (rsum_ext m (fun a => P a j * (u j * dK a j)) (fun a => u j * (P a j * dK a j))) by (intros; ring).
  rewrite rsum_minus, !rsum_scal_l. unfold g_epPmod.
  rewrite (rsum_ext m (fun a => g_epdot m d h X L k a j) (fun a => -2 / sg * (P a j * dK a j))) by (intros a _; unfold g_epdot; fold P; unfold dK, P, sg; ring).
  rewrite rsum_scal_l. unfold Rdiv. ring.
Qed.
Lemma gB : gform (fun a j => 1 / 2 * ((lb a - lx j) * dK a j)) (fun a b => 1 / 2 * - ((lb a - lb b) * dQ a b)) 0 = g_dfb m n d del h X r L Lm k.
Proof.
  replace 0 with (1 / 2 * (0 + -1 * 0)) at 1 by ring.
  rewrite (gform_ext _ (fun a j => 1 / 2 * (lb a * dK a j + -1 * (lx j * dK a j))) _ (fun a b => 1 / 2 * (- ((lb a - lb b) * dQ a b) + -1 * 0))) by (intros; ring).
  rewrite gform_scal, gform_plus, gform_scal, gX, gXj. unfold g_dfb.
  pose proof (Hb k Hk) as Pb. pose proof (sqrt_lt_R0 _ Pb) as Ps. pose proof (sqrt_sqrt _ (Rlt_le _ _ Pb)) as Es.
  rewrite (rsum_ext m (fun a => g_dfxb m n d del h X r L Lm a k * l_xb h a k) (fun a => lb a * g_D a * sqrt (SpgpModel.h_b h k))) by (intros a _; rewrite dfxb_D; unfold lb; ring).
  rewrite rsum_scal_r. fold B1 b1 mu big y dK. fold lx. change (SpgpModel.h_sig h) with sg.
  assert (E : forall S, S * sqrt (SpgpModel.h_b h k) / SpgpModel.h_b h k = S / sqrt (SpgpModel.h_b h k)).
  { intro S. rewrite <- Es at 2. field. lra. }
  rewrite E.
  unfold lx. field. lra.
Qed.
End Coord.

(** ** Noise and size *)
Lemma gS : gform (fun _ _ => 0) (fun _ _ => 0) sg = g_dfsig m n d h X r L Lm.
Proof.
  unfold gform. rewrite (rsum_0 m (fun a => rsum n (fun j => (B1 a j - b1 a * ((y j - mu j) / sg)) * 0))) by (intros; apply rsum_0; intros; ring).
  rewrite (rsum_0 m (fun a => rsum m (fun b => (iQ a b - sg * iA a b - b1 a * b1 b) * 0))) by (intros; apply rsum_0; intros; ring).
  rewrite Rmult_0_r, Rminus_0_r, Rplus_0_l. apply rsum_ext. intros j Hj.
  rewrite (rsum_0 m (fun a => P a j * 0)) by (intros; ring). rewrite (rsum_0 m (fun a => rsum m (fun b => P a j * 0 * P b j))) by (intros; apply rsum_0; intros; ring).
  fold big e. pose proof (Hep j Hj) as PE. change (0 < e j) in PE. field. split; [lra|unfold sg; lra].
Qed.
Let Q := l_Q d del h.
Lemma Q_P a j : (a < m)%nat -> rsum m (fun b => Q a b * P b j) = Kc a j.
Proof.
  intro Ha. rewrite (rsum_ext m _ (fun b => Q a b * w_P m L K0 c sg b j)) by (intros; now rewrite gP_eq). exact (QP m Q L K0 c sg CL a j Ha).
Qed.
(** [b1^T Kc = mu] *)
Lemma b1_Kc j : (j < n)%nat -> rsum m (fun a => b1 a * Kc a j) = mu j.
Proof.
  intro Hj. rewrite <- betV by auto.
  rewrite (rsum_ext m (fun i => l_bet m n d h X r L Lm i * l_iLmV m d h X L Lm i j) (fun i => fwd m Lt (fun a => Kc a j) i * fwd m Lt (fun a => rsum n (fun j => Kc a j * y j)) i)) by (intros i Hi; rewrite bet_eq, iLmV_eq by auto; ring).
  rewrite <- (bilin_chol m Lt G Gi (fun a => Kc a j) (fun a => rsum n (fun j => Kc a j * y j)) CG HG). apply rsum_ext. intros a Ha. rewrite b1_eq by auto.
  unfold mvec. rewrite Rmult_comm, <- rsum_scal_l. apply rsum_ext. intros; ring.
Qed.
(** [sum B1 .* Kc = m - sig tr (invA Q)] *)
Lemma B1_Kc : rsum m (fun a => rsum n (fun j => B1 a j * Kc a j)) = INR m - sg * rsum m (fun a => rsum m (fun b => iA a b * Q b a)).
Proof.
  transitivity (rsum m (fun a => 1 - sg * rsum m (fun b => iA a b * Q b a))).
  - apply rsum_ext. intros a Ha.
    transitivity (rsum m (fun b => iA a b * (G b a - sg * Q b a))).
    + transitivity (rsum n (fun j => rsum m (fun b => iA a b * (Kc b j * Kc a j)))).
      * apply rsum_ext. intros j _. rewrite B1_eq by auto. unfold mvec. rewrite <- rsum_scal_r. apply rsum_ext. intros b Hb'. rewrite iA_eq by auto. ring.
      * rewrite rsum_swap. apply rsum_ext. intros b Hb'. rewrite rsum_scal_l. f_equal.
        pose proof (G_eq m n Q L K0 c sg CL Lm CM b a Hb' Ha) as E. change (G b a = sg * Q b a + rsum n (fun j => Kc b j * Kc a j)) in E. rewrite E. ring.
    + rewrite (rsum_ext m _ (fun b => Gi a b * G b a - sg * (iA a b * Q b a))) by (intros b Hb'; rewrite iA_eq by auto; ring).
      rewrite rsum_minus, rsum_scal_l. f_equal. pose proof (proj2 HG a a Ha Ha) as Z. unfold mmul in Z. rewrite Z. unfold delta. now rewrite Nat.eqb_refl.
  - rewrite rsum_minus, rsum_const, rsum_scal_l. ring.
Qed.
Lemma tr_iQ : rsum m (fun a => rsum m (fun b => iQ a b * Q a b)) = INR m.
Proof.
  rewrite (rsum_ext m _ (fun _ => 1)); [rewrite rsum_const; ring|]. intros a Ha.
  rewrite (rsum_ext m _ (fun b => inv_of m L a b * Q b a)).
  - pose proof (proj2 HB a a Ha Ha) as Z. unfold mmul in Z. unfold Q. rewrite Z. unfold delta. now rewrite Nat.eqb_refl.
  - intros b Hb'. rewrite iQ_eq by auto. f_equal. exact (l_Q_symm m d del h Hb a b Ha Hb').
Qed.
Lemma delta_trace (F : nat -> nat -> R) : rsum m (fun a => rsum m (fun b => F a b * delta a b)) = rsum m (fun a => F a a).
Proof.
  apply rsum_ext. intros a Ha. rewrite (rsum_ext m _ (fun b => delta a b * F a b)) by (intros; ring). now rewrite delta_sum.
Qed.
Lemma gC : gform Kc (fun a b => Q a b - del * delta a b) c = g_dfc m n d del h X r L Lm.
Proof.
  unfold gform.
  assert (E1 : rsum m (fun a => rsum n (fun j => (B1 a j - b1 a * ((y j - mu j) / sg)) * Kc a j)) = INR m - sg * rsum m (fun a => rsum m (fun b => iA a b * Q b a)) - rsum n (fun j => mu j * (y j - mu j)) / sg).
  { rewrite <- B1_Kc. unfold Rdiv at 2. rewrite <- rsum_scal_r. rewrite (rsum_ext n (fun j => mu j * (y j - mu j) * / sg) (fun j => rsum m (fun a => b1 a * ((y j - mu j) / sg) * Kc a j))).
    - rewrite (rsum_swap n m), <- rsum_minus. apply rsum_ext. intros a _. rewrite <- rsum_minus. apply rsum_ext. intros; ring.
    - intros j Hj. rewrite <- b1_Kc at 1 by auto. rewrite <- !rsum_scal_r. apply rsum_ext. intros; unfold Rdiv; ring. }
  assert (E2 : rsum m (fun a => rsum m (fun b => (iQ a b - sg * iA a b - b1 a * b1 b) * (Q a b - del * delta a b))) =
     INR m - sg * rsum m (fun a => rsum m (fun b => iA a b * Q b a)) - del * rsum m (fun a => iQ a a - sg * iA a a) - rsum m (fun a => rsum m (fun b => b1 a * (Q a b - del * (if (a =? b)%nat then 1 else 0)) * b1 b))).
  { rewrite <- tr_iQ. rewrite <- (delta_trace (fun a b => iQ a b - sg * iA a b)), <- !rsum_scal_l, <- !rsum_minus. apply rsum_ext. intros a Ha. rewrite <- !rsum_scal_l, <- !rsum_minus. apply rsum_ext. intros b Hb'.
    unfold delta. replace (Q b a) with (Q a b) by exact (l_Q_symm m d del h Hb a b Ha Hb'). ring. }
  assert (E3 : forall j, (j < n)%nat -> big j / sg * (c / e j - 2 * rsum m (fun a => P a j * Kc a j) + rsum m (fun a => rsum m (fun b => P a j * (Q a b - del * delta a b) * P b j))) = g_epc m d del h X L j * big j).
  { intros j Hj. unfold g_epc.
    assert (V2 : rsum m (fun a => P a j * Kc a j) = g_sumVsq m d h X L j).
    { pose proof (KcP m Q L K0 c sg CL j j) as Z. change (rsum m (fun b => Kc b j * w_P m L K0 c sg b j) = g_sumVsq m d h X L j) in Z. rewrite <- Z. apply rsum_ext. intros a Ha. rewrite gP_eq by auto. ring. }
    assert (PQ : rsum m (fun a => rsum m (fun b => P a j * (Q a b - del * delta a b) * P b j)) = g_sumVsq m d h X L j - del * rsum m (fun a => P a j * P a j)).
    { rewrite <- V2, <- rsum_scal_l, <- rsum_minus. apply rsum_ext. intros a Ha. rewrite <- Q_P by auto.
      rewrite (rsum_ext m _ (fun b => P a j * (Q a b * P b j) - del * P a j * (delta a b * P b j))) by (intros; ring). rewrite rsum_minus, !rsum_scal_l, delta_sum by auto. ring. }
    rewrite V2, PQ. fold e. fold c. fold sg. change (g_P m d h X L) with P. pose proof (Hep j Hj) as PE. change (0 < e j) in PE. field. split; try lra; unfold sg; lra. }
  rewrite E1, E2. rewrite (rsum_ext n (fun j => big j / sg * (c / e j - 2 * rsum m (fun a => P a j * Kc a j) + rsum m (fun a => rsum m (fun b => P a j * (Q a b - del * delta a b) * P b j)))) (fun j => g_epc m d del h X L j * big j)) by exact E3.
  unfold g_dfc. fold iQ iA mu y b1 big Q sg. field. unfold sg. lra.
Qed.
(** all components; [ix], [ib], [ic], [is_]: direction *)
Lemma g_all ix ib ic is_ :
  gform (fun a j => Kc a j * (ic + rsum d (fun k => - (1 / 2) * (SpgpModel.h_b h k * ib k * ((SpgpModel.h_xb h a k - X j k) * (SpgpModel.h_xb h a k - X j k))) - SpgpModel.h_b h k * (SpgpModel.h_xb h a k - X j k) * (ix a k - 0))))
    (fun a b => (Q a b - del * delta a b) * (ic + rsum d (fun k => - (1 / 2) * (SpgpModel.h_b h k * ib k * ((SpgpModel.h_xb h a k - SpgpModel.h_xb h b k) * (SpgpModel.h_xb h a k - SpgpModel.h_xb h b k))) - SpgpModel.h_b h k * (SpgpModel.h_xb h a k - SpgpModel.h_xb h b k) * (ix a k - ix b k))))
    (c * ic + sg * is_) =
  rsum m (fun a => rsum d (fun k => ix a k * g_dfxb m n d del h X r L Lm a k)) + rsum d (fun k => ib k * g_dfb m n d del h X r L Lm k)
  + ic * g_dfc m n d del h X r L Lm + is_ * g_dfsig m n d h X r L Lm.
Proof.
  set (sb := fun k => sqrt (SpgpModel.h_b h k)).
  assert (Esb : forall k, (k < d)%nat -> sb k * sb k = SpgpModel.h_b h k) by (intros k Hk; apply sqrt_sqrt, Rlt_le, Hb, Hk).
  rewrite <- gS, <- gC. rewrite (rsum_swap m d).
  rewrite (rsum_ext d (fun k => rsum m (fun a => ix a k * g_dfxb m n d del h X r L Lm a k))
    (fun k => gform (fun a j => ix a k * sb k * g_dK m d h X L k a j) (fun a b => - ((ix a k * sb k - ix b k * sb k) * g_dQ d del h k a b)) 0)).
  2:{ intros k Hk. rewrite (gX k (fun a => ix a k * sb k)). apply rsum_ext. intros a Ha. rewrite dfxb_D. unfold sb. ring. }
  rewrite (rsum_ext d (fun k => ib k * g_dfb m n d del h X r L Lm k)
    (fun k => gform (fun a j => ib k * (1 / 2 * ((l_xb h a k - l_x h X j k) * g_dK m d h X L k a j))) (fun a b => ib k * (1 / 2 * - ((l_xb h a k - l_xb h b k) * g_dQ d del h k a b))) 0)).
  2:{ intros k Hk. rewrite <- (gB k Hk). rewrite <- gform_scal. f_equal. ring. }
  rewrite <- !gform_sum, <- !gform_scal, <- !gform_plus.
  replace (0 + 0 + ic * c + is_ * sg) with (c * ic + sg * is_) by ring.
  apply gform_ext.
  - intros a j Ha Hj. rewrite Rmult_plus_distr_l. rewrite Rmult_0_r, Rplus_0_r, <- rsum_plus, <- rsum_scal_l, Rplus_comm. f_equal; [|ring].
    apply rsum_ext. intros k Hk. unfold g_dK, l_xb, l_x. fold Kc (sb k). rewrite <- (Esb k Hk). ring.
  - intros a b Ha Hb'. rewrite Rmult_plus_distr_l. rewrite Rmult_0_r, Rplus_0_r, <- rsum_plus, <- rsum_scal_l, Rplus_comm. f_equal; [|ring].
    apply rsum_ext. intros k Hk. unfold g_dQ, l_xb. fold Q (sb k). rewrite <- (Esb k Hk). unfold delta. destruct (Nat.eqb_spec a b) as [->|N]; ring.
Qed.
End Grad.

(** ** A path of parameters *)
Section Path.
Variables (m n d : nat) (del : R) (ht : R -> hyper) (X : nat -> nat -> R) (r : nat -> R) (t0 : R).
Variables (ix : nat -> nat -> R) (ib : nat -> R) (ic is_ : R).
Hypothesis Hdel : 0 < del.
Hypothesis Hb : forall t k, 0 < SpgpModel.h_b (ht t) k.
Hypothesis Hc : forall t, 0 < SpgpModel.h_c (ht t).
Hypothesis Hs : forall t, 0 < SpgpModel.h_sig (ht t).
Hypothesis Dx : forall a k, is_derive (fun t => SpgpModel.h_xb (ht t) a k) t0 (ix a k).
Hypothesis Db : forall k, is_derive (fun t => SpgpModel.h_b (ht t) k) t0 (SpgpModel.h_b (ht t0) k * ib k).
Hypothesis Dc : is_derive (fun t => SpgpModel.h_c (ht t)) t0 (SpgpModel.h_c (ht t0) * ic).
Hypothesis Ds : is_derive (fun t => SpgpModel.h_sig (ht t)) t0 (SpgpModel.h_sig (ht t0) * is_).
Let h := ht t0.
(** derivative of the squared exponential *)
Lemma se_derive (x y : R -> nat -> R) x' y' :
  (forall k, is_derive (fun t => x t k) t0 (x' k)) -> (forall k, is_derive (fun t => y t k) t0 (y' k)) ->
  is_derive (fun t => se d (SpgpModel.h_b (ht t)) (SpgpModel.h_c (ht t)) (x t) (y t)) t0
    (se d (SpgpModel.h_b h) (SpgpModel.h_c h) (x t0) (y t0) *
     (ic + rsum d (fun k => - (1 / 2) * (SpgpModel.h_b h k * ib k * ((x t0 k - y t0 k) * (x t0 k - y t0 k))) - SpgpModel.h_b h k * (x t0 k - y t0 k) * (x' k - y' k)))).
Proof.
  intros Hx Hy. unfold se.
  assert (DS : is_derive (fun t => - (1 / 2) * rsum d (fun k => SpgpModel.h_b (ht t) k * ((x t k - y t k) * (x t k - y t k)))) t0
    (rsum d (fun k => - (1 / 2) * (SpgpModel.h_b h k * ib k * ((x t0 k - y t0 k) * (x t0 k - y t0 k))) - SpgpModel.h_b h k * (x t0 k - y t0 k) * (x' k - y' k)))).
  { eapply is_derive_val'.
    - apply is_derive_scal. apply (is_derive_sum d (fun k t => SpgpModel.h_b (ht t) k * ((x t k - y t k) * (x t k - y t k)))). intros k _.
      apply is_derive_mul; [apply Db|]. apply is_derive_mul; (apply @is_derive_minus; [apply Hx|apply Hy]).
    - cbv beta. unfold minus, plus, opp; simpl. req. rewrite <- rsum_scal_l. apply rsum_ext. intros k _. unfold h. req. field. }
  eapply is_derive_val'.
  - apply is_derive_mul; [exact Dc|]. apply (is_derive_comp exp); [apply is_derive_Reals, derivable_pt_lim_exp|exact DS].
  - cbv beta. unfold scal; simpl; unfold mult; simpl. fold h. req. ring.
Qed.
Let KD a j := l_K d h X a j * (ic + rsum d (fun k => - (1 / 2) * (SpgpModel.h_b h k * ib k * ((SpgpModel.h_xb h a k - X j k) * (SpgpModel.h_xb h a k - X j k))) - SpgpModel.h_b h k * (SpgpModel.h_xb h a k - X j k) * (ix a k - 0))).
Let QD a b := (l_Q d del h a b - del * delta a b) * (ic + rsum d (fun k => - (1 / 2) * (SpgpModel.h_b h k * ib k * ((SpgpModel.h_xb h a k - SpgpModel.h_xb h b k) * (SpgpModel.h_xb h a k - SpgpModel.h_xb h b k))) - SpgpModel.h_b h k * (SpgpModel.h_xb h a k - SpgpModel.h_xb h b k) * (ix a k - ix b k))).
Lemma K_derive a j : is_derive (fun t => l_K d (ht t) X a j) t0 (KD a j).
Proof.
  apply is_derive_ext with (f := fun t => se d (SpgpModel.h_b (ht t)) (SpgpModel.h_c (ht t)) (SpgpModel.h_xb (ht t) a) (X j)).
  { intro t. symmetry. apply l_K_se. intros; apply Rlt_le, Hb. }
  eapply is_derive_val'; [apply (se_derive (fun t => SpgpModel.h_xb (ht t) a) (fun _ => X j) (ix a) (fun _ => 0)); [intro; apply Dx|intro; apply @is_derive_const]|].
  cbv beta. unfold KD. fold h. rewrite l_K_se by (intros; apply Rlt_le, Hb). reflexivity.
Qed.
Lemma Q_derive a b : is_derive (fun t => l_Q d del (ht t) a b) t0 (QD a b).
Proof.
  apply is_derive_ext with (f := fun t => se d (SpgpModel.h_b (ht t)) (SpgpModel.h_c (ht t)) (SpgpModel.h_xb (ht t) a) (SpgpModel.h_xb (ht t) b) + del * delta a b).
  { intro t. symmetry. apply l_Q_cov. intros; apply Rlt_le, Hb. }
  eapply is_derive_val'.
  - apply @is_derive_plus; [|apply @is_derive_const]. apply (se_derive (fun t => SpgpModel.h_xb (ht t) a) (fun t => SpgpModel.h_xb (ht t) b) (ix a) (ix b)); intro; apply Dx.
  - cbv beta. unfold QD. fold h. rewrite l_Q_cov by (intros; apply Rlt_le, Hb). unfold pseudo_cov, plus, zero; simpl. req. ring.
Qed.

(** factors along the path *)
Let Lt t := match chol m (l_Q d del (ht t)) with Some L => L | None => fun _ _ => 0 end.
Let At t := A_ m (l_K d (ht t) X) (SpgpModel.h_c (ht t)) (SpgpModel.h_sig (ht t)) (inv_of m (Lt t)).
Let LAt t := match chol n (At t) with Some L => L | None => fun _ _ => 0 end.
Lemma Lt_ok t : is_chol m (Lt t) (l_Q d del (ht t)).
Proof.
  unfold Lt. destruct (chol_succeeds m _ (l_Q_symm m d del (ht t) (fun k _ => Hb t k)) (l_Q_pd m d del (ht t) (fun k _ => Hb t k) (Hc t) Hdel)) as [L E].
  rewrite E. apply (chol_is_chol m _ L (l_Q_symm m d del (ht t) (fun k _ => Hb t k)) E).
Qed.
Lemma LAt_ok t : is_chol n (LAt t) (At t).
Proof.
  pose proof (Lt_ok t) as CL. destruct (inv_of_is_inv m (Lt t) _ CL) as [HB SB].
  pose proof (fun j (_ : (j < n)%nat) => l_ep_pos m d del (ht t) X (fun k _ => Hb t k) (Hc t) (Hs t) Hdel (Lt t) CL j) as PE.
  pose proof (A_symm m n _ (Lt t) (l_K d (ht t) X) _ _ _ CL HB (Hs t) PE) as SA.
  pose proof (A_pd m n _ (Lt t) (l_K d (ht t) X) _ _ _ CL HB (Hs t) PE) as PA.
  unfold LAt. destruct (chol_succeeds n (At t) SA PA) as [L E]. rewrite E. now apply (chol_is_chol n (At t) L SA).
Qed.
Lemma path_derive L Lm : is_chol m L (l_Q d del h) -> chol m (l_Q d del h) = Some L -> is_chol m Lm (l_M m n d h X L) ->
  is_derive (fun t => log_gauss n (At t) (inv_of n (LAt t)) r) t0
    (- (rsum m (fun a => rsum d (fun k => ix a k * g_dfxb m n d del h X r L Lm a k)) + rsum d (fun k => ib k * g_dfb m n d del h X r L Lm k)
        + ic * g_dfc m n d del h X r L Lm + is_ * g_dfsig m n d h X r L Lm)).
Proof.
  intros CL EL CM.
  assert (E0 : Lt t0 = L) by (unfold Lt; fold h; now rewrite EL).
  eapply is_derive_val'.
  - apply (gauss_derive n At (fun i j => q' m (fun t => l_K d (ht t) X) QD KD t0 Lt i j + delta i j * (SpgpModel.h_c (ht t0) * ic - q' m (fun t => l_K d (ht t) X) QD KD t0 Lt i i + SpgpModel.h_sig (ht t0) * is_)) t0 LAt r); [|exact LAt_ok]. intros i j Hi Hj.
    apply (A_derive m (fun t => l_Q d del (ht t)) (fun t => l_K d (ht t) X) (fun t => SpgpModel.h_c (ht t)) (fun t => SpgpModel.h_sig (ht t)) QD KD _ _ t0 Lt); [intros; apply Q_derive|intros; apply K_derive|exact Dc|exact Ds|exact Lt_ok].
  - destruct (inv_of_is_inv n (LAt t0) _ (LAt_ok t0)) as [HA SA]. unfold At in HA. rewrite E0 in HA.
    pose proof (gform_spec m n d del h X r L Lm (fun k _ => Hb t0 k) (Hc t0) (Hs t0) Hdel CL CM (inv_of n (LAt t0)) HA SA KD QD (SpgpModel.h_c h * ic) (SpgpModel.h_sig h * is_)) as G. cbv zeta in G.
    rewrite <- (Ropp_involutive (1 / 2 * _)). f_equal. etransitivity; [|etransitivity; [exact G|]].
    { unfold q'. rewrite E0. reflexivity. }
    clear G.
    set (gf := gform m n d h X r L Lm).
    rewrite <- (g_all m n d del h X r L Lm (fun k _ => Hb t0 k) (Hc t0) (Hs t0) Hdel CL CM ix ib ic is_).
    apply gform_ext.
    + intros a j Ha Hj. unfold KD, l_Kc. unfold Rdiv. ring.
    + intros a b Ha Hb'. reflexivity.
Qed.
End Path.

(** ** The components *)
Lemma vget_app (u v : vec) q : vget (u ++ v) q = if (q <? length u)%nat then vget u q else vget v (q - length u).
Proof.
  unfold vget. destruct (Nat.ltb_spec q (length u)); [now apply app_nth1|now apply app_nth2].
Qed.
Lemma rsum_one N (f : nat -> R) p : (p < N)%nat -> rsum N (fun i => (if (i =? p)%nat then 1 else 0) * f i) = f p.
Proof.
  intro Hp. rewrite <- (delta_sum N p f Hp). apply rsum_ext. intros i _. unfold delta. rewrite (Nat.eqb_sym i p). reflexivity.
Qed.
Definition ind (q i : nat) : R := if (i =? q)%nat then 1 else 0.
Lemma components m n d del h X r L Lm q : (q < (m + 1) * d + 2)%nat ->
  rsum m (fun a => rsum d (fun k => ind q (a + k * m) * g_dfxb m n d del h X r L Lm a k)) + rsum d (fun k => ind q (m * d + k) * g_dfb m n d del h X r L Lm k)
  + ind q ((m + 1) * d) * g_dfc m n d del h X r L Lm + ind q ((m + 1) * d + 1) * g_dfsig m n d h X r L Lm = vget (g_dfw m n d del h X r L Lm) q.
Proof.
  intro Hq. unfold g_dfw. rewrite vget_app, vec_of_length.
  assert (Z1 : (m * d <= q)%nat -> rsum m (fun a => rsum d (fun k => ind q (a + k * m) * g_dfxb m n d del h X r L Lm a k)) = 0).
  { intro H. apply rsum_0. intros a Ha. apply rsum_0. intros k Hk. unfold ind. destruct (Nat.eqb_spec (a + k * m) q); [nia|ring]. }
  assert (Z2 : (q < m * d \/ (m + 1) * d <= q)%nat -> rsum d (fun k => ind q (m * d + k) * g_dfb m n d del h X r L Lm k) = 0).
  { intro H. apply rsum_0. intros k Hk. unfold ind. destruct (Nat.eqb_spec (m * d + k) q); [nia|ring]. }
  destruct (Nat.ltb_spec q (m * d)) as [H1|H1].
  - rewrite Z2 by lia. unfold ind at 2 3. rewrite (proj2 (Nat.eqb_neq _ _)) by nia. rewrite (proj2 (Nat.eqb_neq _ _)) by nia.
    rewrite vget_vec_of by auto. assert (Hm : m <> 0%nat) by (intros ->; cbn in H1; lia).
    pose proof (Nat.div_mod q m Hm) as E. pose proof (Nat.mod_upper_bound q m Hm) as B. assert (Hd : (q / m < d)%nat) by (apply Nat.div_lt_upper_bound; lia).
    rewrite (rsum_ext m _ (fun a => (if (a =? q mod m)%nat then 1 else 0) * g_dfxb m n d del h X r L Lm a (q / m))).
    + rewrite rsum_one by auto. ring.
    + intros a Ha. rewrite (rsum_ext d _ (fun k => (if (k =? q / m)%nat then 1 else 0) * ((if (a =? q mod m)%nat then 1 else 0) * g_dfxb m n d del h X r L Lm a k))).
      * rewrite rsum_one by auto. reflexivity.
      * intros k Hk. assert (I : ind q (a + k * m) = (if (k =? q / m)%nat then 1 else 0) * (if (a =? q mod m)%nat then 1 else 0)).
        { unfold ind. destruct (Nat.eqb_spec (a + k * m) q) as [N|N].
          - subst q. rewrite Nat.mod_add, Nat.mod_small, Nat.div_add, Nat.div_small by auto. rewrite !Nat.eqb_refl. ring.
          - destruct (Nat.eqb_spec k (q / m)) as [->|N1]; [|ring]. destruct (Nat.eqb_spec a (q mod m)) as [->|N2]; [|ring]. exfalso. apply N. lia. }
        rewrite I. ring.
  - rewrite Z1 by lia. rewrite vget_app, vec_of_length. destruct (Nat.ltb_spec (q - m * d) d) as [H2|H2].
    + unfold ind at 2 3. rewrite (proj2 (Nat.eqb_neq _ _)) by nia. rewrite (proj2 (Nat.eqb_neq _ _)) by nia. rewrite vget_vec_of by auto.
      rewrite (rsum_ext d _ (fun k => (if (k =? q - m * d)%nat then 1 else 0) * g_dfb m n d del h X r L Lm k)).
      * rewrite rsum_one by auto. ring.
      * intros k Hk. unfold ind. destruct (Nat.eqb_spec (m * d + k) q); destruct (Nat.eqb_spec k (q - m * d)); try lia; ring.
    + rewrite Z2 by nia. unfold ind. assert (Q : (q = (m + 1) * d \/ q = (m + 1) * d + 1)%nat) by nia. destruct Q as [Q|Q].
      * replace (q - m * d - d)%nat with 0%nat by nia. rewrite <- Q, Nat.eqb_refl. rewrite (proj2 (Nat.eqb_neq (q + 1) q)) by lia. unfold vget. cbn [nth]. ring.
      * replace (q - m * d - d)%nat with 1%nat by nia. rewrite <- Q, Nat.eqb_refl. rewrite (proj2 (Nat.eqb_neq _ q)) by lia. unfold vget. cbn [nth]. ring.
Qed.

(** * Specification: the log-density of the residuals at the parameters [w] *)
Definition is_density (d m n : nat) (del : R) (X : nat -> nat -> R) (r : nat -> R) (w : vec) (v : R) : Prop :=
  exists B A, is_inv m (pseudo_cov d (u_b m d w) (u_c m d w) del (u_xb m w)) B /\
    let S := obs_cov d (u_b m d w) (u_c m d w) (u_sig m d w) m (u_xb m w) X B in is_inv n S A /\ v = log_gauss n S A r.
Lemma density_unique d m n del X r w v v' : is_density d m n del X r w v -> is_density d m n del X r w v' -> v = v'.
Proof.
  intros (B & A & HB & HA & ->) (B' & A' & HB' & HA' & ->). pose proof (inv_unique m _ B B' HB HB') as EB.
  assert (ET : forall x y, through d (u_b m d w) (u_c m d w) m (u_xb m w) B x y = through d (u_b m d w) (u_c m d w) m (u_xb m w) B' x y).
  { intros x y. unfold through. apply rsum_ext. intros p Hp. apply rsum_ext. intros q Hq. now rewrite (EB p q Hp Hq). }
  assert (ES : forall i j, obs_cov d (u_b m d w) (u_c m d w) (u_sig m d w) m (u_xb m w) X B i j = obs_cov d (u_b m d w) (u_c m d w) (u_sig m d w) m (u_xb m w) X B' i j).
  { intros i j. unfold obs_cov. now rewrite !ET. }
  assert (HA2 : is_inv n (obs_cov d (u_b m d w) (u_c m d w) (u_sig m d w) m (u_xb m w) X B) A').
  { destruct HA' as [H1 H2]. split; intros i j Hi Hj; [rewrite <- (H1 i j Hi Hj)|rewrite <- (H2 i j Hi Hj)]; unfold mmul; apply rsum_ext; intros k Hk; now rewrite ES. }
  pose proof (inv_unique n _ A A' HA HA2) as EA. unfold log_gauss.
  rewrite (det_ext n _ _ (fun i j _ _ => ES i j)). do 3 f_equal. apply rsum_ext. intros i Hi. apply rsum_ext. intros j Hj. now rewrite (EA i j Hi Hj).
Qed.

Section C65.
Variables (K : Kern) (M : Mean) (MO : MeanOK M) (jit pct : R) (min_m : nat) (sig0 c0 l0 : R).
Hypothesis Hjit : 0 < jit.

Theorem C65_gradient (s : spgp K M) m d del w :
  p_m K M s = Some m -> p_din K M s = Some d -> p_del K M s = Some del -> 0 < del ->
  rows (p_zm K M s) = length (p_X K M s) -> cols (p_zm K M s) = 1%nat -> length w = ((m + 1) * d + 2)%nat ->
  let n := length (p_X K M s) in
  let X := fun i k => vget (nth i (p_X K M s) []) k in
  let r := fun j => at_ (p_zm K M s) j 0 in
  exists f g, likelihood K M s w = Done (f, g) /\ length g = length w /\
  forall q, (q < length w)%nat ->
    exists D, (forall t, is_density d m n del X r (vupd w q t) (D t)) /\ is_derive D (vget w q) (vget g q).
Proof.
  intros Em Ed Edel Hdel Hr Hco Hw n X r. unfold likelihood. rewrite Em, Ed, Edel. unfold hyper_params.
  rewrite (proj2 (Nat.leb_le _ _)), Hr, Hco, !Nat.eqb_refl by lia. cbn [andb check]. cbv zeta. fold n. unfold of_rows. cbn [at_]. fold X r.
  pose (hw := fun w : vec => mkHp (fun i j => vget w (i + j * m)) (fun j => exp (vget w (m * d + j))) (exp (vget w ((m + 1) * d))) (exp (vget w ((m + 1) * d + 1)))).
  fold (hw w).
  assert (Hb : forall w k, 0 < SpgpModel.h_b (hw w) k) by (intros; apply exp_pos).
  assert (Hc : forall w, 0 < SpgpModel.h_c (hw w)) by (intro; apply exp_pos). assert (Hs : forall w, 0 < SpgpModel.h_sig (hw w)) by (intro; apply exp_pos).
  destruct (factors_exist m n d del (hw w) X (fun k _ => Hb w k) (Hc w) (Hs w) Hdel) as (L & Lm & EL & CL & EP & EM & CM). rewrite EL, EP, EM.
  do 2 eexists. split; [reflexivity|]. split.
  { rewrite map_length. unfold g_dfw. rewrite !app_length, !vec_of_length. cbn [length]. lia. }
  intros q Hq. pose (ht := fun t => hw (vupd w q t)).
  assert (E0 : ht (vget w q) = hw w) by (unfold ht; now rewrite vupd_id).
  assert (DE : forall i, is_derive (fun t => exp (vget (vupd w q t) i)) (vget w q) (exp (vget (vupd w q (vget w q)) i) * ind q i)).
  { intro i. eapply is_derive_val'; [apply (is_derive_comp exp (fun t => vget (vupd w q t) i)); [apply is_derive_Reals, derivable_pt_lim_exp|apply (is_derive_vupd w q i Hq)]|].
    unfold scal; simpl; unfold mult; simpl. unfold ind. req. ring. }
  pose proof (path_derive m n d del ht X r (vget w q) (fun a k => ind q (a + k * m)) (fun k => ind q (m * d + k)) (ind q ((m + 1) * d)) (ind q ((m + 1) * d + 1))
    Hdel (fun t => Hb (vupd w q t)) (fun t => Hc (vupd w q t)) (fun t => Hs (vupd w q t))
    (fun a k => is_derive_vupd w q (a + k * m) Hq) (fun k => DE (m * d + k)%nat) (DE ((m + 1) * d)%nat) (DE ((m + 1) * d + 1)%nat) L Lm) as PD.
  rewrite E0 in PD. specialize (PD CL EL CM). rewrite components in PD by lia.
  eexists. split; [|eapply is_derive_val'; [exact PD|]].
  - intro t.
    pose proof (Lt_ok m d del ht Hdel (fun t => Hb (vupd w q t)) (fun t => Hc (vupd w q t)) t) as CLt.
    pose proof (LAt_ok m n d del ht X Hdel (fun t => Hb (vupd w q t)) (fun t => Hc (vupd w q t)) (fun t => Hs (vupd w q t)) t) as CAt.
    set (Lq := match chol m (l_Q d del (ht t)) with Some L0 => L0 | None => fun _ _ => 0 end) in *.
    set (LA := match chol n (A_ m (l_K d (ht t) X) (SpgpModel.h_c (ht t)) (SpgpModel.h_sig (ht t)) (inv_of m Lq)) with Some L0 => L0 | None => fun _ _ => 0 end) in *.
    exists (inv_of m Lq), (inv_of n LA). destruct (inv_of_is_inv m Lq _ CLt) as [HB _]. destruct (inv_of_is_inv n LA _ CAt) as [HA _].
    assert (Hbt : forall k, (k < d)%nat -> 0 <= SpgpModel.h_b (ht t) k) by (intros; apply Rlt_le, Hb).
    assert (EA : forall i j, A_ m (l_K d (ht t) X) (SpgpModel.h_c (ht t)) (SpgpModel.h_sig (ht t)) (inv_of m Lq) i j =
      obs_cov d (u_b m d (vupd w q t)) (u_c m d (vupd w q t)) (u_sig m d (vupd w q t)) m (u_xb m (vupd w q t)) X (inv_of m Lq) i j)
      by (intros i j; apply (A_obs m d (ht t) X (fun k _ => Hb (vupd w q t) k))).
    split; [|cbv zeta; split].
    + destruct HB as [H1 H2]. split; intros i j Hi Hj; [rewrite <- (H1 i j Hi Hj)|rewrite <- (H2 i j Hi Hj)]; unfold mmul; apply rsum_ext; intros k Hk; rewrite (l_Q_cov d (ht t) Hbt); reflexivity.
    + destruct HA as [H1 H2]. split; intros i j Hi Hj; [rewrite <- (H1 i j Hi Hj)|rewrite <- (H2 i j Hi Hj)]; unfold mmul; apply rsum_ext; intros k Hk; now rewrite EA.
    + cbv beta. fold Lq. fold LA. unfold log_gauss. rewrite (det_ext n _ _ (fun i j _ _ => EA i j)). reflexivity.
  - unfold vget. etransitivity; [symmetry; apply map_nth|]. now rewrite Ropp_0.
Qed.

(** the state in which a call runs its optimizer *)
Lemma during_state d os o s0 : valid M pct min_m d (os ++ [o]) ->
  let D := data (os ++ [o]) in
  exists s s1, s_run K M jit pct min_m sig0 c0 l0 s0 os = Done s /\ during K M jit pct min_m sig0 c0 l0 s o = Done s1 /\
    ready K M jit d D s1 /\ p_m K M s1 = Some (m_of pct min_m (length (fst D))) /\ usable M pct min_m d D.
Proof.
  intros Hv D.
  assert (P : exists s, s_run K M jit pct min_m sig0 c0 l0 s0 os = Done s /\
    (is_compute o \/ (usable M pct min_m d (data os) /\ ready K M jit d (data os) s /\ p_m K M s = Some (m_of pct min_m (length (fst (data os))))))).
  { destruct os as [|o1 os1 _] using rev_ind.
    - exists s0. split; [reflexivity|]. left. destruct Hv as [(pos & opt & X1 & Y1 & r1 & E) _]. cbn in E. injection E as -> _. exact Logic.I.
    - assert (Hv' : valid M pct min_m d (os1 ++ [o1])).
      { destruct Hv as [(pos & opt & X1 & Y1 & r1 & E) V1]. split; [|exact (proj1 (valid_app M pct min_m d _ _ _ V1))].
        destruct os1 as [|o2 os2]; cbn in E |- *; injection E as -> _; do 5 eexists; reflexivity. }
      destruct (history_ok K M MO jit pct min_m sig0 c0 l0 Hjit d os1 o1 s0 Hv') as (s & E & U & (w & _ & R & H & _)).
      exists s. split; [exact E|]. right. split; [exact U|]. split; [exact R|]. apply (h_m _ _ _ _ _ _ _ _ _ _ _ H). }
  destruct P as (s & E & P). pose proof (valid_app M pct min_m d os o _ (proj2 Hv)) as (_ & U & _).
  assert (ED : D = data_step (data os) o) by (unfold D, data; now rewrite fold_left_app).
  change (fold_left data_step os ([], [])) with (data os) in U.
  destruct (during_ok K M MO jit pct min_m sig0 c0 l0 d (data os) o s P U) as (s1 & E1 & R1 & M1). rewrite <- ED in R1, M1, U.
  exists s, s1. auto.
Qed.

(** in every call of every valid history, at every parameter vector: each component of the gradient is the partial derivative of the
    log-density; of the returned value it is the derivative except, when [n - m] is odd, for the noise, where it is off by 1/2 *)
Theorem C65_history d os o s0 : valid M pct min_m d (os ++ [o]) ->
  let D := data (os ++ [o]) in
  let n := length (fst D) in
  let m := m_of pct min_m n in
  let X := fun i k => vget (nth i (fst D) []) k in
  (Z.of_nat n < 2 ^ 64)%Z ->
  exists s s1, s_run K M jit pct min_m sig0 c0 l0 s0 os = Done s /\ during K M jit pct min_m sig0 c0 l0 s o = Done s1 /\
  forall w, length w = ((m + 1) * d + 2)%nat ->
    exists f g, likelihood K M s1 w = Done (f, g) /\ length g = length w /\
    forall q, (q < length w)%nat ->
      (exists D, forall t, is_density d m n jit X (res M (data (os ++ [o]))) (vupd w q t) (D t)) /\
      (forall D, (forall t, is_density d m n jit X (res M (data (os ++ [o]))) (vupd w q t) (D t)) -> is_derive D (vget w q) (vget g q)) /\
      exists F, (forall t, exists gt, likelihood K M s1 (vupd w q t) = Done (F t, gt)) /\
        is_derive F (vget w q) (vget g q + (if Nat.even (n - m) || negb (q =? (m + 1) * d + 1)%nat then 0 else 1 / 2)).
Proof.
  intros Hv D n m X Hn. destruct (during_state d os o s0 Hv) as (s & s1 & E & E1 & R1 & M1 & U). fold D in R1, M1, U.
  exists s, s1. split; [exact E|]. split; [exact E1|]. intros w Hw.
  assert (HZ : rows (p_zm K M s1) = length (p_X K M s1)) by (rewrite (r_X _ _ _ _ _ _ R1); apply (r_zr _ _ _ _ _ _ R1)).
  destruct (C65_gradient s1 m d jit w M1 (r_din _ _ _ _ _ _ R1) (r_del _ _ _ _ _ _ R1) Hjit HZ (r_zc _ _ _ _ _ _ R1) Hw) as (f & g & EL & Lg & G).
  rewrite (r_X _ _ _ _ _ _ R1) in G. exists f, g. split; [exact EL|]. split; [exact Lg|]. intros q Hq.
  destruct (G q Hq) as (D0 & HD0 & DD0).
  assert (RD : forall t v, is_density d m n jit X (fun j => at_ (p_zm K M s1) j 0) (vupd w q t) v <-> is_density d m n jit X (res M D) (vupd w q t) v).
  { assert (EG : forall S A, log_gauss n S A (fun j => at_ (p_zm K M s1) j 0) = log_gauss n S A (res M D)).
    { intros S A. unfold log_gauss. do 3 f_equal. apply rsum_ext. intros i Hi. apply rsum_ext. intros j Hj. now rewrite !(r_z _ _ _ _ _ _ R1). }
    intros t v. unfold is_density. cbv zeta. split; intros (B & A & HB & HA & EV); exists B, A; split; auto; split; auto; rewrite EV; now rewrite EG. }
  assert (HD1 : forall t, is_density d m n jit X (res M D) (vupd w q t) (D0 t)) by (intro t; now apply RD).
  split; [now exists D0|]. split.
  - intros D1 H1. apply is_derive_ext with (f := D0); [|exact DD0]. intro t. apply (density_unique _ _ _ _ _ _ _ _ _ (HD1 t) (H1 t)).
  - exists (fun t => D0 t + (if Nat.even (n - m) then 0 else 1 / 2 * vget (vupd w q t) ((m + 1) * d + 1))). split.
    + intro t. destruct (C64_value K M s1 m d jit (vupd w q t) M1 (r_din _ _ _ _ _ _ R1) (r_del _ _ _ _ _ _ R1) Hjit HZ (r_zc _ _ _ _ _ _ R1)) as (ft & gt & ELt & _ & V).
      * rewrite vupd_len by auto. lia.
      * rewrite (r_X _ _ _ _ _ _ R1). apply U.
      * rewrite (r_X _ _ _ _ _ _ R1). exact Hn.
      * exists gt. rewrite ELt. f_equal. f_equal. rewrite (r_X _ _ _ _ _ _ R1) in V. destruct (proj2 (RD t (D0 t)) (HD1 t)) as (B & A & HB & HA & EV). rewrite (V B A HB HA), EV.
        f_equal. fold n. destruct (Nat.even (n - m)); [reflexivity|]. unfold u_sig. now rewrite ln_exp.
    + apply @is_derive_plus; [exact DD0|]. destruct (Nat.even (n - m)); cbn [orb]; [apply @is_derive_const|].
      eapply is_derive_val'; [apply is_derive_scal, (is_derive_vupd w q _ Hq)|]. rewrite (Nat.eqb_sym q). destruct ((m + 1) * d + 1 =? q)%nat; cbn [negb]; req; field.
Qed.
End C65.

(** with an odd number of samples more than pseudo-inputs, the last component of the gradient is not the derivative of the value *)
Theorem C65_odd_refuted K jit s0 : 0 < jit -> exists o s1 w f g F,
  valid NullFunction 10 1 1 ([] ++ [o]) /\ during K NullFunction jit 10 1 0 0 0 s0 o = Done s1 /\ likelihood K NullFunction s1 w = Done (f, g) /\
  (forall t, exists gt, likelihood K NullFunction s1 (vupd w 3 t) = Done (F t, gt)) /\ ~ is_derive F (vget w 3) (vget g 3).
Proof.
  intro Hj. pose (o := SCompute [] zeros [[0]; [2]] [[1]; [0]]). exists o.
  assert (V : valid NullFunction 10 1 1 ([] ++ [o])).
  { destruct C63_nonvacuous as [_ (U & Z & _)]. split; [do 5 eexists; reflexivity|]. split; [exact U|]. split; [exact Z|exact Logic.I]. }
  assert (M2 : m_of 10 1 2 = 1%nat) by (apply m_of_small; cbn [INR]; lra).
  pose proof (C65_history K NullFunction (RT_OK _ null_RT) jit 10 1 0 0 0 Hj 1 [] o s0 V) as P.
  cbv zeta in P. change (length (fst (data ([] ++ [o])))) with 2%nat in P. rewrite M2 in P.
  destruct (P ltac:(cbn; lia)) as (s & s1 & E & E1 & Q). cbn in E. injection E as <-.
  destruct (Q [0; 0; 0; 1] eq_refl) as (f & g & EL & _ & G). destruct (G 3%nat ltac:(cbn; lia)) as (_ & _ & F & HF & DF).
  exists s1, [0; 0; 0; 1], f, g, F. split; [exact V|]. split; [exact E1|]. split; [exact EL|]. split; [exact HF|].
  cbn [Nat.even Nat.sub orb Nat.eqb Nat.mul Nat.add negb] in DF. intro C.
  pose proof (is_derive_unique' F _ _ _ DF C). lra.
Qed.
Example C65_nonvacuous : valid NullFunction 10 1 1 ex_history /\ length (fst (data ex_history)) = 3%nat /\ Nat.even (3 - m_of 10 1 3) = true.
Proof. apply C64_nonvacuous. Qed.
