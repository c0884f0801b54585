(** One implementation that the relations of FpModel and FpMeanModel allow: sums from left to right
    with fused operations.  Used to show that the hypotheses of the theorems can be met. *)
From Coq Require Import ZArith List Bool Lia Permutation.
From Coq Require Import Floats.SpecFloat.
From Verif Require Import F64 FpModel FpGp Prop_Fp FpKerModel Prop_FpKer Prop_FpLik FpAcqModel Prop_FpAcq FpMeanModel.
Import ListNotations.

Definition dotm (c : F) (l : list (F * F)) : F := feval (chain c l).
Lemma dotm_ok m c from len f g : (len <= m)%nat -> minus_dot m c (prods from len f g) (dotm c (prods from len f g)).
Proof. intros H. apply chain_ok. now rewrite prods_length. Qed.

(** ** factorisation *)
Fixpoint cholF (A : fmat) (k : nat) : fmat :=
  match k with
  | O => fun _ _ => f0
  | S k => let L := cholF A k in
      let d := fsqrt (dotm (A k k) (prods 0 k (L k) (L k))) in
      fun i j => if (j =? k)%nat then (if (i =? k)%nat then d else fdiv (dotm (A i k) (prods 0 k (L k) (L i))) d) else L i j
  end.
Lemma cholF_ok m n A : (n <= m)%nat -> forall k, (k <= n)%nat -> (forall j, (j < k)%nat -> column m n A (cholF A k) j) \/ llt_stops m n A.
Proof.
  intros Hnm. induction k as [|k IH]; intros Hk; [left; intros; lia|]. destruct (IH ltac:(lia)) as [HL|S]; [|now right]. clear IH.
  set (L := cholF A k) in *. set (s := dotm (A k k) (prods 0 k (L k) (L k))).
  assert (Hs : pivot m A L k s) by (apply dotm_ok; lia).
  destruct (fle s f0) eqn:E; [right; exists L, k, s; auto|]. left.
  cbn [cholF]. fold L. cbv zeta. fold s. set (L1 := fun i j => _).
  assert (Old : forall i j, (j < k)%nat -> L1 i j = L i j) by (intros i j Hj; unfold L1; now rewrite (proj2 (Nat.eqb_neq j k)) by lia).
  assert (Hs1 : pivot m A L1 k s) by (eapply pivot_ext; [reflexivity| |exact Hs]; intros c Hc; symmetry; now apply Old).
  intros j Hj. destruct (Nat.eq_dec j k) as [->|Nj].
  - split.
    + exists s. split; auto. split; auto. unfold L1. now rewrite !Nat.eqb_refl.
    + intros i Hi. exists (dotm (A i k) (prods 0 k (L k) (L i))). split.
      { rewrite (prods_ext 0 k (L1 k) (L k) (L1 i) (L i)) by (intros c Hc; split; apply Old; lia). apply dotm_ok. lia. }
      left. unfold L1. rewrite Nat.eqb_refl. now rewrite (proj2 (Nat.eqb_neq i k)) by lia.
  - destruct (HL j ltac:(lia)) as ((t & T1 & T2 & T3) & B). split.
    + exists t. split; [|split; auto; rewrite Old by lia; auto]. eapply pivot_ext; [reflexivity| |exact T1]. intros c Hc. symmetry. apply Old. lia.
    + intros i Hi. eapply below_ext; [lia|reflexivity| |apply B; lia]. intros c Hc. split; symmetry; apply Old; lia.
Qed.

(** ** triangular systems *)
Fixpoint solF (L : fmat) (b : fvec) (k : nat) : fvec :=
  match k with
  | O => fun _ => f0
  | S k => let x := solF L b k in fun i => if (i =? k)%nat then fdiv (dotm (b k) (prods 0 k (L k) x)) (L k k) else x i
  end.
Lemma solF_ok m n L b : (n <= m)%nat -> fsolve m n L b (solF L b n).
Proof.
  intros Hnm. induction n as [|k IH]; intros i Hi; [lia|]. specialize (IH ltac:(lia)). set (x := solF L b k) in *.
  set (x1 := solF L b (S k)). assert (Old : forall i, (i < k)%nat -> x1 i = x i) by (intros c Hc; unfold x1; cbn [solF]; cbv zeta; now rewrite (proj2 (Nat.eqb_neq c k)) by lia).
  destruct (Nat.eq_dec i k) as [->|Nj].
  - exists (dotm (b k) (prods 0 k (L k) x)). rewrite (prods_ext 0 k (L k) (L k) x1 x) by (intros c Hc; split; auto; apply Old; lia).
    split; [apply dotm_ok; lia|]. left. unfold x1. cbn [solF]. cbv zeta. now rewrite Nat.eqb_refl.
  - destruct (IH i ltac:(lia)) as (s & S1 & S2). exists s. rewrite (prods_ext 0 i (L i) (L i) x1 x) by (intros c Hc; split; auto; apply Old; lia).
    split; auto. rewrite Old by lia. auto.
Qed.
Fixpoint bsolF (n : nat) (L : fmat) (b : fvec) (k : nat) : fvec :=
  match k with
  | O => fun _ => f0
  | S k => let x := bsolF n L b k in let r := (n - S k)%nat in
      fun i => if (i =? r)%nat then fdiv (dotm (b r) (prods (S r) (n - S r) (fun c => L c r) x)) (L r r) else x i
  end.
Lemma bsolF_ok m n L b : (n <= m)%nat -> bsolve m n L b (bsolF n L b n).
Proof.
  intros Hnm. assert (G : forall k, (k <= n)%nat -> forall i, (n - k <= i < n)%nat -> exists s,
    minus_dot m (b i) (prods (S i) (n - S i) (fun c => L c i) (bsolF n L b k)) s /\ quot s (L i i) (bsolF n L b k i)).
  { induction k as [|k IH]; intros Hk i Hi; [lia|]. specialize (IH ltac:(lia)). set (x := bsolF n L b k) in *.
    set (r := (n - S k)%nat) in *. set (x1 := bsolF n L b (S k)).
    assert (Old : forall i, (i > r)%nat -> x1 i = x i) by (intros c Hc; unfold x1; cbn [bsolF]; cbv zeta; fold r; now rewrite (proj2 (Nat.eqb_neq c r)) by lia).
    destruct (Nat.eq_dec i r) as [->|Nj].
    - exists (dotm (b r) (prods (S r) (n - S r) (fun c => L c r) x)).
      rewrite (prods_ext (S r) (n - S r) (fun c => L c r) (fun c => L c r) x1 x) by (intros c Hc; split; auto; apply Old; lia).
      split; [apply dotm_ok; lia|]. left. unfold x1. cbn [bsolF]. cbv zeta. fold r. now rewrite Nat.eqb_refl.
    - destruct (IH i ltac:(lia)) as (s & S1 & S2). exists s.
      rewrite (prods_ext (S i) (n - S i) (fun c => L c i) (fun c => L c i) x1 x) by (intros c Hc; split; auto; apply Old; lia).
      split; auto. rewrite Old by lia. auto. }
  intros i Hi. apply (G n (le_n _)). lia.
Qed.
Definition alphaF (n : nat) (L : fmat) (y : fvec) : fvec := bsolF n L (solF L y n) n.
Lemma alphaF_ok m n L y : (n <= m)%nat -> alpha_of m n L y (alphaF n L y).
Proof. intros H. exists (solF L y n). split; [now apply solF_ok|now apply bsolF_ok]. Qed.

(** ** one more row *)
Fixpoint rowF (A L : fmat) (n k : nat) : fmat :=
  match k with
  | O => L
  | S k => let L1 := rowF A L n k in
      fun i j => if ((i =? n) && (j =? k))%nat then fdiv (dotm (A n k) (prods 0 k (L1 k) (L1 n))) (L1 k k) else L1 i j
  end.
Definition chol_rowF (A L : fmat) (n : nat) : fmat :=
  let L1 := rowF A L n n in
  fun i j => if ((i =? n) && (j =? n))%nat then fsqrt (dotm (A n n) (prods 0 n (L1 n) (L1 n))) else L1 i j.
Lemma rowF_old A L n k i j : (i <> n \/ k <= j)%nat -> rowF A L n k i j = L i j.
Proof.
  intros H. induction k as [|k IH]; [reflexivity|]. cbn [rowF]. cbv zeta. destruct (Nat.eqb_spec i n), (Nat.eqb_spec j k); cbn [andb]; try lia; apply IH; lia.
Qed.
Lemma rowF_ok m A L n : (n <= m)%nat -> forall k, (k <= n)%nat -> forall j, (j < k)%nat -> below m A (rowF A L n k) n j.
Proof.
  intros Hm. induction k as [|k IH]; intros Hk j Hj; [lia|]. specialize (IH ltac:(lia)).
  assert (Old : forall i j, (i <> n \/ j <> k)%nat -> rowF A L n (S k) i j = rowF A L n k i j).
  { intros a b H. cbn [rowF]. cbv zeta. destruct (Nat.eqb_spec a n), (Nat.eqb_spec b k); cbn [andb]; auto; lia. }
  destruct (Nat.eq_dec j k) as [->|N].
  - exists (dotm (A n k) (prods 0 k (rowF A L n k k) (rowF A L n k n))).
    rewrite (prods_ext 0 k _ (rowF A L n k k) _ (rowF A L n k n)) by (intros c Hc; split; apply Old; lia).
    split; [apply dotm_ok; lia|]. left. rewrite (Old k k) by lia. cbn [rowF]. cbv zeta. now rewrite !Nat.eqb_refl.
  - eapply below_ext; [lia|reflexivity| |apply IH; lia]. intros c Hc. split; symmetry; apply Old; lia.
Qed.
Lemma chol_rowF_ok m A L n : (n <= m)%nat -> chol_row m n A L (chol_rowF A L n).
Proof.
  intros Hm. unfold chol_rowF. cbv zeta. set (L1 := rowF A L n n). set (L2 := fun i j => _).
  assert (Old : forall i j, (i <> n \/ j <> n)%nat -> L2 i j = L1 i j).
  { intros a b H. unfold L2. destruct (Nat.eqb_spec a n), (Nat.eqb_spec b n); cbn [andb]; auto; lia. }
  split; [intros i j Hi Hj; rewrite Old by lia; unfold L1; apply rowF_old; lia|]. split.
  - intros j Hj. eapply below_ext; [lia|reflexivity| |apply (rowF_ok m A L n Hm n (le_n _) j Hj)]. intros c Hc. split; symmetry; apply Old; lia.
  - exists (dotm (A n n) (prods 0 n (L1 n) (L1 n))). split.
    + unfold pivot. rewrite (prods_ext 0 n (L2 n) (L1 n) (L2 n) (L1 n)) by (intros c Hc; split; apply Old; lia). apply dotm_ok. auto.
    + unfold L2. now rewrite Nat.eqb_refl.
Qed.

(** ** the GP *)
Section Impl.
  Variables (fexp : F -> F) (mk d : nat) (sf2 noise : F) (p : kpar) (m : nat) (mf : meanf).
  Hypothesis Hp : kpar_ok d p.
  Hypothesis Hmk : (2 * d <= mk)%nat.
  Notation kv := (kval fexp sf2 noise p).

  Definition meanF (ys : list F) : F :=
    match mf with
    | MNull => f0 | MConst c => c
    | MData => fdiv (feval (line (map (fun o => (false, TNum o)) ys))) (fofZ (Z.of_nat (length ys)))
    end.
  Lemma meanF_ok ys : (length ys <= m)%nat -> mean_val m mf ys (meanF ys).
  Proof. intros H. unfold mean_val, meanF. destruct mf; auto. eexists. split; [apply line_ok; now rewrite map_length|reflexivity]. Qed.

  Definition computeF (xs : list fpt) (ys : list F) : fgp :=
    let A := kernel_full (fun i j => kv (ptsf xs i) (ptsf xs j) (i =? j)%nat) in
    let L := cholF A (length xs) in
    mkFgp xs ys (meanF ys) A L (alphaF (length xs) L (residual ys (meanF ys))).
  Lemma computeF_ok xs ys : Forall (point d) xs -> length ys = length xs -> (length xs <= m)%nat -> gp_compute fexp mk sf2 noise p m mf xs ys (computeF xs ys).
  Proof.
    intros Hx Hl Hm. unfold gp_compute, computeF. cbn [fg_xs fg_ys fg_A fg_L]. split; auto. split; auto.
    assert (P : forall i, (i < length xs)%nat -> point d (ptsf xs i)) by (intros i Hi; rewrite Forall_forall in Hx; apply Hx, nth_In, Hi).
    split; [|split; cbn [fg_xs fg_ys fg_mean fg_L fg_a]; [apply meanF_ok; lia|apply alphaF_ok; lia]].
    eexists. split; [|split; [reflexivity|]].
    - intros i j Hi. apply kval_ok with d; auto; apply P; lia.
    - apply (cholF_ok m (length xs) _ Hm (length xs) (le_n _)).
  Qed.

  Definition addF (g : fgp) (x : fpt) (y : F) : fgp :=
    let n := length (fg_xs g) in
    let xs := fg_xs g ++ [x] in let ys := fg_ys g ++ [y] in
    let k := fun i => kv (ptsf xs i) x (i =? n)%nat in
    let A := fun i j => if (j =? n)%nat then k i else if (i =? n)%nat then k j else fg_A g i j in
    let L := chol_rowF A (fg_L g) n in
    mkFgp xs ys (meanF ys) A L (alphaF (length xs) L (residual ys (meanF ys))).
  Lemma addF_ok g x y : Forall (point d) (fg_xs g) -> point d x -> length (fg_ys g) = length (fg_xs g) -> (length (fg_xs g) < m)%nat ->
    gp_add fexp mk sf2 noise p m mf g x y (addF g x y).
  Proof.
    intros Hx Px Hl Hm. unfold gp_add, addF. cbv zeta. set (n := length (fg_xs g)). cbn [fg_xs fg_ys fg_A fg_L]. split; auto. split; auto.
    assert (Ln : length (fg_xs g ++ [x]) = S n) by (rewrite app_length; cbn; unfold n; lia).
    assert (P : forall i, (i <= n)%nat -> point d (ptsf (fg_xs g ++ [x]) i)).
    { intros i Hi. assert (Hx' : Forall (point d) (fg_xs g ++ [x])) by (apply Forall_app; auto). rewrite Forall_forall in Hx'. apply Hx', nth_In. rewrite Ln. lia. }
    split; [|split; cbn [fg_xs fg_ys fg_mean fg_L fg_a]; [apply meanF_ok; rewrite app_length; cbn; lia|apply alphaF_ok; rewrite Ln; fold n in Hm; lia]].
    eexists. split; [|split; [reflexivity|]].
    - intros i Hi. apply kval_ok with d; auto.
    - apply chol_rowF_ok. fold n in Hm. lia.
  Qed.

  Definition muF (g : fgp) (v : fpt) : F :=
    feval (line ((false, TNum (fg_mean g)) :: map (fun q => (false, TMul (fst q) (snd q))) (prods 0 (length (fg_xs g)) (fun i => kv (ptsf (fg_xs g) i) v false) (fg_a g)))).
  Definition sigmaF (g : fgp) (v : fpt) : F :=
    let n := length (fg_xs g) in
    let z := solF (fg_L g) (fun i => kv (ptsf (fg_xs g) i) v false) n in
    let res := dotm (kv v v false) (prods 0 n z z) in
    if fle res feps then f0 else res.
  Lemma muF_ok g v : Forall (point d) (fg_xs g) -> point d v -> (length (fg_xs g) < m)%nat -> gp_mu fexp mk sf2 noise p m g v (muF g v).
  Proof.
    intros Hx Pv Hm. exists (fun i => kv (ptsf (fg_xs g) i) v false). split.
    - intros i Hi. apply kval_ok with d; auto. rewrite Forall_forall in Hx. apply Hx, nth_In, Hi.
    - apply line_ok. cbn [length]. rewrite map_length, prods_length. lia.
  Qed.
  Lemma queryF_ok g v : Forall (point d) (fg_xs g) -> point d v -> (length (fg_xs g) < m)%nat -> gp_query fexp mk sf2 noise p m g v (muF g v) (sigmaF g v).
  Proof.
    intros Hx Pv Hm. exists (fun i => kv (ptsf (fg_xs g) i) v false), (kv v v false). split.
    - intros i Hi. apply kval_ok with d; auto. rewrite Forall_forall in Hx. apply Hx, nth_In, Hi.
    - split; [now apply kval_ok with d|]. split; [apply line_ok; cbn [length]; rewrite map_length, prods_length; lia|].
      eexists _, _. split; [apply solF_ok; lia|]. split; [apply dotm_ok; lia|reflexivity].
  Qed.
End Impl.
