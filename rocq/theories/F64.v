(** IEEE binary64 numbers ("double") as Coq's standard-library [spec_float]
    (precision 53, emax 1024, round to nearest even, a single NaN), together with
    the comparison operators of C++ and facts about their order.
    The C++ type [double] used all over /repo/src/limbo is modelled by [F]. *)
From Coq Require Import ZArith Lia Bool List.
From Coq Require Import Floats.SpecFloat.
Import ListNotations.
Open Scope Z_scope.

Definition F : Type := spec_float.

Definition fprec : Z := 53.
Definition femax : Z := 1024.

(** arithmetic operators [+ - * /] and [std::sqrt] on double *)
Definition fadd : F -> F -> F := SFadd fprec femax.
Definition fsub : F -> F -> F := SFsub fprec femax.
Definition fmul : F -> F -> F := SFmul fprec femax.
Definition fdiv : F -> F -> F := SFdiv fprec femax.
Definition fsqrt : F -> F := SFsqrt fprec femax.
Definition fopp : F -> F := SFopp.

(** conversion of an [int] (or any integer) to double, round to nearest even *)
Definition fofZ (z : Z) : F := binary_normalize fprec femax z 0 false.

(** [m * 2^e] rounded to double: used to write literals *)
Definition fofZe (m e : Z) : F := binary_normalize fprec femax m e false.

Definition f0 : F := S754_zero false.
Definition f1 : F := fofZ 1.
Definition fnan : F := S754_nan.
Definition finf : F := S754_infinity false.
Definition fninf : F := S754_infinity true.

(** C++ operators [<], [<=], [>], [>=], [==] on double: false as soon as an operand is NaN *)
Definition flt : F -> F -> bool := SFltb.
Definition fle : F -> F -> bool := SFleb.
Definition fgt (x y : F) : bool := flt y x.
Definition fge (x y : F) : bool := fle y x.
Definition feq : F -> F -> bool := SFeqb.

(** [std::isnan], [std::isinf] *)
Definition isnan (x : F) : bool := match x with S754_nan => true | _ => false end.
Definition isinf (x : F) : bool := match x with S754_infinity _ => true | _ => false end.

(** A vector ([Eigen::VectorXd]) *)
Definition vec : Type := list F.

(** /repo/src/limbo/tools/math.hpp:93-99 [is_nan_or_inf(T v)] for arithmetic types *)
Definition is_nan_or_inf1 (x : F) : bool := isinf x || isnan x.

(** /repo/src/limbo/tools/math.hpp:104-111 [is_nan_or_inf(const T& v)]: loop with early return *)
Fixpoint is_nan_or_inf (v : vec) : bool :=
  match v with
  | [] => false
  | x :: r => if is_nan_or_inf1 x then true else is_nan_or_inf r
  end.

(** specification: an ordinary (finite) number *)
Definition is_number (x : F) : Prop :=
  match x with S754_zero _ => True | S754_finite _ _ _ => True | _ => False end.

Definition notnan (x : F) : Prop := x <> S754_nan.

(** /repo/src/limbo/tools/math.hpp:72-91 [signum]: (0 < x) - (x < 0) *)
Definition signum (x : F) : Z := (if flt f0 x then 1 else 0) - (if flt x f0 then 1 else 0).

(** * Order facts *)

(** position of a non-NaN number in a lexicographic order of triples *)
Definition key (x : F) : Z * Z * Z :=
  match x with
  | S754_nan => (0, 0, 0)
  | S754_infinity true => (-2, 0, 0)
  | S754_infinity false => (2, 0, 0)
  | S754_zero _ => (0, 0, 0)
  | S754_finite true m e => (-1, - e, - Zpos m)
  | S754_finite false m e => (1, e, Zpos m)
  end.

Definition klt (a b : Z * Z * Z) : Prop :=
  let '(a1, a2, a3) := a in let '(b1, b2, b3) := b in
  a1 < b1 \/ (a1 = b1 /\ (a2 < b2 \/ (a2 = b2 /\ a3 < b3))).

Lemma klt_irrefl a : ~ klt a a.
Proof. destruct a as [[? ?] ?]; simpl; lia. Qed.

Lemma klt_trans a b c : klt a b -> klt b c -> klt a c.
Proof. destruct a as [[? ?] ?], b as [[? ?] ?], c as [[? ?] ?]; simpl; lia. Qed.

Lemma klt_total a b : klt a b \/ a = b \/ klt b a.
Proof.
  destruct a as [[a1 a2] a3], b as [[b1 b2] b3]; simpl.
  assert (H : (a1 < b1 \/ a1 = b1 /\ (a2 < b2 \/ a2 = b2 /\ a3 < b3)) \/
          (a1 = b1 /\ a2 = b2 /\ a3 = b3) \/
          (b1 < a1 \/ b1 = a1 /\ (b2 < a2 \/ b2 = a2 /\ b3 < a3))) by lia.
  destruct H as [H|[[H1 [H2 H3]]|H]]; [left | right; left | right; right]; auto.
  now subst.
Qed.

Definition sfcmp_key (x y : F) : comparison :=
  let '(a1, a2, a3) := key x in let '(b1, b2, b3) := key y in
  match a1 ?= b1 with Eq => match a2 ?= b2 with Eq => a3 ?= b3 | c => c end | c => c end.

Lemma sfcompare_key x y : notnan x -> notnan y -> SFcompare x y = Some (sfcmp_key x y).
Proof.
  unfold notnan, sfcmp_key; intros Hx Hy.
  destruct x as [[]|[]| |[] m e]; try congruence;
    destruct y as [[]|[]| |[] m' e']; try congruence; try reflexivity; simpl.
  - assert (E : (- e ?= - e') = (e' ?= e)) by (destruct (Z.compare_spec e' e); [apply Z.compare_eq_iff | apply Z.compare_lt_iff | apply Z.compare_gt_iff]; lia).
    rewrite E, (Z.compare_antisym e e').
    destruct (e ?= e') eqn:He; simpl; reflexivity.
Qed.

Lemma sfcmp_key_lt x y : sfcmp_key x y = Lt <-> klt (key x) (key y).
Proof.
  unfold sfcmp_key, klt.
  destruct (key x) as [[a1 a2] a3], (key y) as [[b1 b2] b3].
  destruct (Z.compare_spec a1 b1); [destruct (Z.compare_spec a2 b2); [destruct (Z.compare_spec a3 b3)| |]| |];
    split; intro H'; try reflexivity; try discriminate; lia.
Qed.

Lemma sfcmp_key_eq x y : sfcmp_key x y = Eq <-> key x = key y.
Proof.
  unfold sfcmp_key.
  destruct (key x) as [[a1 a2] a3], (key y) as [[b1 b2] b3].
  destruct (Z.compare_spec a1 b1); [destruct (Z.compare_spec a2 b2); [destruct (Z.compare_spec a3 b3)| |]| |];
    split; intro H'; try reflexivity; try discriminate; try congruence; inversion H'; lia.
Qed.

Lemma flt_spec x y : flt x y = true <-> notnan x /\ notnan y /\ klt (key x) (key y).
Proof.
  unfold flt, SFltb. split.
  - intro H. assert (Hx : notnan x) by (intro; subst; simpl in H; discriminate).
    assert (Hy : notnan y) by (intro; subst; destruct x as [[]|[]| |[] m e]; simpl in H; discriminate).
    rewrite sfcompare_key in H by auto.
    destruct (sfcmp_key x y) eqn:E; try discriminate.
    split; [auto|split; auto]. now apply sfcmp_key_lt.
  - intros (Hx & Hy & H). rewrite sfcompare_key by auto.
    apply sfcmp_key_lt in H. now rewrite H.
Qed.

Lemma fle_spec x y : fle x y = true <-> notnan x /\ notnan y /\ ~ klt (key y) (key x).
Proof.
  unfold fle, SFleb. split.
  - intro H. assert (Hx : notnan x) by (intro; subst; simpl in H; discriminate).
    assert (Hy : notnan y) by (intro; subst; destruct x as [[]|[]| |[] m e]; simpl in H; discriminate).
    rewrite sfcompare_key in H by auto.
    split; [auto|split; auto]. intro K.
    destruct (sfcmp_key x y) eqn:E; try discriminate.
    + apply sfcmp_key_eq in E. rewrite E in K. now apply klt_irrefl in K.
    + apply sfcmp_key_lt in E. exact (klt_irrefl _ (klt_trans _ _ _ E K)).
  - intros (Hx & Hy & H). rewrite sfcompare_key by auto.
    destruct (sfcmp_key x y) eqn:E; try reflexivity.
    exfalso. apply H.
    destruct (klt_total (key x) (key y)) as [K|[K|K]]; auto.
    + apply sfcmp_key_lt in K. congruence.
    + apply sfcmp_key_eq in K. congruence.
Qed.

Lemma flt_false x y : flt x y = false <-> x = S754_nan \/ y = S754_nan \/ ~ klt (key x) (key y).
Proof.
  destruct (flt x y) eqn:E.
  - apply flt_spec in E. destruct E as (A & B & C). unfold notnan in *.
    split; [discriminate|]. intros [|[|]]; tauto.
  - split; auto. intros _.
    destruct (isnan x) eqn:Nx; [left; destruct x; simpl in *; congruence|].
    destruct (isnan y) eqn:Ny; [right; left; destruct y; simpl in *; congruence|].
    right; right. intro K.
    assert (flt x y = true); [|congruence].
    apply flt_spec. repeat split; auto; intro; subst; discriminate.
Qed.

Lemma flt_irrefl x : flt x x = false.
Proof. apply flt_false. right; right; apply klt_irrefl. Qed.

Lemma flt_trans x y z : flt x y = true -> flt y z = true -> flt x z = true.
Proof.
  rewrite !flt_spec. intros (A & B & C) (D & E & G).
  repeat split; auto. eapply klt_trans; eauto.
Qed.

Lemma flt_asym x y : flt x y = true -> flt y x = false.
Proof.
  intro H. destruct (flt y x) eqn:E; auto.
  pose proof (flt_trans _ _ _ H E) as K. rewrite flt_irrefl in K. discriminate.
Qed.

(** "not less" is transitive on numbers that are not NaN (strict weak ordering) *)
Lemma nflt_trans x y z : notnan y -> flt x y = false -> flt y z = false -> flt x z = false.
Proof.
  unfold notnan. rewrite !flt_false. intros Hy [A|[A|A]] [B|[B|B]]; auto; try contradiction.
  right; right. intro K.
  destruct (klt_total (key x) (key y)) as [C|[C|C]]; auto.
  - rewrite <- C in B. contradiction.
  - apply B. eapply klt_trans; eauto.
Qed.

Lemma flt_nflt_trans x y z : notnan z -> flt x y = true -> flt z y = false -> flt x z = true.
Proof.
  rewrite !flt_spec, flt_false. unfold notnan. intros Hz (A & B & C) [D|[D|D]]; try contradiction.
  repeat split; auto.
  destruct (klt_total (key y) (key z)) as [E|[E|E]].
  - eapply klt_trans; eauto.
  - now rewrite <- E.
  - contradiction.
Qed.

Lemma nflt_flt_trans x y z : notnan x -> flt y x = false -> flt y z = true -> flt x z = true.
Proof.
  rewrite !flt_spec, flt_false. unfold notnan. intros Hz [D|[D|D]] (A & B & C); try contradiction.
  repeat split; auto.
  destruct (klt_total (key x) (key y)) as [E|[E|E]].
  - eapply klt_trans; eauto.
  - now rewrite E.
  - contradiction.
Qed.

Lemma fle_flt x y : fle x y = true <-> notnan x /\ notnan y /\ flt y x = false.
Proof.
  rewrite fle_spec, flt_false. unfold notnan. split; intros (A & B & C); repeat split; auto.
  destruct C as [C|[C|C]]; auto; contradiction.
Qed.

Lemma feq_flt x y : feq x y = true <-> notnan x /\ notnan y /\ flt x y = false /\ flt y x = false.
Proof.
  unfold feq, SFeqb. split.
  - intro H. assert (Hx : notnan x) by (intro; subst; simpl in H; discriminate).
    assert (Hy : notnan y) by (intro; subst; destruct x as [[]|[]| |[] m e]; simpl in H; discriminate).
    rewrite sfcompare_key in H by auto.
    destruct (sfcmp_key x y) eqn:E; try discriminate.
    apply sfcmp_key_eq in E. repeat split; auto; apply flt_false; right; right; rewrite E; apply klt_irrefl.
  - intros (Hx & Hy & A & B). rewrite sfcompare_key by auto.
    unfold notnan in *. rewrite flt_false in A, B.
    assert (E : sfcmp_key x y = Eq); [|now rewrite E].
    apply sfcmp_key_eq. destruct (klt_total (key x) (key y)) as [K|[K|K]]; auto; tauto.
Qed.

Lemma isnan_spec x : isnan x = true <-> x = S754_nan.
Proof. destruct x; simpl; split; congruence. Qed.

Lemma notnan_dec x : {notnan x} + {x = S754_nan}.
Proof. destruct x; try (left; unfold notnan; discriminate); now right. Qed.

Lemma is_nan_or_inf1_spec x : is_nan_or_inf1 x = false <-> is_number x.
Proof. destruct x as [[]|[]| |[] m e]; simpl; split; try discriminate; tauto. Qed.

Lemma is_nan_or_inf_spec v : is_nan_or_inf v = false <-> Forall is_number v.
Proof.
  induction v as [|x v IH]; simpl.
  - split; auto.
  - destruct (is_nan_or_inf1 x) eqn:E.
    + split; [discriminate|]. intro H. inversion H; subst.
      apply is_nan_or_inf1_spec in H2. congruence.
    + apply is_nan_or_inf1_spec in E. rewrite IH. split.
      * now constructor.
      * now inversion 1.
Qed.
