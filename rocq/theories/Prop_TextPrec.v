(** C38: what the text archive keeps of the numbers. *)
From Coq Require Import ZArith List Bool Lia Reals Lra Ascii.
From Coq Require Import Floats.SpecFloat.
From Flocq Require Import Core Relative.
From Verif Require Import F64 F64R AdamFloat FpErr SerializeModel Prop_Serialize Prop_FpKer.
Import ListNotations.
Open Scope R_scope.

(** ** Specification of the number formats (libstdc++, outside limbo) *)
(** [r] can be written with [p] significant decimal digits *)
Definition decimal (p : Z) (r : R) : Prop := exists m e, (Z.abs m < 10 ^ p)%Z /\ r = IZR m * powerRZ 10 e.
(** [d] is a decimal with [p] digits nearest to [x] *)
Definition nearest (p : Z) (x d : R) : Prop := decimal p d /\ forall d', decimal p d' -> Rabs (d - x) <= Rabs (d' - x).
(** numbers that std::stod does not refuse: libstdc++ throws std::out_of_range when strtod reports a
    subnormal number or an overflow *)
Definition moderate (x : F) : Prop := fvalid x /\ ffin x /\ (fval x = 0 \/ / 2 ^ 1000 <= Rabs (fval x) <= 2 ^ 1000).
(** operator<< at precision [p] (Eigen::FullPrecision, text_archive.hpp:66, is 15 or 16 according to
    the version of Eigen) prints a nearest decimal [dec x]; std::stod returns the double nearest to
    what was printed *)
Definition text_io (p : Z) (dec : F -> R) (print : F -> text) (stod : text -> option F) : Prop :=
  (forall x, moderate x -> nearest p (fval x) (dec x) /\
     print x <> [] /\ ~ In sp (print x) /\ ~ In nl (print x) /\
     exists y, stod (print x) = Some y /\ fvalid y /\ ffin y /\ fval y = rnd (dec x)) /\
  (forall x y, moderate x -> moderate y -> dec x = dec y -> dec x <> 0 -> print x = print y).

(** ** decimals *)
Definition radix10 : radix := Build_radix 10 eq_refl.
Lemma powerRZ_bpow e : powerRZ 10 e = bpow radix10 e.
Proof. symmetry. apply bpow_powerRZ. Qed.
Lemma decimal_flx p r : (0 < p)%Z -> generic_format radix10 (FLX_exp p) r -> decimal p r.
Proof.
  intros Hp G. assert (P : Prec_gt_0 p) by exact Hp.
  apply FLX_format_generic in G; [|exact P]. destruct G as [f E N]. exists (Fnum f), (Fexp f). split; [exact N|].
  rewrite E, powerRZ_bpow. reflexivity.
Qed.
Lemma near_decimal p x : (0 < p)%Z -> exists d, decimal p d /\ Rabs (d - x) <= / 2 * bpow radix10 (- p + 1) * Rabs x.
Proof.
  intros Hp. exists (round radix10 (FLX_exp p) ZnearestE x). split.
  - apply decimal_flx; auto. assert (P : Prec_gt_0 p) by exact Hp. apply generic_format_round; typeclasses eauto.
  - now apply relative_error_N_FLX.
Qed.

(** ** What is read back *)
(** With 15 digits or more every number comes back with a relative error below 6e-15. *)
Theorem C38_close : forall p dec print stod l, (15 <= p)%Z -> text_io p dec print stod ->
  l <> [] -> Forall (Forall moderate) l ->
  exists l', load_text_list stod (save_text_list print l) = TOk l' /\
    Forall2 (Forall2 (fun x y => ffin y /\ Rabs (fval y - fval x) <= 6 / 10 ^ 15 * Rabs (fval x) + / 2 ^ 1074)) l l'.
Proof.
  intros p dec print stod l Hp [H1 _] Hne Hl.
  set (re := fun x => match stod (print x) with Some y => y | None => x end).
  assert (T : forall x, moderate x -> prints_as_token print stod re x /\ (ffin (re x) /\ Rabs (fval (re x) - fval x) <= 6 / 10 ^ 15 * Rabs (fval x) + / 2 ^ 1074)).
  { intros x Hx. destruct (H1 x Hx) as ((D & N) & A & B & C & y & Y1 & Y2 & Y3 & Y4). unfold re. rewrite Y1. split.
    - split; auto. split; auto. split; auto. now rewrite Y1.
    - split; auto. destruct (near_decimal p (fval x) ltac:(lia)) as (d & Dd & Nd). specialize (N d Dd).
      assert (Q : bpow radix10 (- p + 1) <= / 10 ^ 14).
      { apply Rle_trans with (bpow radix10 (-14)); [apply bpow_le; lia|]. right. rewrite bpow_powerRZ. reflexivity. }
      pose proof (Rabs_pos (fval x)) as X0.
      assert (E1 : Rabs (dec x - fval x) <= / 2 * / 10 ^ 14 * Rabs (fval x)).
      { apply Rle_trans with (1 := N). apply Rle_trans with (1 := Nd). apply Rmult_le_compat_r; auto. apply Rmult_le_compat_l; [lra|exact Q]. }
      rewrite Y4. pose proof (rnd_error (dec x)) as E2.
      assert (E3 : Rabs (dec x) <= 2 * Rabs (fval x)).
      { replace (dec x) with ((dec x - fval x) + fval x) by ring. apply Rle_trans with (1 := Rabs_triang _ _).
        assert (/ 2 * / 10 ^ 14 * Rabs (fval x) <= 1 * Rabs (fval x)); [apply Rmult_le_compat_r; [auto|lra]|lra]. }
      assert (U : uu <= / 10 ^ 15). { unfold uu. change (bpow radix2 (-53)) with (/ IZR (2 ^ 53)). apply Rinv_le_contravar; [lra|]. simpl. lra. }
      assert (E4 : e0 <= / 2 ^ 1074). { unfold e0. rewrite <- (Prop_Fp.bp_inv 1074). apply bpow_le. lia. }
      assert (E5 : uu * Rabs (dec x) <= / 10 ^ 15 * / 10 * Rabs (fval x) * 10).
      { apply Rle_trans with (uu * Rabs (dec x)); [lra|].
        pose proof uu_pos. assert (Rabs (dec x) <= (1 + / 10 ^ 14) * Rabs (fval x)).
        { replace (dec x) with ((dec x - fval x) + fval x) by ring. apply Rle_trans with (1 := Rabs_triang _ _). lra. }
        assert (U2 : uu * (1 + / 10 ^ 14) <= / 10 ^ 15).
        { unfold uu. change (bpow radix2 (-53)) with (/ IZR (2 ^ 53)). simpl. lra. }
        apply Rle_trans with (uu * ((1 + / 10 ^ 14) * Rabs (fval x))); [apply Rmult_le_compat_l; lra|].
        rewrite <- Rmult_assoc. apply Rle_trans with (/ 10 ^ 15 * Rabs (fval x)); [apply Rmult_le_compat_r; auto|]. lra. }
      replace (rnd (dec x) - fval x) with ((rnd (dec x) - dec x) + (dec x - fval x)) by ring.
      apply Rle_trans with (1 := Rabs_triang _ _).
      assert (/ 2 * / 10 ^ 14 * Rabs (fval x) + / 10 ^ 15 * / 10 * Rabs (fval x) * 10 <= 6 / 10 ^ 15 * Rabs (fval x)) by lra.
      lra. }
  exists (map (map re) l). split.
  - apply C38_list_structure; auto. eapply Forall_impl; [|exact Hl]. intros v Hv. eapply Forall_impl; [|exact Hv]. intros x Hx. now apply T.
  - clear Hne. induction Hl as [|v l Hv _ IH]; constructor; auto.
    induction Hv as [|x v Hx _ IHv]; constructor; auto. now apply T.
Qed.

(** ** What is lost *)
Definition one_up : F := fofZe 4503599627370497 (-52).
Lemma one_up_val : fvalid one_up /\ ffin one_up /\ fval one_up = 1 + / 2 ^ 52.
Proof.
  split; [reflexivity|]. split; [reflexivity|]. change (fval one_up) with (F2R (Float radix2 4503599627370497 (-52))).
  unfold F2R. simpl Fnum. simpl Fexp. change (bpow radix2 (-52)) with (/ IZR (2 ^ 52)). simpl. lra.
Qed.
Lemma f1_val : fvalid f1 /\ ffin f1 /\ fval f1 = 1.
Proof. split; [reflexivity|]. split; [reflexivity|]. cbv -[IZR F2R bpow]; unfold F2R; simpl; lra. Qed.
Lemma moderate_near1 x v : fvalid x -> ffin x -> fval x = v -> 1 <= v <= 2 -> moderate x.
Proof.
  intros V Fi E Hv. split; auto. split; auto. right. rewrite E, Rabs_pos_eq by lra.
  assert (1 <= 2 ^ 1000) by (apply pow_R1_Rle; lra). assert (1 <= 2 ^ 999) by (apply pow_R1_Rle; lra).
  split; [apply Rle_trans with (/ 1); [apply Rinv_le_contravar; lra|lra]|]. change (2 ^ 1000) with (2 * 2 ^ 999). lra.
Qed.
Lemma dec_one p d : (1 <= p <= 16)%Z -> decimal p d -> 1 <= d <= 1 + / 2 ^ 51 -> d = 1.
Proof.
  intros Hp (m & e & Hm & ->) Hd.
  assert (H16 : (Z.abs m < 10 ^ 16)%Z). { apply Z.lt_le_trans with (1 := Hm). apply Z.pow_le_mono_r; lia. }
  destruct (Z_lt_le_dec e 0) as [He|He].
  - (* m = d 10^k *)
    set (k := (- e)%Z). assert (K : powerRZ 10 e = / IZR (10 ^ k)).
    { rewrite powerRZ_bpow. replace e with (- k)%Z by (unfold k; lia). rewrite bpow_opp. f_equal. symmetry. apply (IZR_Zpower radix10). unfold k; lia. }
    rewrite K in *. assert (P : 0 < IZR (10 ^ k)) by (apply IZR_lt, Z.pow_pos_nonneg; unfold k; lia).
    assert (L : IZR (10 ^ k) <= IZR m).
    { apply Rmult_le_reg_r with (/ IZR (10 ^ k)); [now apply Rinv_0_lt_compat|]. rewrite Rinv_r by lra. lra. }
    apply le_IZR in L.
    assert (Kk : (k < 16)%Z). { apply (Z.pow_lt_mono_r_iff 10); lia. }
    assert (P15 : IZR (10 ^ k) <= IZR (10 ^ 15)) by (apply IZR_le, Z.pow_le_mono_r; lia).
    assert (Up : IZR m < IZR (10 ^ k + 1)).
    { rewrite plus_IZR. apply Rle_lt_trans with ((1 + / 2 ^ 51) * IZR (10 ^ k)).
      - apply Rmult_le_reg_r with (/ IZR (10 ^ k)); [now apply Rinv_0_lt_compat|]. rewrite Rmult_assoc, Rinv_r by lra. lra.
      - assert (/ 2 ^ 51 * IZR (10 ^ k) <= / 2 ^ 51 * IZR (10 ^ 15)) by (apply Rmult_le_compat_l; [lra|exact P15]).
        assert (/ 2 ^ 51 * IZR (10 ^ 15) < 1) by (simpl; lra). lra. }
    apply lt_IZR in Up. replace m with (10 ^ k)%Z by lia. apply Rinv_r. lra.
  - assert (E : IZR m * powerRZ 10 e = IZR (m * 10 ^ e)).
    { rewrite mult_IZR. f_equal. rewrite powerRZ_bpow. symmetry. apply (IZR_Zpower radix10). lia. }
    rewrite E in *. f_equal. assert (A : (1 <= m * 10 ^ e)%Z) by (apply le_IZR; lra).
    assert (B : (m * 10 ^ e < 2)%Z) by (apply lt_IZR; lra). lia.
Qed.
(** 17 digits are needed to tell all doubles apart.  With 16 or fewer, 1 and the next double give the
    same file, so whatever is loaded, it is not what was saved for one of them. *)
Theorem C38_lossless_refuted : forall p dec print stod, (1 <= p <= 16)%Z -> text_io p dec print stod ->
  exists x y, moderate x /\ moderate y /\ x <> y /\ save_text_list print [[x]] = save_text_list print [[y]] /\
    ~ (load_text_list stod (save_text_list print [[x]]) = TOk [[x]] /\ load_text_list stod (save_text_list print [[y]]) = TOk [[y]]).
Proof.
  intros p dec print stod Hp [H1 H2]. destruct f1_val as (A1 & A2 & A3). destruct one_up_val as (B1 & B2 & B3).
  assert (M1 : moderate f1) by (apply moderate_near1 with 1; auto; lra).
  assert (M2 : moderate one_up) by (apply moderate_near1 with (1 + / 2 ^ 52); auto; lra).
  assert (D1 : decimal p 1). { exists 1%Z, 0%Z. split; [|simpl; ring]. change (Z.abs 1) with (10 ^ 0)%Z. apply Z.pow_lt_mono_r; lia. }
  assert (E1 : dec f1 = 1).
  { destruct (H1 f1 M1) as ((_ & N) & _). specialize (N 1 D1). rewrite A3 in N. replace (1 - 1) with 0 in N by ring. rewrite Rabs_R0 in N.
    apply Rminus_diag_uniq. destruct (Req_dec (dec f1 - 1) 0) as [Z|Z]; auto. pose proof (Rabs_pos_lt _ Z). lra. }
  assert (E2 : dec one_up = 1).
  { destruct (H1 one_up M2) as ((D & N) & _). apply dec_one with p; auto. specialize (N 1 D1). rewrite B3 in N.
    rewrite (Rabs_left (1 - (1 + / 2 ^ 52))) in N by lra. apply Rabs_le_inv in N. lra. }
  assert (Pr : print f1 = print one_up) by (apply H2; auto; [congruence|rewrite E1; lra]).
  assert (Sv : save_text_list print [[f1]] = save_text_list print [[one_up]]).
  { unfold save_text_list, save_text. cbn [flat_map length map join app]. now rewrite Pr. }
  exists f1, one_up. split; auto. split; auto. split; [intros E; apply (f_equal fval) in E; rewrite A3, B3 in E; lra|]. split; auto.
  rewrite Sv. intros [L1 L2]. rewrite L1 in L2. discriminate L2.
Qed.

(** ** Some number format meets the contract *)
(** (numbers in unary, and a noncomputable rounding; the contract is what matters) *)
Definition enc (neg pos digit : ascii) (z : Z) : text := (if (z <? 0)%Z then neg else pos) :: repeat digit (Z.abs_nat z).
Definition dcd (neg digit : ascii) (t : text) : Z :=
  let n := Z.of_nat (count_occ ascii_dec t digit) in if in_dec ascii_dec neg t then (- n)%Z else n.
Definition dec_of (p : Z) (x : F) : R := round radix10 (FLX_exp p) ZnearestE (fval x).
Definition ex_print (p : Z) (x : F) : text :=
  let d := dec_of p x in
  enc "m" "p" "1" (Ztrunc (scaled_mantissa radix10 (FLX_exp p) d)) ++ enc "n" "q" "2" (cexp radix10 (FLX_exp p) d).
Definition ex_stod (t : text) : option F := Some (of_R (rnd (F2R (Float radix10 (dcd "m" "1" t) (dcd "n" "2" t))))).

Lemma occ_repeat c d n : count_occ ascii_dec (repeat c n) d = if ascii_dec c d then n else 0%nat.
Proof. induction n; cbn; [destruct (ascii_dec c d); auto|]. rewrite IHn. destruct (ascii_dec c d); auto. Qed.
Lemma in_enc c neg pos digit z : In c (enc neg pos digit z) -> c = neg \/ c = pos \/ c = digit.
Proof. intros [<-|H]; [destruct (z <? 0)%Z; auto|]. apply repeat_spec in H. auto. Qed.
Lemma dcd1 a b : dcd "m" "1" (enc "m" "p" "1" a ++ enc "n" "q" "2" b) = a.
Proof.
  unfold dcd. rewrite count_occ_app. unfold enc. cbn [count_occ]. rewrite !occ_repeat.
  destruct (ascii_dec "2" "1"); [discriminate|]. destruct (ascii_dec "1" "1"); [|congruence].
  cbv zeta. match goal with |- context [Z.of_nat ?u] => assert (u = Z.abs_nat a) as -> by (destruct (a <? 0)%Z, (b <? 0)%Z; cbn; lia) end.
  rewrite Zabs2Nat.id_abs. destruct (in_dec ascii_dec _ _) as [H|H].
  - assert (a < 0)%Z; [|lia]. apply in_app_or in H. destruct H as [H|H].
    + destruct H as [H|H]; [destruct (Z.ltb_spec a 0); [auto|discriminate]|]. apply repeat_spec in H. discriminate.
    + destruct H as [H|H]; [destruct (b <? 0)%Z; discriminate|]. apply repeat_spec in H. discriminate.
  - assert (0 <= a)%Z; [|lia]. destruct (Z.ltb_spec a 0); auto. exfalso. apply H. apply in_or_app. left. now left.
Qed.
Lemma dcd2 a b : dcd "n" "2" (enc "m" "p" "1" a ++ enc "n" "q" "2" b) = b.
Proof.
  unfold dcd. rewrite count_occ_app. unfold enc. cbn [count_occ]. rewrite !occ_repeat.
  destruct (ascii_dec "1" "2"); [discriminate|]. destruct (ascii_dec "2" "2"); [|congruence].
  cbv zeta. match goal with |- context [Z.of_nat ?u] => assert (u = Z.abs_nat b) as -> by (destruct (a <? 0)%Z, (b <? 0)%Z; reflexivity) end.
  rewrite Zabs2Nat.id_abs. destruct (in_dec ascii_dec _ _) as [H|H].
  - assert (b < 0)%Z; [|lia]. apply in_app_or in H. destruct H as [H|H].
    + destruct H as [H|H]; [destruct (a <? 0)%Z; discriminate|]. apply repeat_spec in H. discriminate.
    + destruct H as [H|H]; [destruct (Z.ltb_spec b 0); [auto|discriminate]|]. apply repeat_spec in H. discriminate.
  - assert (0 <= b)%Z; [|lia]. destruct (Z.ltb_spec b 0); auto. exfalso. apply H. apply in_or_app. right. now left.
Qed.
Example C38_text_io_example : forall p, (15 <= p)%Z -> text_io p (dec_of p) (ex_print p) ex_stod.
Proof.
  intros p Hp. assert (P : Prec_gt_0 p) by (unfold Prec_gt_0; lia). split.
  - intros x (V & Fi & Hx). split; [|split; [|split; [|split]]].
    + split; [apply decimal_flx; [lia|]; apply generic_format_round; typeclasses eauto|].
      intros d' (m & e & Hm & ->). destruct (round_N_pt radix10 (FLX_exp p) (fun z => negb (Z.even z)) (fval x)) as [_ H]. apply H.
      apply generic_format_FLX. exists (Float radix10 m e); [|exact Hm]. rewrite powerRZ_bpow. reflexivity.
    + unfold ex_print, enc. discriminate.
    + intros H. apply in_app_or in H. destruct H as [H|H]; apply in_enc in H; destruct H as [H|[H|H]]; discriminate.
    + intros H. apply in_app_or in H. destruct H as [H|H]; apply in_enc in H; destruct H as [H|[H|H]]; discriminate.
    + unfold ex_stod, ex_print. eexists. split; [reflexivity|]. cbv zeta. rewrite dcd1, dcd2.
      assert (G : generic_format radix10 (FLX_exp p) (dec_of p x)) by (apply generic_format_round; typeclasses eauto).
      unfold generic_format in G. rewrite <- G.
      assert (B : Rabs (dec_of p x) <= bpow radix2 1002).
      { pose proof (relative_error_N_FLX radix10 p P (fun z => negb (Z.even z)) (fval x)) as E. fold (dec_of p x) in E.
        assert (X : Rabs (fval x) <= bpow radix2 1000).
        { rewrite (Prop_Fp.bp_pow 1000 : bpow radix2 1000 = _). destruct Hx as [->|[_ Hx]]; auto. rewrite Rabs_R0. apply pow_le. lra. }
        assert (Q : bpow radix10 (- p + 1) <= 1). { change 1 with (bpow radix10 0). apply bpow_le. lia. }
        pose proof (Rabs_pos (fval x)) as X0.
        assert (/ 2 * bpow radix10 (- p + 1) * Rabs (fval x) <= 1 * Rabs (fval x)).
        { apply Rmult_le_compat_r; auto. pose proof (bpow_ge_0 radix10 (- p + 1)). lra. }
        replace (dec_of p x) with ((dec_of p x - fval x) + fval x) by ring. apply Rle_trans with (1 := Rabs_triang _ _).
        rewrite (bpow_plus radix2 1000 2 : bpow radix2 1002 = _). change (bpow radix2 2) with 4. unfold dec_of at 1. pose proof (bpow_ge_0 radix2 1000).
        unfold dec_of in E. lra. }
      destruct (of_R_val (rnd (dec_of p x))) as (A1 & A2).
      * apply generic_format_round; typeclasses eauto.
      * apply Rle_lt_trans with (bpow radix2 1002); [apply rnd_abs; [lia|exact B]|]. apply bpow_lt. lia.
      * split; [apply fofZe_valid|]. auto.
  - intros x y _ _ E _. unfold ex_print. now rewrite E.
Qed.
Example C38_moderate_example : Forall (Forall moderate) [[f1; one_up]; [f0]].
Proof.
  destruct f1_val as (A1 & A2 & A3). destruct one_up_val as (B1 & B2 & B3).
  assert (M1 : moderate f1) by (apply moderate_near1 with 1; auto; lra).
  assert (M2 : moderate one_up) by (apply moderate_near1 with (1 + / 2 ^ 52); auto; lra).
  assert (M0 : moderate f0) by (split; [reflexivity|split; [reflexivity|now left]]).
  constructor; [constructor; auto|]. constructor; [constructor; auto|]. constructor.
Qed.
