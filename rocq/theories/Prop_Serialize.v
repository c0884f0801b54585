(** Properties C36-C38: the archives. *)
From Coq Require Import ZArith List Bool Ascii Lia.
From Verif Require Import SerializeModel.
Import ListNotations.
Open Scope Z_scope.

(** ** Binary archive *)

(** a matrix that exists in memory: sizes representable, as many coefficients as announced, each
    a 64-bit pattern *)
Definition wf (m : matrix) : Prop :=
  0 <= rows m < 2 ^ 63 /\ 0 <= cols m < 2 ^ 63 /\
  Z.of_nat (length (coefs m)) = rows m * cols m /\
  Forall (fun c => 0 <= c < 2 ^ 64) (coefs m).

(** the matrix [m], all coefficients determinate *)
Definition exactly (m : matrix) : loaded := mkLoaded (rows m) (cols m) (map Some (coefs m)).

Lemma pow_256 n : 2 ^ (8 * Z.of_nat n) = 256 ^ Z.of_nat n.
Proof. rewrite Z.pow_mul_r by lia. reflexivity. Qed.

Lemma le_bytes_length n z : length (le_bytes n z) = n.
Proof. revert z; induction n; intro z; simpl; auto. Qed.

Lemma le_bytes_byte n z : Forall (fun b => 0 <= b < 256) (le_bytes n z).
Proof. revert z; induction n; intro z; simpl; constructor; auto. apply Z.mod_pos_bound. lia. Qed.

Lemma of_le n : forall z, 0 <= z < 256 ^ Z.of_nat n -> of_bytes (le_bytes n z) = z.
Proof.
  induction n as [|n IH]; intros z Hz; cbn [le_bytes of_bytes].
  - simpl in Hz. lia.
  - rewrite IH.
    + pose proof (Z.div_mod z 256). lia.
    + rewrite Nat2Z.inj_succ, Z.pow_succ_r in Hz by lia. split.
      * apply Z.div_pos; lia.
      * apply Z.div_lt_upper_bound; lia.
Qed.

Lemma of_bytes_bound l : Forall (fun b => 0 <= b < 256) l -> 0 <= of_bytes l < 256 ^ Z.of_nat (length l).
Proof.
  induction 1 as [|b l Hb Hl IH]; cbn [of_bytes length]; [simpl; lia|].
  rewrite Nat2Z.inj_succ, Z.pow_succ_r by lia. lia.
Qed.

Lemma to_signed_id n u : 0 <= u < 2 ^ (8 * Z.of_nat n - 1) -> to_signed n u = u.
Proof. intro H. unfold to_signed. destruct (Z.ltb_spec u (2 ^ (8 * Z.of_nat n - 1))); lia. Qed.

Lemma all_some_map {A} (l : list A) : all_some (map Some l) = Some l.
Proof. induction l as [|a l IH]; simpl; auto. now rewrite IH. Qed.

Lemma int_value_le n z : (1 <= n)%nat -> 0 <= z < 2 ^ (8 * Z.of_nat n - 1) ->
  int_value n (map Some (le_bytes n z)) = Some z.
Proof.
  intros Hn Hz. unfold int_value. rewrite all_some_map, of_le, to_signed_id; auto.
  rewrite <- pow_256. split; [lia|]. eapply Z.lt_trans; [apply Hz|].
  apply Z.pow_lt_mono_r; lia.
Qed.

Lemma read_app n bs rest old : length bs = n ->
  read n (mkStream (bs ++ rest) true) old = (map Some bs, mkStream rest true).
Proof.
  intro H. unfold read. cbn [good left]. rewrite app_length.
  destruct (Nat.leb_spec n (length bs + length rest)); [|lia].
  subst n. rewrite firstn_app, skipn_app, Nat.sub_diag, firstn_all, skipn_all. simpl.
  now rewrite app_nil_r.
Qed.

Lemma words_map (cs : list Z) : Forall (fun c => 0 <= c < 2 ^ 64) cs ->
  words (length cs) (map Some (flat_map (le_bytes 8) cs)) = map Some cs.
Proof.
  induction 1 as [|c cs Hc Hcs IH]; [reflexivity|].
  cbn [length words flat_map map].
  rewrite map_app, firstn_app, skipn_app.
  assert (E : length (map Some (le_bytes 8 c)) = 8%nat) by (rewrite map_length, le_bytes_length; reflexivity).
  rewrite E, Nat.sub_diag.
  rewrite (firstn_all2 (map Some (le_bytes 8 c))) by lia.
  rewrite (skipn_all2 (map Some (le_bytes 8 c))) by lia.
  cbn [firstn skipn app]. rewrite app_nil_r, all_some_map, of_le, IH; auto.
Qed.

Lemma flat_map_length8 (cs : list Z) : length (flat_map (le_bytes 8) cs) = (8 * length cs)%nat.
Proof. induction cs as [|c cs IH]; [reflexivity|]. cbn [flat_map length]. rewrite app_length, le_bytes_length, IH. lia. Qed.

Section Binary.
  Variable alloc_ok : Z -> bool.

  Lemma read_binary_write isvec m rest :
    wf m -> alloc_ok (rows m * cols m) = true -> (isvec = true -> cols m = 1) ->
    read_binary alloc_ok isvec (mkStream (write_binary m ++ rest) true)
    = LOk (exactly m, mkStream rest true).
  Proof.
    intros (Hr & Hc & Hl & Hw) Ha Hv. unfold read_binary, write_binary.
    rewrite <- !app_assoc.
    rewrite read_app by apply le_bytes_length.
    rewrite read_app by apply le_bytes_length.
    rewrite !int_value_le by (simpl; lia).
    destruct (Z.ltb_spec (rows m) 0); [lia|]. destruct (Z.ltb_spec (cols m) 0); [lia|].
    cbn [orb].
    assert (E : isvec && negb (cols m =? 1) = false).
    { destruct isvec; auto. rewrite Hv by auto. reflexivity. }
    rewrite E, Ha. cbn [negb].
    assert (En : Z.to_nat (rows m * cols m) = length (coefs m)) by lia. rewrite En.
    rewrite read_app by apply flat_map_length8.
    rewrite words_map by auto. reflexivity.
  Qed.

  (** C36: a matrix (or column vector) read back is bit for bit the one that was written, for
      every shape (also with zero rows or columns) and every 64-bit pattern. *)
  Theorem C36_matrix_round_trip :
    forall isvec m, wf m -> alloc_ok (rows m * cols m) = true -> (isvec = true -> cols m = 1) ->
      load_matrix alloc_ok isvec (save_matrix m) = LOk (exactly m).
  Proof.
    intros isvec m Hm Ha Hv. unfold load_matrix, save_matrix.
    rewrite <- (app_nil_r (write_binary m)), read_binary_write; auto.
  Qed.

  (** C36: the same for non-empty lists of vectors or matrices *)
  Theorem C36_list_round_trip :
    forall isvec l, l <> [] -> Z.of_nat (length l) < 2 ^ 31 ->
      Forall (fun m => wf m /\ alloc_ok (rows m * cols m) = true /\ (isvec = true -> cols m = 1)) l ->
      load_list alloc_ok isvec (save_list l) = LOk (map exactly l).
  Proof.
    intros isvec l Hne Hlen Hl. unfold load_list, save_list.
    rewrite read_app by apply le_bytes_length.
    rewrite int_value_le by (simpl; lia). rewrite Nat2Z.id.
    assert (K : forall l rest,
      Forall (fun m => wf m /\ alloc_ok (rows m * cols m) = true /\ (isvec = true -> cols m = 1)) l ->
      load_loop alloc_ok isvec (length l) (mkStream (flat_map write_binary l ++ rest) true)
      = LOk (map exactly l)).
    { clear. induction 1 as [|m l (H1 & H2 & H3) Hl IH]; [reflexivity|].
      cbn [length load_loop flat_map map]. rewrite <- app_assoc, read_binary_write by auto.
      now rewrite IH. }
    specialize (K l [] Hl). rewrite app_nil_r in K. rewrite K.
    destruct l; [congruence|reflexivity].
  Qed.

  (** C36: the restriction to non-empty lists is needed: an empty list is written but loading it
      fails an assertion *)
  Theorem C36_empty_list_refuted :
    exists l : list matrix, load_list alloc_ok false (save_list l) = LAssert.
  Proof. exists []. reflexivity. Qed.

  (** *** C37 *)
  Lemma le_bytes_firstn k n z : (k <= n)%nat -> firstn k (le_bytes n z) = le_bytes k z.
  Proof.
    revert n z; induction k as [|k IH]; intros [|n] z H; simpl; auto; try lia. f_equal. apply IH. lia.
  Qed.

  Lemma le_bytes_0 n : le_bytes n 0 = repeat 0 n.
  Proof. induction n as [|n IH]; [reflexivity|]. cbn [le_bytes repeat]. change (0 mod 256) with 0. change (0 / 256) with 0. now rewrite IH. Qed.

  Lemma of_bytes_pad l n : of_bytes (l ++ repeat 0 n) = of_bytes l.
  Proof.
    induction l as [|b l IH]; cbn [app of_bytes]; [|lia].
    induction n as [|n IH]; cbn [repeat of_bytes]; lia.
  Qed.

  (** a size of which only the first [k] < 8 bytes could be read *)
  Lemma short_int k z : (k < 8)%nat -> 0 <= z < 2 ^ 63 ->
    exists z', 0 <= z' < 2 ^ 63 /\
      int_value 8 (map Some (le_bytes k z) ++ skipn k (map Some (le_bytes 8 0))) = Some z'.
  Proof.
    intros Hk Hz. rewrite le_bytes_0, skipn_map.
    replace (repeat 0 8) with (repeat 0 k ++ repeat 0 (8 - k)) by (rewrite <- repeat_app; f_equal; lia).
    rewrite skipn_app, repeat_length, Nat.sub_diag.
    rewrite (skipn_all2 (repeat 0 k)) by (rewrite repeat_length; lia). cbn [skipn app].
    rewrite <- map_app. unfold int_value. rewrite all_some_map, of_bytes_pad.
    pose proof (of_bytes_bound (le_bytes k z) (le_bytes_byte k z)) as B. rewrite le_bytes_length in B.
    assert (B' : of_bytes (le_bytes k z) < 2 ^ 63).
    { eapply Z.lt_le_trans; [apply B|]. rewrite <- pow_256. apply Z.pow_le_mono_r; lia. }
    exists (of_bytes (le_bytes k z)). split; [lia|]. rewrite to_signed_id; auto. simpl Z.of_nat. lia.
  Qed.

  Lemma words_none n : forall d, length d = (8 * n)%nat -> (1 <= n)%nat ->
    nth_error d (8 * n - 1) = Some None -> In None (words n d).
  Proof.
    induction n as [|n IH]; intros d Hl Hn Hd; [lia|].
    cbn [words]. destruct n as [|n].
    - left. assert (K : forall (l : list (option Z)) i, nth_error l i = Some None -> all_some l = None).
      { clear. induction l as [|a l IH]; intros [|i] H; simpl in *; try discriminate.
        - inversion H. reflexivity.
        - rewrite (IH i H). destruct a; reflexivity. }
      rewrite (K (firstn 8 d) 7%nat); auto. rewrite firstn_all2 by lia. exact Hd.
    - right. apply IH; try lia.
      + rewrite skipn_length. lia.
      + rewrite <- Hd. replace (8 * S (S n) - 1)%nat with (8 + (8 * S n - 1))%nat by lia.
        clear. revert d. generalize (8 * S n - 1)%nat. generalize 8%nat.
        induction n0 as [|k IH]; intros i d; [reflexivity|]. destruct d; simpl; auto. destruct i; reflexivity.
  Qed.

  Lemma not_exactly m : ~ In None (lcoefs (exactly m)).
  Proof. simpl. rewrite in_map_iff. intros (x & H & _). discriminate. Qed.

  (** C37 is false, and not only in corner cases: every strict prefix of the file of a non-empty
      matrix is accepted without any error, and what is loaded is not the matrix: it has another
      shape or indeterminate coefficients.  (Allocation always succeeds here.) *)
  Theorem C37_truncated_matrix_never_reported :
    (forall n, alloc_ok n = true) ->
    forall m k, wf m -> 0 < rows m * cols m -> (k < length (save_matrix m))%nat ->
      exists m', load_matrix alloc_ok false (firstn k (save_matrix m)) = LOk m' /\ m' <> exactly m.
  Proof.
    intros Hal m k (Hr & Hc & Hl & Hw) Hpos Hk. unfold load_matrix, save_matrix, write_binary in *.
    set (R := le_bytes 8 (rows m)) in *. set (C := le_bytes 8 (cols m)) in *.
    set (D := flat_map (le_bytes 8) (coefs m)) in *.
    assert (LR : length R = 8%nat) by apply le_bytes_length.
    assert (LC : length C = 8%nat) by apply le_bytes_length.
    assert (LD : length D = (8 * length (coefs m))%nat) by apply flat_map_length8.
    rewrite !app_length in Hk.
    assert (Hz0 : exists z, int_value 8 (map Some (le_bytes 8 0)) = Some z /\ z = 0).
    { eexists. split; [vm_compute; reflexivity|reflexivity]. }
    destruct Hz0 as (z0 & Hz0 & ->).
    destruct (Nat.lt_ge_cases k 8) as [H8|H8].
    - (* the number of rows is cut *)
      assert (E : firstn k (R ++ C ++ D) = le_bytes k (rows m)).
      { rewrite firstn_app, LR. replace (k - 8)%nat with O by lia. cbn [firstn]. rewrite app_nil_r.
        apply le_bytes_firstn. lia. }
      rewrite E. destruct (short_int k (rows m) H8 Hr) as (r' & Hr' & Er).
      unfold read_binary, read at 1. cbn [good left]. rewrite le_bytes_length.
      destruct (Nat.leb_spec 8 k); [lia|]. unfold read at 1. cbn [good].
      rewrite Er, Hz0. destruct (Z.ltb_spec r' 0); [lia|]. rewrite Z.mul_0_r. cbn [orb andb].
      change (0 <? 0) with false. cbn [orb]. rewrite Hal. cbn [negb Z.to_nat Nat.mul repeat].
      unfold read. cbn [good]. eexists. split; [reflexivity|].
      unfold exactly. intro K. inversion K as [[K1 K2 K3]]. rewrite <- K2, Z.mul_0_r in Hpos. lia.
    - destruct (Nat.lt_ge_cases k 16) as [H16|H16].
      + (* the number of columns is cut *)
        assert (E : firstn k (R ++ C ++ D) = R ++ le_bytes (k - 8) (cols m)).
        { rewrite firstn_app, LR, firstn_all2 by lia. f_equal.
          rewrite firstn_app, LC. replace (k - 8 - 8)%nat with O by lia. cbn [firstn]. rewrite app_nil_r.
          apply le_bytes_firstn. lia. }
        rewrite E. destruct (short_int (k - 8) (cols m)) as (c' & Hc' & Ec); [lia|auto|].
        unfold read_binary. rewrite read_app by auto.
        unfold read at 1. cbn [good left]. rewrite le_bytes_length.
        destruct (Nat.leb_spec 8 (k - 8)); [lia|].
        unfold R at 1. rewrite int_value_le by (simpl; lia). rewrite Ec.
        destruct (Z.ltb_spec (rows m) 0); [lia|]. destruct (Z.ltb_spec c' 0); [lia|].
        cbn [orb andb]. rewrite Hal. cbn [negb]. unfold read. cbn [good].
        eexists. split; [reflexivity|]. intro K.
        assert (Hn : In None (lcoefs (exactly m))).
        { rewrite <- K. cbn [lcoefs].
          assert (c' = cols m) by (unfold exactly in K; inversion K; reflexivity). subst c'.
          apply words_none; try (rewrite ?repeat_length; lia).
          rewrite (nth_error_nth' _ None) by (rewrite repeat_length; lia). now rewrite nth_repeat. }
        exact (not_exactly m Hn).
      + (* the coefficients are cut *)
        assert (E : firstn k (R ++ C ++ D) = R ++ C ++ firstn (k - 16) D).
        { rewrite firstn_app, LR, (firstn_all2 R) by lia. f_equal.
          rewrite firstn_app, LC, (firstn_all2 C) by lia. f_equal. f_equal. lia. }
        rewrite E. unfold read_binary. rewrite read_app by auto. rewrite read_app by auto.
        unfold R, C. rewrite !int_value_le by (simpl; lia).
        destruct (Z.ltb_spec (rows m) 0); [lia|]. destruct (Z.ltb_spec (cols m) 0); [lia|].
        cbn [orb andb]. rewrite Hal. cbn [negb].
        assert (En : Z.to_nat (rows m * cols m) = length (coefs m)) by lia. rewrite En.
        unfold read. cbn [good left]. rewrite firstn_length, LD.
        replace (Nat.min (k - 16) (8 * length (coefs m))) with (k - 16)%nat by lia.
        destruct (Nat.leb_spec (8 * length (coefs m)) (k - 16)); [lia|].
        eexists. split; [reflexivity|]. intro K.
        assert (Hn : In None (lcoefs (exactly m))).
        { rewrite <- K. cbn [lcoefs]. apply words_none.
          - rewrite app_length, map_length, firstn_length, skipn_length, repeat_length. lia.
          - lia.
          - rewrite nth_error_app2 by (rewrite map_length, firstn_length; lia).
            rewrite map_length, firstn_length.
            replace (Nat.min (k - 16) (length D)) with (k - 16)%nat by lia.
            rewrite (nth_error_nth' _ None) by (rewrite skipn_length, repeat_length; lia).
            assert (Q : forall n i j, nth i (skipn j (repeat (@None Z) n)) None = None).
            { clear. induction n; intros i [|j]; simpl; auto; try (destruct i; reflexivity).
              destruct i; auto. apply nth_repeat. }
            now rewrite Q. }
        exact (not_exactly m Hn).
  Qed.
End Binary.

(** C37 as stated is false *)
Theorem C37_truncation_is_reported_refuted :
  exists m k m', wf m /\ (k < length (save_matrix m))%nat /\
    load_matrix (fun _ => true) false (firstn k (save_matrix m)) = LOk m' /\ m' <> exactly m.
Proof.
  assert (Hwf : wf (mkMat 1 2 [5; 7])).
  { repeat split; simpl; try lia. repeat constructor; lia. }
  destruct (C37_truncated_matrix_never_reported (fun _ => true) (fun _ => eq_refl) (mkMat 1 2 [5; 7]) 25 Hwf)
    as (m' & H1 & H2).
  - simpl; lia.
  - vm_compute. repeat constructor.
  - exists (mkMat 1 2 [5; 7]), 25%nat, m'. split; [auto|]. split; [vm_compute; repeat constructor|auto].
Qed.

(** which malformed sizes are reported: a file of at least 16 bytes is rejected (by an assertion of Eigen) exactly when the sign
    bit of one of its two size fields is set *)
Lemma top_bit n l : length l = S n -> Forall (fun b => 0 <= b < 256) l ->
  (2 ^ (8 * Z.of_nat (S n) - 1) <= of_bytes l <-> 128 <= nth n l 0).
Proof.
  revert l. induction n as [|n IH]; intros l Hl Hb.
  - destruct l as [|b [|]]; try discriminate. cbn [of_bytes nth]. change (2 ^ (8 * Z.of_nat 1 - 1)) with 128. lia.
  - destruct l as [|b l]; [discriminate|]. inversion Hb as [|? ? H1 H2]; subst. cbn [of_bytes nth]. rewrite <- IH; [|simpl in Hl; lia|exact H2].
    replace (8 * Z.of_nat (S (S n)) - 1) with (8 + (8 * Z.of_nat (S n) - 1)) by lia. rewrite Z.pow_add_r by lia. change (2 ^ 8) with 256.
    set (X := 2 ^ _). lia.
Qed.
Lemma signed_field n l : length l = S n -> Forall (fun b => 0 <= b < 256) l ->
  exists v, int_value (S n) (map Some l) = Some v /\ (v < 0 <-> 128 <= nth n l 0).
Proof.
  intros Hl Hb. unfold int_value. rewrite all_some_map. eexists. split; [reflexivity|]. rewrite <- (top_bit n l Hl Hb).
  unfold to_signed. pose proof (of_bytes_bound l Hb) as B. rewrite Hl in B. rewrite <- pow_256 in B.
  set (X := 2 ^ (8 * Z.of_nat (S n) - 1)) in *. set (Y := 2 ^ (8 * Z.of_nat (S n))) in *. destruct (Z.ltb_spec (of_bytes l) X); lia.
Qed.
Theorem C37_negative_sizes_reported (alloc_ok : Z -> bool) (file : list Z) :
  Forall (fun b => 0 <= b < 256) file -> (16 <= length file)%nat ->
  (load_matrix alloc_ok false file = LAssert <-> 128 <= nth 7 file 0 \/ 128 <= nth 15 file 0).
Proof.
  intros Hb Hl. assert (Hs : file = firstn 8 file ++ firstn 8 (skipn 8 file) ++ skipn 16 file).
  { rewrite <- (firstn_skipn 8 file) at 1. f_equal. rewrite <- (firstn_skipn 8 (skipn 8 file)) at 1. f_equal.
    assert (Q : forall (a b : nat) (l : list Z), skipn a (skipn b l) = skipn (b + a) l) by (induction b as [|b IH]; intros [|x l]; simpl; auto using skipn_nil). apply Q. }
  set (R := firstn 8 file) in *. set (C := firstn 8 (skipn 8 file)) in *. set (D := skipn 16 file) in *.
  assert (LR : length R = 8%nat) by (unfold R; rewrite firstn_length; lia).
  assert (LC : length C = 8%nat) by (unfold C; rewrite firstn_length, skipn_length; lia).
  rewrite Hs in Hb. apply Forall_app in Hb. destruct Hb as [BR Hb]. apply Forall_app in Hb. destruct Hb as [BC _].
  assert (N7 : nth 7 file 0 = nth 7 R 0) by (rewrite Hs, app_nth1 by lia; reflexivity).
  assert (N15 : nth 15 file 0 = nth 7 C 0) by (rewrite Hs, app_nth2, LR, app_nth1 by lia; reflexivity).
  rewrite N7, N15. clear N7 N15. rewrite Hs. clear Hs.
  destruct (signed_field 7 R LR BR) as (r & Er & Hr). destruct (signed_field 7 C LC BC) as (c & Ec & Hc).
  unfold load_matrix, read_binary. rewrite !read_app by assumption. rewrite Er, Ec. cbn [andb]. rewrite orb_false_r.
  rewrite <- Hr, <- Hc. destruct (Z.ltb_spec r 0); destruct (Z.ltb_spec c 0); cbn [orb].
  4:{ split; [|intros; lia]. destruct (alloc_ok (r * c)); cbn [negb]; [|discriminate]. destruct (read _ _ _). discriminate. }
  all: split; [intros _; lia|reflexivity].
Qed.
(** a list whose size field is negative is rejected as an empty one *)
Theorem C37_negative_count_reported (alloc_ok : Z -> bool) (isvec : bool) (file : list Z) :
  Forall (fun b => 0 <= b < 256) file -> (4 <= length file)%nat -> 128 <= nth 3 file 0 -> load_list alloc_ok isvec file = LAssert.
Proof.
  intros Hb Hl H3. assert (Hs : file = firstn 4 file ++ skipn 4 file) by (symmetry; apply firstn_skipn).
  set (R := firstn 4 file) in *. set (D := skipn 4 file) in *. assert (LR : length R = 4%nat) by (unfold R; rewrite firstn_length; lia).
  rewrite Hs in Hb. apply Forall_app in Hb. destruct Hb as [BR _]. rewrite Hs, app_nth1 in H3 by lia. rewrite Hs.
  destruct (signed_field 3 R LR BR) as (r & Er & Hr). unfold load_list. rewrite read_app by assumption. rewrite Er.
  replace (Z.to_nat r) with O by lia. reflexivity.
Qed.
Example C37_negative_sizes_case : load_matrix (fun _ => true) false (le_bytes 8 (-3) ++ le_bytes 8 2) = LAssert /\
  load_list (fun _ => true) true (le_bytes 4 (-1)) = LAssert.
Proof. split; vm_compute; reflexivity. Qed.

(** a list of two vectors, one of them empty, one holding a NaN payload, -0 and an infinity *)
Example c36_case :
  let l := [mkMat 3 1 [0x7ff8000000000123; 0x8000000000000000; 0xfff0000000000000]; mkMat 0 1 []] in
  load_list (fun _ => true) true (save_list l) = LOk (map exactly l).
Proof. vm_compute. reflexivity. Qed.
Example c36_hyps : Forall (fun m => wf m /\ (fun _ : Z => true) (rows m * cols m) = true /\ (true = true -> cols m = 1))
  [mkMat 3 1 [0x7ff8000000000123; 0x8000000000000000; 0xfff0000000000000]; mkMat 0 1 []].
Proof. repeat constructor; simpl; try lia; repeat constructor; lia. Qed.

(** ** Text archive *)
Section Text.
  Context {D : Type}.
  Variable print : D -> text.
  Variable stod : text -> option D.
  (** what is read back for a printed number *)
  Variable reparse : D -> D.

  (** printed numbers are not empty and contain neither blanks nor line breaks *)
  Definition prints_as_token (x : D) : Prop :=
    print x <> [] /\ ~ In sp (print x) /\ ~ In nl (print x) /\ stod (print x) = Some (reparse x).

  Lemma split_app sep a rest cur : ~ In sep a ->
    split_lines sep cur (a ++ sep :: rest) = (rev cur ++ a) :: split_lines sep [] rest.
  Proof.
    revert cur; induction a as [|c a IH]; intros cur Ha; simpl.
    - rewrite Ascii.eqb_refl, app_nil_r. reflexivity.
    - assert (c <> sep) by (intro; subst; apply Ha; simpl; auto).
      destruct (Ascii.eqb_spec c sep); [contradiction|].
      rewrite IH by (intro; apply Ha; simpl; auto). simpl. rewrite <- app_assoc. reflexivity.
  Qed.

  Lemma split_end sep a cur : ~ In sep a -> rev cur ++ a <> [] -> split_lines sep cur a = [rev cur ++ a].
  Proof.
    revert cur; induction a as [|c a IH]; intros cur Ha Hne; simpl.
    - rewrite app_nil_r in *. destruct cur; [simpl in Hne; congruence|reflexivity].
    - assert (c <> sep) by (intro; subst; apply Ha; simpl; auto).
      destruct (Ascii.eqb_spec c sep); [contradiction|].
      rewrite IH; simpl; rewrite <- ?app_assoc; auto. intro; apply Ha; simpl; auto.
  Qed.

  Lemma split_join sep l : Forall (fun a => a <> [] /\ ~ In sep a) l -> split_lines sep [] (join sep l) = l.
  Proof.
    induction 1 as [|a l [H1 H2] Hl IH]; [reflexivity|].
    destruct l as [|b l].
    - simpl. rewrite split_end; auto.
    - cbn [join]. rewrite split_app by auto. cbn [rev app]. f_equal. exact IH.
  Qed.

  Lemma join_not_in sep c l : c <> sep -> (forall a, In a l -> ~ In c a) -> ~ In c (join sep l).
  Proof.
    intros Hc. induction l as [|a l IH]; intro H; [auto|].
    destruct l as [|b l]; [apply H; simpl; auto|].
    cbn [join]. rewrite in_app_iff. intros [K|[K|K]].
    - apply (H a); simpl; auto.
    - congruence.
    - apply IH; auto. intros x Hx. apply H. simpl; auto.
  Qed.

  Lemma stods_print v : Forall prints_as_token v -> stods stod (map print v) = Some (map reparse v).
  Proof. induction 1 as [|x v (_ & _ & _ & Hx) Hv IH]; simpl; auto. now rewrite Hx, IH. Qed.

  Lemma line_split v : Forall prints_as_token v ->
    split_lines sp [] (join sp (map print v)) = map print v.
  Proof.
    intro H. apply split_join. apply Forall_map. eapply Forall_impl; [|exact H].
    intros x (H1 & H2 & _). auto.
  Qed.

  Lemma line_no_nl v : Forall prints_as_token v -> ~ In nl (join sp (map print v)).
  Proof.
    intro H. apply join_not_in; [discriminate|]. intros a Ha. apply in_map_iff in Ha.
    destruct Ha as (x & <- & Hx). rewrite Forall_forall in H. apply (H x Hx).
  Qed.

  Lemma load_lines l : Forall (Forall prints_as_token) l -> l <> [] ->
    load_text_values stod (flat_map (fun v => join sp (map print v) ++ [nl]) l) = TOk (map (map reparse) l).
  Proof.
    intros H Hne. unfold load_text_values.
    assert (E : stods_lines stod (split_lines nl [] (flat_map (fun v => join sp (map print v) ++ [nl]) l))
                = Some (map (map reparse) l)).
    { clear Hne. induction H as [|v l Hv Hl IH]; [reflexivity|].
      cbn [flat_map map]. rewrite <- app_assoc. cbn [app].
      rewrite split_app by (apply line_no_nl; auto). cbn [rev app stods_lines].
      rewrite line_split, stods_print, IH; auto. }
    rewrite E. destruct l; [congruence|reflexivity].
  Qed.

  (** C38: a non-empty list of vectors (of any sizes, possibly 0) comes back with the same number
      of vectors of the same sizes, every coefficient being the re-parsed printed value *)
  Theorem C38_list_structure :
    forall l, l <> [] -> Forall (Forall prints_as_token) l ->
      load_text_list stod (save_text_list print l) = TOk (map (map reparse) l).
  Proof.
    intros l Hne H. unfold load_text_list, save_text_list.
    rewrite <- load_lines by auto. f_equal. apply flat_map_ext.
    intros v. unfold save_text. destruct v as [|x v]; [reflexivity|]. cbn [length map join]. reflexivity.
  Qed.

  (** C38: the same for a matrix with at least one row and one column *)
  Theorem C38_matrix_structure :
    forall c m, (1 <= c)%nat -> m <> [] -> Forall (fun row => length row = c) m ->
      Forall (Forall prints_as_token) m ->
      load_text stod (save_text print c m) = TOk (c, map (map (fun x => Some (reparse x))) m).
  Proof.
    intros c m Hc Hne Hlen H.
    assert (Es : save_text print c m = flat_map (fun v => join sp (map print v) ++ [nl]) m).
    { unfold save_text. destruct m as [|v m]; [congruence|]. destruct c as [|c]; [lia|].
      clear. revert v. induction m as [|w m IH]; intro v.
      - cbn [map join flat_map]. now rewrite app_nil_r.
      - change (join nl (map (fun row => join sp (map print row)) (v :: w :: m)))
          with (join sp (map print v) ++ nl :: join nl (map (fun row => join sp (map print row)) (w :: m))).
        rewrite <- app_assoc. cbn [app].
        specialize (IH w). 
        change (flat_map (fun v0 => join sp (map print v0) ++ [nl]) (v :: w :: m))
          with ((join sp (map print v) ++ [nl]) ++ flat_map (fun v0 => join sp (map print v0) ++ [nl]) (w :: m)).
        rewrite <- IH, <- app_assoc. reflexivity. }
    unfold load_text. rewrite Es, load_lines by auto.
    destruct m as [|v m]; [congruence|].
    assert (Hh : length (hd [] (map (map reparse) (v :: m))) = c).
    { cbn [map hd]. rewrite map_length. inversion Hlen; auto. }
    rewrite Hh.
    assert (Hall : forallb (fun l => (length l <=? c)%nat) (map (map reparse) (v :: m)) = true).
    { apply forallb_forall. intros l Hl. apply in_map_iff in Hl. destruct Hl as (r & <- & Hr).
      rewrite map_length. rewrite Forall_forall in Hlen. rewrite (Hlen r Hr). apply Nat.leb_refl. }
    rewrite Hall. f_equal. f_equal. rewrite map_map. apply map_ext_in. intros r Hr.
    rewrite map_length. rewrite Forall_forall in Hlen. rewrite (Hlen r Hr), Nat.sub_diag.
    simpl. rewrite app_nil_r, map_map. reflexivity.
  Qed.

  (** C38: hence the data come back unchanged whenever printing is lossless *)
  Theorem C38_lossless :
    forall l, l <> [] -> Forall (Forall prints_as_token) l ->
      Forall (Forall (fun x => reparse x = x)) l ->
      load_text_list stod (save_text_list print l) = TOk l.
  Proof.
    intros l Hne H Hid. rewrite C38_list_structure by auto. f_equal.
    rewrite <- (map_id l) at 2. apply map_ext_in. intros v Hv.
    rewrite <- (map_id v) at 2. apply map_ext_in. intros x Hx.
    rewrite Forall_forall in Hid. specialize (Hid v Hv). rewrite Forall_forall in Hid. auto.
  Qed.

  (** C38: a matrix without coefficients does not keep its shape: whatever its numbers of rows and
      columns it is loaded as one row of no column; an empty list cannot be loaded *)
  Theorem C38_empty_matrix_refuted :
    exists c m, length m = 2%nat /\ Forall (fun row => length row = c) m /\
      load_text stod (save_text print c m) = TOk (c, [[]]).
  Proof. exists O, [[]; []]. repeat split; auto. Qed.
  Theorem C38_empty_list_refuted :
    exists l, load_text_list stod (save_text_list print l) = TAssert.
  Proof. exists []. reflexivity. Qed.
End Text.

(** one-digit numbers as an instance of the hypotheses *)
Example c38_case :
  let print (n : nat) := [Ascii.ascii_of_nat (48 + n)] in
  let stod (t : text) := match t with [c] => Some (Ascii.nat_of_ascii c - 48)%nat | _ => None end in
  Forall (Forall (prints_as_token print stod (fun n => n))) [[1; 2; 3]%nat; []; [4]%nat] /\
  save_text_list print [[1; 2; 3]%nat; []; [4]%nat]
    = ["1"; " "; "2"; " "; "3"; nl; nl; "4"; nl]%char.
Proof.
  split; [|reflexivity].
  repeat constructor; simpl; try discriminate; intros [H|[]]; discriminate.
Qed.

Print Assumptions C36_matrix_round_trip.
Print Assumptions C36_list_round_trip.
Print Assumptions C36_empty_list_refuted.
Print Assumptions C37_truncated_matrix_never_reported.
Print Assumptions C37_truncation_is_reported_refuted.
Print Assumptions C38_list_structure.
Print Assumptions C38_matrix_structure.
Print Assumptions C38_lossless.
Print Assumptions C38_empty_matrix_refuted.
Print Assumptions C38_empty_list_refuted.
