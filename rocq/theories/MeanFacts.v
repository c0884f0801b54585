(** Facts about the mean functions. *)
From Coq Require Import Reals List Bool ZArith Lia Lra.
From Coquelicot Require Import Coquelicot.
From Verif Require Import LinAlgModel LinAlg KernelModel GPModel GPSpec KernelSpec KernelFacts KernelGrad MeanSpec.
Import ListNotations.
Open Scope R_scope.

(** What a mean function has to provide to be wrapped by FunctionARD *)
Record MeanRT (M : Mean) := {
  mr : nat -> mst M -> Prop;
  mr_new : forall d, mr d (m_new M d);
  mr_set : forall d st p, mr d st -> length p = m_hsize M st -> mr d (m_set M st p);
  mr_len : forall d st x mo, mr d st -> length mo = d -> length (m_val M st x mo) = d;
  mr_size : forall d st, mr d st -> m_hsize M st = m_hsize M (m_new M d);
  mr_hlen : forall d st, mr d st -> length (m_hparams M st) = m_hsize M st;
  mr_get_set : forall d st p, mr d st -> length p = m_hsize M st -> m_hparams M (m_set M st p) = p;
  mr_set_get : forall d st st', mr d st -> mr d st' -> m_set M st' (m_hparams M st) = st;
  mr_glen : forall d st x mo, mr d st -> length mo = d -> (0 < m_hsize M st)%nat -> length (m_grad M st x mo) = d;
  mr_gcols : forall d st x mo o, mr d st -> length mo = d -> (0 < m_hsize M st)%nat -> (o < d)%nat ->
    length (nth o (m_grad M st x mo) []) = m_hsize M st;
  mr_grad : forall d st x mo o q, mr d st -> length mo = d -> (o < d)%nat -> (q < m_hsize M st)%nat ->
    is_derive (fun t => vget (m_val M (m_set M st (vupd (m_hparams M st) q t)) x mo) o) (vget (m_hparams M st) q)
      (vget (nth o (m_grad M st x mo) []) q)
}.
Arguments mr {M}. Arguments mr_new {M}. Arguments mr_set {M}. Arguments mr_len {M}. Arguments mr_size {M}. Arguments mr_hlen {M}.
Arguments mr_get_set {M}. Arguments mr_set_get {M}. Arguments mr_glen {M}. Arguments mr_gcols {M}. Arguments mr_grad {M}.

Lemma null_RT : MeanRT NullFunction.
Proof.
  refine (Build_MeanRT NullFunction (fun d st => st = d) _ _ _ _ _ _ _ _ _ _); simpl; intros; subst; auto; try lia.
  - apply repeat_length.
  - destruct p; [reflexivity|discriminate].
Defined.
Lemma data_RT : MeanRT Data.
Proof.
  refine (Build_MeanRT Data (fun d st => True) _ _ _ _ _ _ _ _ _ _); simpl; intros; auto; try lia.
  - destruct p; [reflexivity|discriminate].
  - now destruct st', st.
Defined.
Lemma skipn_skipn {A} a b (l : list A) : skipn a (skipn b l) = skipn (b + a) l.
Proof. revert b. induction l as [|x l IH]; intro b; [now rewrite !skipn_nil|]. destruct b; [reflexivity|]. simpl. apply IH. Qed.
Lemma nth_repeat_in {A} (a b : A) n i : (i < n)%nat -> nth i (repeat a n) b = a.
Proof. intro H. apply nth_error_nth. now apply nth_error_repeat. Qed.
Lemma vget_repeat c n i : (i < n)%nat -> vget (repeat c n) i = c.
Proof. intro H. unfold vget. apply nth_error_nth. now apply nth_error_repeat. Qed.
Lemma constant_RT c : MeanRT (Constant c).
Proof.
  refine (Build_MeanRT (Constant c) (fun d st => fst st = d) _ _ _ _ _ _ _ _ _ _); simpl; intros; auto.
  - now rewrite repeat_length.
  - destruct p as [|a [|]]; try discriminate. reflexivity.
  - destruct st, st'. unfold vget in *. simpl in *. congruence.
  - now rewrite repeat_length.
  - rewrite nth_repeat_in by lia. reflexivity.
  - assert (q = O) by lia. subst q.
    rewrite nth_repeat_in by lia.
    apply is_derive_ext with (f := fun t => t); [|apply @is_derive_id].
    intro t. rewrite vget_repeat by lia. reflexivity.
Defined.

Section ARD.
Variables (M : Mean) (T : MeanRT M).
Notation F := (FunctionARD M).
Definition fard_ok (d : nat) (st : fard M) : Prop :=
  f_dim st = d /\ mr T d (f_m st) /\ length (f_h st) = (d * (d + 1))%nat /\ st = fard_set M (f_m st) d (fard_hparams M st).
Lemma if_hparams d m : mr T d m -> (if (0 <? m_hsize M m)%nat then m_hparams M m else []) = m_hparams M m.
Proof.
  intro H. destruct (Nat.ltb_spec 0 (m_hsize M m)); auto. pose proof (mr_hlen T d m H).
  destruct (m_hparams M m); [reflexivity|simpl in *; lia].
Qed.
Lemma skip_tail (p : vec) a n : length p = (a + n)%nat -> skipn (length p - n) p = skipn a p.
Proof. intro H. f_equal. lia. Qed.
(** without parameters, setting them changes nothing *)
Lemma if_set d m p : mr T d m -> length p = m_hsize M m -> (if (0 <? m_hsize M m)%nat then m_set M m p else m) = m_set M m p.
Proof.
  intros H Hp. destruct (Nat.ltb_spec 0 (m_hsize M m)) as [|Hz]; auto.
  pose proof (mr_hlen T d m H) as Hl. assert (E : m_hparams M m = p) by (destruct p, (m_hparams M m); simpl in *; auto; lia).
  rewrite <- E. symmetry. now apply (mr_set_get T d).
Qed.
Lemma fard_set_m d m p : mr T d m -> length p = (d * (d + 1) + m_hsize M m)%nat ->
  f_m (fard_set M m d p) = m_set M m (skipn (d * (d + 1)) p).
Proof.
  intros H Hp. cbn [f_m fard_set]. rewrite (skip_tail p (d * (d + 1))) by auto. apply (if_set d); auto. rewrite skipn_length. lia.
Qed.
Lemma set_hparams d m p : mr T d m -> length p = (d * (d + 1) + m_hsize M m)%nat -> fard_hparams M (fard_set M m d p) = p.
Proof.
  intros H Hp. unfold fard_hparams.
  assert (Hl : length (skipn (d * (d + 1)) p) = m_hsize M m) by (rewrite skipn_length; lia).
  rewrite (if_hparams d) by (rewrite fard_set_m by auto; now apply mr_set).
  rewrite (fard_set_m d) by auto. cbn [f_h fard_set]. rewrite (mr_get_set T d) by auto. apply firstn_skipn.
Qed.
Lemma fard_set_ok d m p : mr T d m -> length p = (d * (d + 1) + m_hsize M m)%nat -> fard_ok d (fard_set M m d p).
Proof.
  intros H Hp. assert (Hl : length (skipn (d * (d + 1)) p) = m_hsize M m) by (rewrite skipn_length; lia).
  assert (Hm : mr T d (f_m (fard_set M m d p))) by (rewrite fard_set_m by auto; now apply mr_set).
  split; [reflexivity|]. split; [exact Hm|]. split; [cbn [f_h fard_set]; rewrite firstn_length; lia|].
  rewrite (set_hparams d) by auto. unfold fard_set at 1 2. f_equal.
  assert (Hs : m_hsize M (f_m (fard_set M m d p)) = m_hsize M m) by (rewrite (mr_size T d _ Hm), (mr_size T d m); auto).
  rewrite Hs. rewrite (skip_tail p (d * (d + 1))) by auto. rewrite (if_set d) by auto.
  rewrite <- Hs. rewrite (if_set d) by (auto; lia). rewrite (fard_set_m d) by auto.
  rewrite <- (mr_get_set T d m (skipn (d * (d + 1)) p)) at 3 by auto. symmetry. apply (mr_set_get T d); now apply mr_set.
Qed.
Lemma fard_new_ok d : fard_ok d (fard_new M d).
Proof.
  unfold fard_new. cbn zeta. apply fard_set_ok; [apply mr_new|]. rewrite app_length, vec_of_len, (if_hparams d) by apply mr_new.
  now rewrite (mr_hlen T d) by apply mr_new.
Qed.
Lemma fard_size d st : fard_ok d st -> fard_hsize M st = (d * (d + 1) + m_hsize M (m_new M d))%nat.
Proof. intros (H1 & H2 & _). unfold fard_hsize. rewrite H1. now rewrite (mr_size T d). Qed.
Lemma fard_hlen d st : fard_ok d st -> length (fard_hparams M st) = fard_hsize M st.
Proof.
  intros (H1 & H2 & H3 & _). unfold fard_hparams, fard_hsize. rewrite H1, app_length, (if_hparams d), (mr_hlen T d), H3; auto.
Qed.
Lemma fard_val_eq d st x mo o : fard_ok d st -> length mo = d -> (o < d)%nat ->
  vget (fard_val M st x mo) o = rsum (d + 1) (fun c => vget (fard_hparams M st) (o * (d + 1) + c) * vget (m_val M (f_m st) x mo ++ [1]) c).
Proof.
  intros (H1 & H2 & H3 & H4) Hm Ho. unfold fard_val. rewrite H1, vget_vec_of by auto. apply rsum_ext. intros c _.
  rewrite H4 at 1. reflexivity.
Qed.
Lemma fard_grad_row d st x mo o : f_dim st = d -> (o < d)%nat ->
  nth o (fard_grad M st x mo) [] =
    vec_of (d * (d + 1)) (fun k =>
      if (o * (d + 1) <=? k)%nat && (k <? o * (d + 1) + d)%nat then vget (m_val M (f_m st) x mo) (k - o * (d + 1))
      else if (k =? (o + 1) * (d + 1) - 1)%nat then 1 else 0)
    ++ (if (0 <? m_hsize M (f_m st))%nat then
          let mg := m_grad M (f_m st) x mo ++ [repeat 0 (m_hsize M (f_m st))] in
          vec_of (m_hsize M (f_m st)) (fun q => rsum (d + 1) (fun c => f_tr st o c * vget (nth c mg []) q))
        else []).
Proof.
  intros H1 Ho. unfold fard_grad. rewrite H1. cbn zeta.
  match goal with |- nth o (map ?f _) _ = _ => rewrite nth_indep with (d' := f O) by (rewrite map_length, seq_length; auto); rewrite (map_nth f) end.
  rewrite seq_nth by auto. reflexivity.
Qed.
Lemma fard_RT : MeanRT F.
Proof.
  refine (Build_MeanRT F fard_ok _ _ _ _ _ _ _ _ _ _); cbn [FunctionARD m_new m_set m_hsize m_val m_hparams m_grad]; intros.
  - apply fard_new_ok.
  - destruct H as (H1 & H2 & H3). unfold fard_hsize in H0. rewrite H1 in *. apply fard_set_ok; auto.
  - destruct H as (H1 & _). unfold fard_val. now rewrite vec_of_len.
  - rewrite (fard_size d) by auto. symmetry. apply fard_size, fard_new_ok.
  - now apply (fard_hlen d).
  - destruct H as (H1 & H2 & H3). unfold fard_hsize in H0. rewrite H1 in *. apply (set_hparams d); auto.
  - pose proof H as (H1 & H2 & H3 & H4). destruct H0 as (H1' & H2' & _). rewrite H1'. rewrite H4 at 2.
    unfold fard_set. f_equal.
    assert (Hs : m_hsize M (f_m st') = m_hsize M (f_m st)) by (rewrite (mr_size T d), (mr_size T d (f_m st)); auto).
    rewrite Hs. pose proof (fard_hlen d st H) as Hl. unfold fard_hsize in Hl. rewrite H1 in Hl.
    rewrite (skip_tail _ (d * (d + 1))) by auto.
    assert (Hk : length (skipn (d * (d + 1)) (fard_hparams M st)) = m_hsize M (f_m st)) by (rewrite skipn_length; lia).
    rewrite (if_set d) by auto. rewrite <- Hs. rewrite (if_set d) by (auto; lia).
    replace (skipn (d * (d + 1)) (fard_hparams M st)) with (m_hparams M (f_m st)).
    + rewrite !(mr_set_get T d); auto.
    + unfold fard_hparams. rewrite (if_hparams d) by auto. rewrite skipn_app, H3, Nat.sub_diag. rewrite skipn_all2 by lia. reflexivity.
  - destruct H as (E1 & _). unfold fard_grad. now rewrite map_length, seq_length.
  - pose proof H as (E1 & E2 & E3 & _). rewrite (fard_grad_row d) by auto. cbn zeta. rewrite app_length, vec_of_len. unfold fard_hsize. rewrite E1.
    f_equal. destruct (Nat.ltb_spec 0 (m_hsize M (f_m st))); [apply vec_of_len|simpl; lia].
  - pose proof H as (H1' & H2' & H3' & H4'). rewrite H1'. unfold fard_hsize in H2. rewrite H1' in H2.
    set (h := fard_hparams M st). set (A := (d * (d + 1))%nat) in *.
    assert (Hh : length h = (A + m_hsize M (f_m st))%nat) by (unfold h; rewrite (fard_hlen d) by auto; unfold fard_hsize; now rewrite H1').
    assert (Hq : (q < length h)%nat) by lia.
    assert (Hok : forall t, fard_ok d (fard_set M (f_m st) d (vupd h q t))).
    { intro t. apply fard_set_ok; auto. rewrite vupd_len by auto. exact Hh. }
    assert (Hfm : forall t, f_m (fard_set M (f_m st) d (vupd h q t)) = m_set M (f_m st) (skipn A (vupd h q t))).
    { intro t. apply fard_set_m; auto. rewrite vupd_len by auto. exact Hh. }
    assert (Htl : skipn A h = m_hparams M (f_m st)).
    { unfold h, fard_hparams. rewrite (if_hparams d) by auto. rewrite skipn_app, H3'. unfold A. rewrite Nat.sub_diag, skipn_all2 by lia. reflexivity. }
    set (tr := fun t c => vget (vupd h q t) (o * (d + 1) + c)).
    set (mm := fun t c => vget (m_val M (m_set M (f_m st) (skipn A (vupd h q t))) x mo ++ [1]) c).
    apply is_derive_ext with (f := fun t => rsum (d + 1) (fun c => tr t c * mm t c)).
    { intro t. rewrite (fard_val_eq d) by auto. apply rsum_ext. intros c _. unfold tr, mm. rewrite Hfm.
      rewrite (set_hparams d) by (auto; rewrite vupd_len by auto; exact Hh). reflexivity. }
    rewrite (fard_grad_row d) by auto. fold A. cbn zeta.
    assert (Htr : forall c, is_derive (fun t => tr t c) (vget h q) (if (o * (d + 1) + c =? q)%nat then 1 else 0)).
    { intro c. apply is_derive_vupd. auto. }
    assert (Hv0 : vupd h q (vget h q) = h) by now apply vupd_id.
    assert (Hmm0 : forall c, mm (vget h q) c = vget (m_val M (f_m st) x mo ++ [1]) c).
    { intro c. unfold mm. rewrite Hv0, Htl. now rewrite (mr_set_get T d). }
    assert (Hlv : length (m_val M (f_m st) x mo) = d) by now apply (mr_len T).
    destruct (Nat.lt_ge_cases q A) as [HqA|HqA].
    + (* an entry of the matrix *)
      assert (Hsk : forall t, skipn A (vupd h q t) = m_hparams M (f_m st)).
      { intro t. rewrite <- Htl. unfold vupd. rewrite skipn_app. rewrite skipn_all2 by (rewrite firstn_length; lia).
        rewrite firstn_length. replace (A - Nat.min q (length h))%nat with (S (A - S q))%nat by lia. rewrite skipn_cons. cbn [app].
        rewrite skipn_skipn. f_equal. lia. }
      rewrite vget_app1 by (rewrite vec_of_len; auto). rewrite vget_vec_of by auto.
      eapply is_derive_val.
      { apply is_derive_rsum with (f := fun c t => tr t c * mm t c) (g := fun c => (if (o * (d + 1) + c =? q)%nat then 1 else 0) * mm (vget h q) c).
        intros c Hc. eapply is_derive_val.
        - apply (is_derive_mult (fun t => tr t c) (fun t => mm t c) (vget h q) _ 0 (Htr c)).
          + apply is_derive_ext with (f := fun _ => mm (vget h q) c); [|apply @is_derive_const].
            intro t. unfold mm. now rewrite !Hsk.
          + intros; apply Rmult_comm.
        - unfold plus, mult; simpl. ring. }
      destruct (Nat.leb_spec (o * (d + 1)) q) as [Hlo|Hlo]; cbn [andb].
      * destruct (Nat.lt_ge_cases q (o * (d + 1) + (d + 1))) as [Hhi|Hhi].
        -- rewrite (rsum_ext (d + 1) _ (fun c => if (c =? q - o * (d + 1))%nat then mm (vget h q) c else 0)).
           ++ rewrite rsum_delta by lia. rewrite Hmm0. destruct (Nat.ltb_spec q (o * (d + 1) + d)).
              ** now rewrite vget_app1 by lia.
              ** replace (q =? (o + 1) * (d + 1) - 1)%nat with true by (symmetry; apply Nat.eqb_eq; lia).
                 replace (q - o * (d + 1))%nat with (length (m_val M (f_m st) x mo) + 0)%nat by lia. rewrite vget_app2. reflexivity.
           ++ intros c _. destruct (Nat.eqb_spec c (q - o * (d + 1))) as [->|Hne].
              ** replace (o * (d + 1) + (q - o * (d + 1)) =? q)%nat with true by (symmetry; apply Nat.eqb_eq; lia). ring.
              ** replace (o * (d + 1) + c =? q)%nat with false by (symmetry; apply Nat.eqb_neq; lia). ring.
        -- replace (q <? o * (d + 1) + d)%nat with false by (symmetry; apply Nat.ltb_ge; lia).
           replace (q =? (o + 1) * (d + 1) - 1)%nat with false by (symmetry; apply Nat.eqb_neq; lia).
           apply rsum_0. intros c Hc. replace (o * (d + 1) + c =? q)%nat with false by (symmetry; apply Nat.eqb_neq; lia). ring.
      * replace (q =? (o + 1) * (d + 1) - 1)%nat with false by (symmetry; apply Nat.eqb_neq; lia).
        apply rsum_0. intros c Hc. replace (o * (d + 1) + c =? q)%nat with false by (symmetry; apply Nat.eqb_neq; lia). ring.
    + (* a parameter of the wrapped mean *)
      set (r := (q - A)%nat). assert (Er : q = (A + r)%nat) by (unfold r; lia). assert (Hr : (r < m_hsize M (f_m st))%nat) by lia.
      replace (0 <? m_hsize M (f_m st))%nat with true by (symmetry; apply Nat.ltb_lt; lia).
      match goal with |- context [vget (?a ++ ?b) q] => replace q with (length a + r)%nat at 2 by (rewrite vec_of_len; lia) end.
      rewrite vget_app2, vget_vec_of by auto.
      assert (Hsk : forall t, skipn A (vupd h q t) = vupd (m_hparams M (f_m st)) r t).
      { intro t. rewrite <- Htl. unfold vupd. rewrite skipn_app, firstn_length.
        replace (A - Nat.min q (length h))%nat with O by lia. rewrite skipn_O. f_equal.
        - rewrite Er. rewrite firstn_skipn_comm. reflexivity.
        - f_equal. rewrite skipn_skipn. f_equal. lia. }
      assert (Hvr : vget h q = vget (m_hparams M (f_m st)) r).
      { rewrite <- Htl. rewrite Er. unfold vget. rewrite <- (firstn_skipn A h) at 1. rewrite app_nth2 by (rewrite firstn_length; lia).
        f_equal. rewrite firstn_length. lia. }
      eapply is_derive_val.
      { apply is_derive_rsum with (f := fun c t => tr t c * mm t c)
          (g := fun c => tr (vget h q) c * (if (c <? d)%nat then vget (nth c (m_grad M (f_m st) x mo) []) r else 0)).
        intros c Hc. eapply is_derive_val.
        - apply (is_derive_mult (fun t => tr t c) (fun t => mm t c) (vget h q) (if (o * (d + 1) + c =? q)%nat then 1 else 0)
              (if (c <? d)%nat then vget (nth c (m_grad M (f_m st) x mo) []) r else 0) (Htr c)).
          + destruct (Nat.ltb_spec c d) as [Hcd|Hcd].
            * apply is_derive_ext with (f := fun t => vget (m_val M (m_set M (f_m st) (vupd (m_hparams M (f_m st)) r t)) x mo) c).
              -- intro t. unfold mm. rewrite Hsk. rewrite vget_app1; auto. rewrite (mr_len T d); auto. apply mr_set; auto.
                 rewrite vupd_len; rewrite (mr_hlen T d); auto.
              -- rewrite Hvr. apply (mr_grad T d); auto.
            * apply is_derive_ext with (f := fun t => 1); [|apply @is_derive_const].
              intro t. unfold mm. rewrite Hsk. assert (c = d) by lia. subst c.
              assert (El : length (m_val M (m_set M (f_m st) (vupd (m_hparams M (f_m st)) r t)) x mo) = d).
              { rewrite (mr_len T d); auto. apply mr_set; auto. rewrite vupd_len; rewrite (mr_hlen T d); auto. }
              unfold vget. rewrite app_nth2 by lia. rewrite El, Nat.sub_diag. reflexivity.
          + intros; apply Rmult_comm.
        - unfold plus, mult; simpl.
          replace (o * (d + 1) + c =? q)%nat with false by (symmetry; apply Nat.eqb_neq; unfold A in *; nia). ring. }
      apply rsum_ext. intros c Hc. f_equal.
      * unfold tr. rewrite Hv0. change (vget h (o * (d + 1) + c)) with (f_tr (fard_set M (f_m st) d h) o c). unfold h. now rewrite <- H4'.
      * pose proof (mr_glen T d (f_m st) x mo H2' H0 ltac:(lia)) as Hgl.
        destruct (Nat.ltb_spec c d).
        -- now rewrite app_nth1 by lia.
        -- rewrite app_nth2 by lia. replace (c - length (m_grad M (f_m st) x mo))%nat with O by lia. cbn [nth].
           symmetry. now apply vget_repeat.
Defined.
End ARD.

Lemma means_RT M : means M -> inhabited (MeanRT M).
Proof.
  induction 1 as [|c| |M H [T]]; constructor; auto using null_RT, constant_RT, data_RT, fard_RT.
Qed.
Lemma RT_OK M (T : MeanRT M) : MeanOK M.
Proof.
  refine (@Build_MeanOK M (mr T) (mr_new T) (mr_set T) _). intros. now apply (mr_len T).
Defined.
Lemma mreach_ok M (T : MeanRT M) d st : mreach M d st -> mr T d st.
Proof. induction 1; [apply mr_new|now apply mr_set]. Qed.
