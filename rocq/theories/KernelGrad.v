(** Derivatives of the kernels with respect to their hyper-parameters. *)
From Coq Require Import Reals List Bool ZArith Lia Lra.
From Coquelicot Require Import Coquelicot.
From Verif Require Import LinAlgModel LinAlg KernelModel GPModel GPSpec KernelSpec KernelFacts.
Import ListNotations.
Open Scope R_scope.

Lemma vget_vupd v p t q : (p < length v)%nat -> vget (vupd v p t) q = if (q =? p)%nat then t else vget v q.
Proof.
  unfold vget, vupd. revert p q. induction v as [|a v IH]; simpl; intros p q H; [lia|].
  destruct p as [|p]; simpl.
  - destruct q; reflexivity.
  - destruct q as [|q]; simpl; [reflexivity|]. apply IH. lia.
Qed.
Lemma vupd_len v p t : (p < length v)%nat -> length (vupd v p t) = length v.
Proof. intro H. unfold vupd. rewrite app_length. cbn [length]. rewrite firstn_length, skipn_length. lia. Qed.
Lemma is_derive_rsum n (f : nat -> R -> R) g x : (forall i, (i < n)%nat -> is_derive (f i) x (g i)) ->
  is_derive (fun t => rsum n (fun i => f i t)) x (rsum n g).
Proof.
  induction n; intro H; simpl.
  - apply @is_derive_const.
  - apply @is_derive_plus; [apply IHn; intros; apply H; lia|apply H; lia].
Qed.
Lemma is_derive_vupd v p q : (p < length v)%nat -> is_derive (fun t => vget (vupd v p t) q) (vget v p) (if (q =? p)%nat then 1 else 0).
Proof.
  intro H. destruct (q =? p)%nat eqn:E.
  - apply is_derive_ext with (f := fun t => t); [intro t; rewrite vget_vupd, E by auto; reflexivity|apply @is_derive_id].
  - apply is_derive_ext with (f := fun t => vget v q); [intro t; rewrite vget_vupd, E by auto; reflexivity|apply @is_derive_const].
Qed.
Lemma is_derive_val (f : R -> R) x l l' : is_derive f x l -> l = l' -> is_derive f x l'.
Proof. now intros H <-. Qed.
Lemma vupd_id v p : (p < length v)%nat -> vupd v p (vget v p) = v.
Proof.
  unfold vget, vupd. revert p. induction v as [|a v IH]; simpl; intros p H; [lia|]. destruct p; simpl; [reflexivity|]. f_equal. apply IH. lia.
Qed.

(** * Isotropic kernels *)
Section Iso.
Variable (s : iso).
Hypothesis Hs : iso_ok s.
Lemma iso_l_pos : 0 < i_l s. Proof. apply Hs. Qed.
Lemma iso_h0 : exp (vget (i_h s) 0) = i_l s.
Proof. destruct Hs as (H1 & H2 & ->). unfold vget; simpl. now apply exp_ln. Qed.
Lemma iso_h1 : exp (2 * vget (i_h s) 1) = i_sf2 s.
Proof. symmetry. now apply iso_last. Qed.
Lemma iso_len : length (i_h s) = 2%nat.
Proof. destruct Hs as (H1 & H2 & ->). reflexivity. Qed.
Lemma iso_upd0 t : iso_set (vupd (i_h s) 0 t) = {| i_sf2 := i_sf2 s; i_l := exp t; i_h := vupd (i_h s) 0 t |}.
Proof. unfold iso_set. rewrite !vget_vupd by (rewrite iso_len; lia). simpl. now rewrite iso_h1. Qed.
Lemma iso_upd1 t : iso_set (vupd (i_h s) 1 t) = {| i_sf2 := exp (2 * t); i_l := i_l s; i_h := vupd (i_h s) 1 t |}.
Proof. unfold iso_set. rewrite !vget_vupd by (rewrite iso_len; lia). simpl. now rewrite iso_h0. Qed.
Lemma scale_derive c : is_derive (fun t => exp (2 * t) * c) (vget (i_h s) 1) (2 * (i_sf2 s * c)).
Proof. auto_derive; [exact I|]. rewrite iso_h1. ring. Qed.

Lemma exp_grad x y p : (p < 2)%nat ->
  is_derive (fun t => exp_kernel (iso_set (vupd (i_h s) p t)) x y) (vget (i_h s) p) (vget (exp_gradient s x y) p).
Proof.
  intro H. destruct p as [|[|p]]; [| |lia].
  - eapply is_derive_ext; [intro t; rewrite iso_upd0; reflexivity|]. unfold exp_kernel. cbn [i_sf2 i_l].
    auto_derive; rewrite iso_h0; pose proof iso_l_pos as Hp; [apply Rgt_not_eq; nra|].
    unfold exp_gradient, vget. cbn [nth]. set (e := sqdist x y). replace (- (1 / 2) * (e / (i_l s * i_l s))) with (- (1 / 2) * (e * / (i_l s * i_l s))) by (unfold Rdiv; ring).
    set (E := exp _). field. lra.
  - eapply is_derive_ext; [intro t; rewrite iso_upd1; reflexivity|]. unfold exp_kernel. cbn [i_sf2 i_l].
    eapply is_derive_val; [apply scale_derive|]. reflexivity.
Qed.
Lemma matern3_grad x y p : (p < 2)%nat ->
  is_derive (fun t => matern3_kernel (iso_set (vupd (i_h s) p t)) x y) (vget (i_h s) p) (vget (matern3_gradient s x y) p).
Proof.
  intro H. destruct p as [|[|p]]; [| |lia].
  - eapply is_derive_ext; [intro t; rewrite iso_upd0; reflexivity|]. unfold matern3_kernel. cbn [i_sf2 i_l].
    set (e := sqrt 3 * dist x y). auto_derive; rewrite ?iso_h0; pose proof iso_l_pos as Hp.
    + repeat split; apply Rgt_not_eq; nra.
    + unfold matern3_gradient, vget. cbn [nth]. fold e. unfold Rdiv. set (E := exp (- _)). field. lra.
  - eapply is_derive_ext; [intro t; rewrite iso_upd1; reflexivity|]. unfold matern3_kernel. cbn [i_sf2 i_l].
    eapply is_derive_ext; [intro t; symmetry; apply Rmult_assoc|].
    eapply is_derive_val; [apply scale_derive|]. unfold matern3_gradient, vget. cbn [nth]. match goal with |- ?a = ?b => change (a = b :> R) end. ring.
Qed.
Lemma matern5_grad x y p : (p < 2)%nat ->
  is_derive (fun t => matern5_kernel (iso_set (vupd (i_h s) p t)) x y) (vget (i_h s) p) (vget (matern5_gradient s x y) p).
Proof.
  intro H. destruct p as [|[|p]]; [| |lia].
  - eapply is_derive_ext; [intro t; rewrite iso_upd0; reflexivity|]. unfold matern5_kernel. cbn [i_sf2 i_l].
    set (e := sqrt 5 * dist x y). set (f := 5 * (dist x y * dist x y)).
    pose proof iso_l_pos as Hp. auto_derive; rewrite ?iso_h0.
    + repeat split; apply Rgt_not_eq; nra.
    + unfold matern5_gradient, vget. cbn [nth]. fold e f. unfold Rdiv. set (E := exp (- _)). field. lra.
  - eapply is_derive_ext; [intro t; rewrite iso_upd1; reflexivity|]. unfold matern5_kernel. cbn [i_sf2 i_l].
    eapply is_derive_ext; [intro t; symmetry; apply Rmult_assoc|].
    eapply is_derive_val; [apply scale_derive|]. unfold matern5_gradient, vget. cbn [nth]. match goal with |- ?a = ?b => change (a = b :> R) end. ring.
Qed.
End Iso.

(** * SquaredExpARD *)
Lemma vget_vec_of n f i : (i < n)%nat -> vget (vec_of n f) i = f i.
Proof.
  intro H. unfold vget, vec_of. rewrite nth_indep with (d' := f O) by (rewrite map_length, seq_length; auto).
  rewrite map_nth. rewrite seq_nth by auto. reflexivity.
Qed.
Lemma vget_app1 u v i : (i < length u)%nat -> vget (u ++ v) i = vget u i.
Proof. intro H. unfold vget. now rewrite app_nth1. Qed.
Lemma vget_app2 u v i : vget (u ++ v) (length u + i) = vget v i.
Proof. unfold vget. rewrite app_nth2 by lia. f_equal. lia. Qed.
Lemma flat_len d k (f : nat -> nat -> R) a : length (flat_map (fun j => vec_of d (f j)) (seq a k)) = (k * d)%nat.
Proof. revert a. induction k; simpl; intro a; [reflexivity|]. now rewrite app_length, vec_of_len, IHk. Qed.
Lemma flat_get d k (f : nat -> nat -> R) a j i : (j < k)%nat -> (i < d)%nat ->
  vget (flat_map (fun j => vec_of d (f j)) (seq a k)) (j * d + i) = f (a + j)%nat i.
Proof.
  revert a j. induction k; intros a j Hj Hi; [lia|]. cbn [seq flat_map]. destruct j as [|j].
  - rewrite vget_app1 by (rewrite vec_of_len; simpl; lia). simpl. rewrite vget_vec_of by auto. f_equal. lia.
  - replace (S j * d + i)%nat with (length (vec_of d (f a)) + (j * d + i))%nat by (rewrite vec_of_len; lia).
    rewrite vget_app2, IHk by (auto; lia). f_equal. lia.
Qed.

Section Ard.
Variables (k d : nat) (s : ard).
Hypothesis Hok : ard_ok k d s.
Variables (x y : vec).
Notation D i := (vget x i - vget y i).
Let h := a_h s.
Let N := (d + d * k + 1)%nat.
Lemma h_len : length h = N. Proof. apply Hok. Qed.
Lemma ard_upd_ok p t : (p < N)%nat -> ard_ok k d (ard_set k d (vupd h p t)).
Proof. intro H. repeat split. cbn [a_h ard_set]. rewrite vupd_len; rewrite h_len; auto. Qed.
Lemma ard_ell_eq i : exp (vget h i) = a_ell s i.
Proof. destruct Hok as (_ & _ & E). unfold h. rewrite E at 2. reflexivity. Qed.
Lemma ard_A_eq i m : vget h ((m + 1) * d + i) = a_A s i m.
Proof. destruct Hok as (_ & _ & E). unfold h. rewrite E at 2. reflexivity. Qed.
Lemma ard_sf2_eq : exp (2 * vget h (d + d * k)) = a_sf2 s.
Proof. destruct Hok as (_ & _ & E). unfold h. rewrite E at 2. cbn [a_sf2 ard_set]. do 3 f_equal. lia. Qed.

Definition ind (p q : nat) : R := if (q =? p)%nat then 1 else 0.
Definition dz (p : nat) : R :=
  rsum k (fun m => 2 * rsum d (fun i => D i * a_A s i m) * rsum d (fun i => D i * ind p ((m + 1) * d + i)))
  + rsum d (fun i => - (2 * (D i / a_ell s i) * (D i / a_ell s i)) * ind p i).
Lemma ard_z_derive p : (p < N)%nat -> is_derive (fun t => ard_z k (ard_set k d (vupd h p t)) x y) (vget h p) (dz p).
Proof.
  intro Hp. assert (Hl : (p < length h)%nat) by now rewrite h_len.
  eapply is_derive_ext; [intro t; symmetry; apply (ard_z_squares k d); now apply ard_upd_ok|].
  cbn [a_A a_ell ard_set]. apply @is_derive_plus; cbn beta.
  - apply is_derive_rsum with (f := fun m t => rsum d (fun i => D i * vget (vupd h p t) ((m + 1) * d + i)) * rsum d (fun i => D i * vget (vupd h p t) ((m + 1) * d + i))).
    intros m Hm.
    assert (Hi : is_derive (fun t => rsum d (fun i => D i * vget (vupd h p t) ((m + 1) * d + i))) (vget h p) (rsum d (fun i => D i * ind p ((m + 1) * d + i)))).
    { apply is_derive_rsum with (f := fun i t => D i * vget (vupd h p t) ((m + 1) * d + i)). intros i _. apply is_derive_scal. now apply is_derive_vupd. }
    eapply is_derive_val; [apply (is_derive_mult _ _ _ _ _ Hi Hi); intros; apply Rmult_comm|].
    unfold plus, mult; simpl.
    rewrite (rsum_ext d (fun i => D i * vget (vupd h p (vget h p)) ((m + 1) * d + i)) (fun i => D i * a_A s i m)).
    + ring.
    + intros i _. rewrite vupd_id by auto. now rewrite ard_A_eq.
  - apply is_derive_rsum with (f := fun i t => D i / exp (vget (vupd h p t) i) * (D i / exp (vget (vupd h p t) i))).
    intros i Hi. pose proof (is_derive_vupd h p i Hl) as Hv.
    assert (Hc : is_derive (fun u => D i / exp u * (D i / exp u)) (vget h i) (- (2 * (D i / a_ell s i) * (D i / a_ell s i)))).
    { auto_derive; rewrite ?ard_ell_eq; pose proof (ard_ell_pos k d s i Hok).
      - repeat split; apply Rgt_not_eq; auto.
      - field. lra. }
    assert (Hc' : is_derive (fun u => D i / exp u * (D i / exp u)) (vget (vupd h p (vget h p)) i) (- (2 * (D i / a_ell s i) * (D i / a_ell s i))))
      by (rewrite vupd_id; auto).
    eapply is_derive_val; [exact (is_derive_comp (fun u => D i / exp u * (D i / exp u)) (fun t => vget (vupd h p t) i) (vget h p) _ _ Hc' Hv)|]. unfold ind, scal; simpl. unfold mult; simpl. ring.
Qed.

Lemma ard_kernel_derive p : (p < N)%nat ->
  is_derive (fun t => ard_kernel k (ard_set k d (vupd h p t)) x y) (vget h p)
    ((2 * ind p (d + d * k) - 1 / 2 * dz p) * ard_kernel k s x y).
Proof.
  intro Hp. assert (Hl : (p < length h)%nat) by now rewrite h_len. unfold ard_kernel. cbn [a_sf2 ard_set].
  replace (d + d * k + 1 - 1)%nat with (d + d * k)%nat by lia.
  assert (H1 : is_derive (fun t => exp (2 * vget (vupd h p t) (d + d * k))) (vget h p) (2 * ind p (d + d * k) * a_sf2 s)).
  { assert (Hc : is_derive (fun u => exp (2 * u)) (vget (vupd h p (vget h p)) (d + d * k)) (2 * a_sf2 s)).
    { rewrite vupd_id by auto. auto_derive; [exact I|]. rewrite ard_sf2_eq. ring. }
    eapply is_derive_val; [exact (is_derive_comp (fun u => exp (2 * u)) (fun t => vget (vupd h p t) (d + d * k)) (vget h p) _ _ Hc (is_derive_vupd h p (d + d * k) Hl))|].
    unfold ind, scal; simpl. unfold mult; simpl. ring. }
  assert (Ez : ard_z k (ard_set k d (vupd h p (vget h p))) x y = ard_z k s x y).
  { rewrite vupd_id by auto. destruct Hok as (_ & _ & E). unfold h. now rewrite <- E. }
  assert (H2 : is_derive (fun t => exp (- (1 / 2) * ard_z k (ard_set k d (vupd h p t)) x y)) (vget h p)
                 (- (1 / 2) * dz p * exp (- (1 / 2) * ard_z k s x y))).
  { assert (Hc : is_derive (fun u => exp (- (1 / 2) * u)) (ard_z k (ard_set k d (vupd h p (vget h p))) x y) (- (1 / 2) * exp (- (1 / 2) * ard_z k s x y))).
    { rewrite Ez. auto_derive; [exact I|]. ring. }
    eapply is_derive_val; [exact (is_derive_comp (fun u => exp (- (1 / 2) * u)) (fun t => ard_z k (ard_set k d (vupd h p t)) x y) (vget h p) _ _ Hc (ard_z_derive p Hp))|]. unfold scal; simpl. unfold mult; simpl. ring. }
  eapply is_derive_val; [apply (is_derive_mult _ _ _ _ _ H1 H2); intros; apply Rmult_comm|].
  unfold plus, mult; simpl. rewrite Ez, vupd_id, ard_sf2_eq by auto. ring.
Qed.

Lemma ard_grad p : (p < N)%nat ->
  is_derive (fun t => ard_kernel k (ard_set k d (vupd h p t)) x y) (vget h p) (vget (ard_gradient k s x y) p).
Proof.
  intro Hp. eapply is_derive_val; [now apply ard_kernel_derive|]. match goal with |- ?a = ?b => change (a = b :> R) end. unfold ard_gradient. destruct Hok as (Hd & _). rewrite Hd.
  fold (ard_kernel k s x y). set (kv := ard_kernel k s x y).
  destruct (Nat.lt_ge_cases p d) as [H1|H1]; [|destruct (Nat.lt_ge_cases p (d + d * k)) as [H2|H2]].
  - rewrite vget_app1 by (rewrite vec_of_len; auto). rewrite vget_vec_of by auto. unfold dz, ind.
    replace (d + d * k =? p)%nat with false by (symmetry; apply Nat.eqb_neq; nia).
    rewrite (rsum_0 k).
    + rewrite (rsum_ext d _ (fun i => if (i =? p)%nat then - (2 * (D i / a_ell s i) * (D i / a_ell s i)) else 0)).
      * rewrite rsum_delta by auto. cbn beta. generalize (D p / a_ell s p). intro q. field.
      * intros i _. destruct (i =? p)%nat; ring.
    + intros m _. rewrite (rsum_0 d (fun i => D i * (if ((m + 1) * d + i =? p)%nat then 1 else 0))); [ring|]. intros i Hi.
      replace ((m + 1) * d + i =? p)%nat with false by (symmetry; apply Nat.eqb_neq; nia). ring.
  - assert (Hd0 : d <> O) by nia.
    pose proof (Nat.div_mod (p - d) d Hd0) as Hdm. set (j := ((p - d) / d)%nat) in *. set (i := ((p - d) mod d)%nat) in *.
    assert (Hi : (i < d)%nat) by (apply Nat.mod_upper_bound; auto).
    assert (Hj : (j < k)%nat) by (apply Nat.div_lt_upper_bound; auto; nia).
    assert (Ep : p = ((j + 1) * d + i)%nat) by nia.
    replace p with (length (vec_of d (fun i0 => D i0 / a_ell s i0 * (D i0 / a_ell s i0) * kv)%R) + (j * d + i))%nat at 3 by (rewrite vec_of_len; nia).
    rewrite vget_app2. rewrite vget_app1 by (rewrite flat_len; nia). rewrite flat_get by auto. cbn [plus].
    unfold dz, ind.
    replace (d + d * k =? p)%nat with false by (symmetry; apply Nat.eqb_neq; nia).
    rewrite (rsum_0 d (fun i0 => - _ * _)).
    + rewrite (rsum_ext k _ (fun m => if (m =? j)%nat then 2 * rsum d (fun i0 => D i0 * a_A s i0 m) * D i else 0)).
      * rewrite rsum_delta by auto. cbn beta. set (G := rsum d _). generalize (vget x i - vget y i). intro q. clearbody G kv. field.
      * intros m _. destruct (Nat.eqb_spec m j) as [->|Hm].
        -- rewrite (rsum_ext d (fun i0 => D i0 * (if ((j + 1) * d + i0 =? p)%nat then 1 else 0)) (fun i0 => if (i0 =? i)%nat then D i0 else 0)).
           ++ now rewrite rsum_delta.
           ++ intros i0 Hi0. rewrite Ep. destruct (Nat.eqb_spec i0 i) as [->|Hne].
              ** rewrite Nat.eqb_refl. ring.
              ** replace ((j + 1) * d + i0 =? (j + 1) * d + i)%nat with false by (symmetry; apply Nat.eqb_neq; lia). ring.
        -- rewrite (rsum_0 d (fun i0 => D i0 * (if ((m + 1) * d + i0 =? p)%nat then 1 else 0))); [ring|]. intros i0 Hi0. rewrite Ep.
           replace ((m + 1) * d + i0 =? (j + 1) * d + i)%nat with false; [ring|]. symmetry. apply Nat.eqb_neq.
           destruct (Nat.lt_ge_cases m j); nia.
    + intros i0 Hi0. replace (i0 =? p)%nat with false by (symmetry; apply Nat.eqb_neq; nia). ring.
  - assert (Ep : p = (d + d * k)%nat) by (unfold N in Hp; lia).
    replace p with (length (vec_of d (fun i0 => D i0 / a_ell s i0 * (D i0 / a_ell s i0) * kv)%R) +
      (length (flat_map (fun j => vec_of d (fun i => - rsum d (fun m => D m * a_A s m j) * D i * kv)%R) (seq 0 k)) + 0))%nat at 3
      by (rewrite flat_len, vec_of_len; nia).
    rewrite !vget_app2. unfold vget; cbn [nth]. unfold ind, dz. rewrite Ep, Nat.eqb_refl.
    rewrite (rsum_0 k), (rsum_0 d); [ring| |].
    + intros i Hi. unfold ind. replace (i =? d + d * k)%nat with false by (symmetry; apply Nat.eqb_neq; nia). ring.
    + intros m Hm. rewrite (rsum_0 d (fun i => D i * ind (d + d * k) ((m + 1) * d + i))); [ring|]. intros i Hi. unfold ind.
      replace ((m + 1) * d + i =? d + d * k)%nat with false by (symmetry; apply Nat.eqb_neq; nia). ring.
Qed.
Lemma ard_grad_len : length (ard_gradient k s x y) = N.
Proof. unfold ard_gradient. rewrite !app_length, vec_of_len, flat_len. destruct Hok as (-> & _). unfold N. cbn [length]. lia. Qed.
End Ard.

Lemma cgrad sf2 l k C d st x y p : 0 < sf2 -> 0 < l -> In C (kernels sf2 l k) -> creach C d st -> (p < c_size C st)%nat ->
  is_derive (fun t => c_ker C (c_set C st (vupd (c_params C st) p t)) x y) (vget (c_params C st) p) (vget (c_gradient C st x y) p).
Proof.
  intros Hs Hl HC Hr Hp.
  destruct HC as [<-|[<-|[<-|[<-|[]]]]]; simpl in *.
  - apply exp_grad; auto. exact (creach_ok _ (exp_OK sf2 l Hs Hl) d st Hr).
  - apply matern3_grad; auto. exact (creach_ok _ (matern3_OK sf2 l Hs Hl) d st Hr).
  - apply matern5_grad; auto. exact (creach_ok _ (matern5_OK sf2 l Hs Hl) d st Hr).
  - assert (Hk : ard_ok k d st) by exact (creach_ok _ (ard_OK k sf2 Hs) d st Hr).
    pose proof Hk as (Hd & _). unfold ard_size in Hp. rewrite Hd in *. now apply ard_grad.
Qed.
Lemma cgrad_len sf2 l k C d st x y : 0 < sf2 -> 0 < l -> In C (kernels sf2 l k) -> creach C d st ->
  length (c_gradient C st x y) = c_size C st.
Proof.
  intros Hs Hl HC Hr. destruct HC as [<-|[<-|[<-|[<-|[]]]]]; try reflexivity.
  assert (Hk : ard_ok k d st) by exact (creach_ok _ (ard_OK k sf2 Hs) d st Hr).
  simpl. rewrite (ard_grad_len k d) by auto. unfold ard_size. now destruct Hk as (-> & _).
Qed.
