(** The parallel loops at the level of single memory accesses: every interleaving has the outcome of some
    sequential order, there is no data race and no deadlock, and the loops of limbo are of this kind. *)
From Coq Require Import List Bool Arith Lia Permutation.
From Verif Require Import F64 ParModel ParFacts ParUseModel SparseModel GPModel MultiGPModel ParetoModel.
Import ListNotations.

Section Generic.
Variables (L V : Type) (dec : forall x y : L, {x = y} + {x <> y}).
Variable own : L -> owner.

Lemma perm_lt n order i : Permutation (seq 0 n) order -> In i order -> i < n.
Proof. intros Hp Hi. apply Permutation_sym in Hp. eapply Permutation_in in Hi; [|exact Hp]. apply in_seq in Hi. lia. Qed.
Lemma perm_in n order i : Permutation (seq 0 n) order -> i < n -> In i order.
Proof. intros Hp Hi. eapply Permutation_in; [exact Hp | apply in_seq; lia]. Qed.
Lemma perm_nodup n order : Permutation (seq 0 n) order -> NoDup order.
Proof. intros Hp. eapply Permutation_NoDup; [exact Hp | apply seq_NoDup]. Qed.

(** a loop whose iterations respect an assignment of owners *)
Theorem C72_outcomes n (body : nat -> task L V) m :
  (forall i, i < n -> respects own i Before (body i)) ->
  (forall m', par_loop dec n body m (Finish m') <->
     exists order, Permutation (seq 0 n) order /\ seq_loop dec order body m = Finish m') /\
  (par_loop dec n body m Undef <->
     exists order, Permutation (seq 0 n) order /\ seq_loop dec order body m = Undef) /\
  ~ par_loop dec n body m Deadlock.
Proof.
  intros Hr. set (s0 := {| mem := m; lk := None; pool := body |}).
  assert (Hi : inv L V own n s0 (fun _ => Before)) by (apply inv_start; assumption).
  assert (Hback : forall order, Permutation (seq 0 n) order -> exists sched,
            run dec n sched s0 = Some {| mem := snd (seqrun L V dec order (body, m)); lk := None; pool := fst (seqrun L V dec order (body, m)) |}).
  { intros order Hp. apply (order_run L V dec own n order s0).
    - eapply perm_nodup; eauto.
    - intros i. eapply perm_lt; eauto.
    - reflexivity.
    - intros i Hin. cbn. apply Hr. eapply perm_lt; eauto. }
  split; [|split].
  - intros m'. split.
    + intros (sched & s & Hrun & Hfin & ->).
      destruct (serial L V dec own n sched s0 s _ Hi Hrun) as (order & Hp & _ & E).
      { intros i Hlt. exists true. apply Hfin. assumption. }
      exists order. split; [assumption|]. cbn in E.
      assert (H := seqrun_loop L V dec order body body m (perm_nodup _ _ Hp) (fun i _ => eq_refl)).
      rewrite <- E in H. cbn in H. destruct (seq_loop dec order body m) as [m1| |].
      * destruct H as [-> _]. reflexivity.
      * destruct H as (i & Hin & Hf). rewrite Hfin in Hf by (eapply perm_lt; eauto). discriminate.
      * contradiction.
    + intros (order & Hp & Hs). destruct (Hback order Hp) as (sched & Hrun).
      exists sched. eexists. split; [exact Hrun|]. cbn.
      assert (H := seqrun_loop L V dec order body body m (perm_nodup _ _ Hp) (fun i _ => eq_refl)).
      rewrite Hs in H. destruct H as [-> H]. split; [|reflexivity]. intros i Hlt. apply H. eapply perm_in; eauto.
  - split.
    + intros (sched & s & Hrun & Hu).
      destruct (inv_run L V dec own n sched s0 s _ Hi Hrun) as [ph Hi'].
      destruct (inv_defined L V own n s ph Hi' Hu) as (i & Hlt & Hf).
      destruct (complete L V dec own n s ph Hi') as (sched' & s' & Hrun' & He).
      assert (Hrun2 : run dec n (sched ++ sched') s0 = Some s') by (rewrite run_app; unfold s0; rewrite Hrun; assumption).
      destruct (serial L V dec own n _ s0 s' _ Hi Hrun2 He) as (order & Hp & _ & E).
      exists order. split; [assumption|]. cbn in E.
      assert (H := seqrun_loop L V dec order body body m (perm_nodup _ _ Hp) (fun i _ => eq_refl)).
      rewrite <- E in H. cbn in H. destruct (seq_loop dec order body m) as [m1| |]; [|reflexivity|contradiction].
      destruct H as [_ H]. assert (Hs' := stop_stays L V dec n sched' s s' i false Hrun' Hf).
      rewrite H in Hs' by (eapply perm_in; eauto). discriminate.
    + intros (order & Hp & Hs). destruct (Hback order Hp) as (sched & Hrun).
      exists sched. eexists. split; [exact Hrun|]. cbn.
      assert (H := seqrun_loop L V dec order body body m (perm_nodup _ _ Hp) (fun i _ => eq_refl)).
      rewrite Hs in H. destruct H as (i & Hin & Hf). left. exists i. split; [eapply perm_lt; eauto|].
      cbn. rewrite Hf. reflexivity.
  - intros (sched & s & Hrun & Hnf & Hnu & Hst).
    destruct (inv_run L V dec own n sched s0 s _ Hi Hrun) as [ph Hi'].
    destruct (progress L V dec own n s ph Hi') as [He | (i & s' & E)].
    + apply Hnf. intros i Hlt. destruct (He i Hlt) as [[|] E]; [assumption|].
      exfalso. apply Hnu. left. exists i. split; [assumption|]. rewrite E. reflexivity.
    + rewrite Hst in E. discriminate.
Qed.

(** however the scheduler chooses, it cannot go on for ever *)
Theorem C72_terminates n (s : st L V) : ~ exists run : nat -> st L V, run 0 = s /\ forall k, exists i, step dec n i (run k) = Some (run (S k)).
Proof.
  induction (steps_wf L V dec n s) as [s _ IH]. intros (f & H0 & Hf).
  destruct (Hf 0) as [i Hi]. rewrite H0 in Hi. apply (IH (f 1)); [exists i; assumption|].
  exists (fun k => f (S k)). split; [reflexivity|]. intros k. apply Hf.
Qed.

Lemma respects_before i t : respects (V := V) own i After t -> respects own i Before t.
Proof.
  intros H. remember After as p eqn:Hp. induction H; try subst p; try discriminate.
  - constructor. discriminate.
  - constructor; auto. destruct H as [?|[?|[? ?]]]; [left|right;left|discriminate]; assumption.
  - constructor; auto. destruct H as [?|[? ?]]; [left|discriminate]; assumption.
Qed.

Lemma seqrun_swap n order order' : Permutation order order' -> forall pm : (nat -> task L V) * (L -> V), NoDup order ->
  (forall i, In i order -> i < n) -> (forall i, i < n -> respects own i After (fst pm i)) ->
  seqrun L V dec order pm = seqrun L V dec order' pm.
Proof.
  assert (Hkeep : forall (pm : (nat -> task L V) * (L -> V)) i ok m', (forall x, x < n -> respects own x After (fst pm x)) ->
            forall x, x < n -> respects own x After (fst (upd Nat.eq_dec (fst pm) i (Stop ok), m' : L -> V) x)).
  { intros pm i ok m' H x Hx. unfold upd; cbn. destruct (Nat.eq_dec x i); [constructor; discriminate | auto]. }
  induction 1 as [| x l l' Hp IH | x y l | l l' l'' Hp1 IH1 Hp2 IH2]; intros pm Hnd Hlt Hr.
  - reflexivity.
  - cbn [seqrun]. inversion Hnd; subst. apply IH; auto.
    + intros i Hi. apply Hlt. right. assumption.
  - cbn [seqrun fst snd]. inversion Hnd as [|? ? Hn1 Hnd1]; subst.
    assert (Hxy : x <> y) by (intros ->; apply Hn1; left; reflexivity).
    rewrite (upd_other Nat.eq_dec (fst pm) y _ x) by assumption.
    rewrite (upd_other Nat.eq_dec (fst pm) x _ y) by congruence.
    assert (Hx : respects own x After (fst pm x)) by (apply Hr, Hlt; right; left; reflexivity).
    assert (Hy : respects own y After (fst pm y)) by (apply Hr, Hlt; left; reflexivity).
    destruct (exec_commute L V dec own x After (fst pm x) y (fst pm y) Hx Hy ltac:(congruence) (snd pm)) as [A B].
    rewrite A. cbn [fst snd]. rewrite B. rewrite (upd_swap Nat.eq_dec _ y _ x) by congruence. reflexivity.
  - rewrite IH1 by assumption. apply IH2; auto.
    + eapply Permutation_NoDup; eauto.
    + intros i Hi. apply Hlt. eapply Permutation_in; [apply Permutation_sym; exact Hp1 | exact Hi].
Qed.

(** without a mutex the outcome is that of the plain loop over 0, 1, ..., n - 1 *)
Theorem C72_lock_free n (body : nat -> task L V) m r :
  (forall i, i < n -> respects own i After (body i)) ->
  par_loop dec n body m r <-> r = seq_loop dec (seq 0 n) body m.
Proof.
  intros Hr. destruct (C72_outcomes n body m) as (H1 & H2 & H3).
  { intros i Hi. apply respects_before. auto. }
  assert (Hsame : forall order, Permutation (seq 0 n) order -> seq_loop dec order body m = seq_loop dec (seq 0 n) body m).
  { intros order Hp.
    assert (Ha := seqrun_loop L V dec order body body m (perm_nodup _ _ Hp) (fun i _ => eq_refl)).
    assert (Hb := seqrun_loop L V dec (seq 0 n) body body m (seq_NoDup n 0) (fun i _ => eq_refl)).
    rewrite (seqrun_swap n (seq 0 n) order Hp (body, m) (seq_NoDup n 0)) in Hb; auto.
    2: { intros i Hi. apply in_seq in Hi. lia. }
    destruct (seq_loop dec order body m) as [ma| |], (seq_loop dec (seq 0 n) body m) as [mb| |]; try contradiction; auto.
    - destruct Ha as [-> _], Hb as [-> _]. reflexivity.
    - destruct Ha as [_ Ha], Hb as (i & Hi & Hf). rewrite Ha in Hf; [discriminate|].
      eapply Permutation_in; [exact Hp | exact Hi].
    - destruct Hb as [_ Hb], Ha as (i & Hi & Hf). rewrite Hb in Hf; [discriminate|].
      eapply Permutation_in; [apply Permutation_sym; exact Hp | exact Hi]. }
  split.
  - intros H. destruct r as [m'| |].
    + apply H1 in H. destruct H as (order & Hp & E). rewrite <- E. apply Hsame. assumption.
    + apply H2 in H. destruct H as (order & Hp & E). rewrite <- E. apply Hsame. assumption.
    + contradiction.
  - intros ->. destruct (seq_loop dec (seq 0 n) body m) as [m'| |] eqn:E.
    + apply H1. exists (seq 0 n). auto.
    + apply H2. exists (seq 0 n). auto.
    + assert (Hb := seqrun_loop L V dec (seq 0 n) body body m (seq_NoDup n 0) (fun i _ => eq_refl)). rewrite E in Hb. contradiction.
Qed.
End Generic.

(** * Object [i] replaced by iteration [i] *)
From Coq Require Import FunctionalExtensionality.
From Verif Require Import MultiGPFacts.

Lemma nth_lput {A} i (a d : A) l : i < length l -> upd Nat.eq_dec (fun x => nth x l d) i a = fun x => nth x (lput i a l) d.
Proof.
  intros Hi. extensionality x. unfold upd. destruct (Nat.eq_dec x i) as [-> | Hne].
  - rewrite lput_same; auto.
  - rewrite lput_other; auto.
Qed.

Lemma each_seq {A} (d : A) f order : forall l, (forall i, In i order -> i < length l) ->
  seq_loop Nat.eq_dec order (each_task f) (fun i => nth i l d) =
  match par_each order f l with Done l' => Finish (fun i => nth i l' d) | _ => Undef end.
Proof.
  induction order as [|i r IH]; intros l Hlt; cbn; [reflexivity|].
  assert (Hi : i < length l) by (apply Hlt; left; reflexivity).
  rewrite (nth_error_nth' l d Hi). destruct (f i (nth i l d)) as [a| |]; cbn; try reflexivity.
  rewrite nth_lput by assumption. rewrite IH; [reflexivity|].
  intros x Hx. rewrite lput_length by assumption. apply Hlt. right. assumption.
Qed.

Lemma each_respects {A} f i : respects (V := A) Private i After (each_task f i).
Proof.
  constructor; [right; left; reflexivity|]. intros a. destruct (f i a); repeat constructor; discriminate.
Qed.

(** the parallel loops of MultiGP, ParallelLFOpt and the packing of data: [par_each] in the order 0, 1, ... *)
Theorem C72_each {A} (d : A) f (l : list A) r :
  par_loop Nat.eq_dec (length l) (each_task f) (fun i => nth i l d) r <->
  r = match par_each (seq 0 (length l)) f l with Done l' => Finish (fun i => nth i l' d) | _ => Undef end.
Proof.
  rewrite (C72_lock_free nat A Nat.eq_dec Private (length l) (each_task f)) by (intros; apply each_respects).
  rewrite each_seq; [reflexivity|]. intros i Hi. apply in_seq in Hi. lia.
Qed.

(** * The distance matrix *)
Section Distances.
Variables (A : Type) (norm : A -> A -> F).

Definition dist_own (l : dloc) : owner := match l with Samp _ => Shared | Cell i _ => Private i end.
Lemma dist_respects i js : respects dist_own i After (dist_row A norm i js).
Proof.
  induction js as [|j r IH]; cbn; [constructor; discriminate|]. destruct (i =? j)%nat; [assumption|].
  constructor; [left; reflexivity|]. intros [a|]; (constructor; [left; reflexivity|]); intros [b|];
    try (constructor; discriminate).
  constructor; [left; reflexivity | assumption].
Qed.

Lemma dist_exec samples i js : forall m : dloc -> dval A, i < length samples -> (forall j, In j js -> j < length samples) ->
  (forall x a, nth_error samples x = Some a -> m (Samp x) = Pt a) ->
  exists m', exec dloc_dec (dist_row A norm i js) m = (m', true) /\
    (forall j a b, In j js -> i <> j -> nth_error samples i = Some a -> nth_error samples j = Some b -> m' (Cell i j) = Num (norm a b)) /\
    (forall l, (forall j, In j js -> i <> j -> l <> Cell i j) -> m' l = m l).
Proof.
  induction js as [|j r IH]; intros m Hi Hj Hm.
  - exists m. cbn. repeat split; auto. intros j a b [].
  - cbn. destruct (i =? j)%nat eqn:Eij.
    + apply Nat.eqb_eq in Eij. subst j. destruct (IH m Hi) as (m' & E & H1 & H2); auto.
      { intros x Hx. apply Hj. right. assumption. }
      exists m'. split; [assumption|]. split.
      * intros j a b [-> | Hin] Hne; [congruence|]. apply H1; auto.
      * intros l Hl. apply H2. intros j Hin. apply Hl. right. assumption.
    + apply Nat.eqb_neq in Eij.
      destruct (nth_error samples i) as [a|] eqn:Ea; [|apply nth_error_None in Ea; lia].
      assert (Hjl : j < length samples) by (apply Hj; left; reflexivity).
      destruct (nth_error samples j) as [b|] eqn:Eb; [|apply nth_error_None in Eb; lia].
      cbn. rewrite (Hm i a Ea). cbn. rewrite (Hm j b Eb). cbn.
      destruct (IH (upd dloc_dec m (Cell i j) (Num (norm a b))) Hi) as (m' & E & H1 & H2).
      { intros x Hx. apply Hj. right. assumption. }
      { intros x c Hc. rewrite upd_other by discriminate. auto. }
      exists m'. split; [assumption|]. split.
      * intros x a' b' Hin Hne Ha' Hb'. injection Ha' as <-.
        destruct (in_dec Nat.eq_dec x r) as [Hr | Hr]; [apply H1; auto|].
        destruct Hin as [-> | Hin]; [|contradiction]. rewrite Eb in Hb'. injection Hb' as <-.
        rewrite H2; [apply upd_same|]. intros y Hy Hiy Hc. injection Hc as <-. contradiction.
      * intros l Hl. rewrite H2 by (intros y Hy; apply Hl; right; assumption).
        apply upd_other. apply Hl; [left; reflexivity | assumption].
Qed.

Lemma dist_seq samples order : forall m : dloc -> dval A, NoDup order -> (forall i, In i order -> i < length samples) ->
  (forall x a, nth_error samples x = Some a -> m (Samp x) = Pt a) ->
  exists m', seq_loop dloc_dec order (dist_task A norm (length samples)) m = Finish m' /\
    (forall i j a b, In i order -> i <> j -> nth_error samples i = Some a -> nth_error samples j = Some b -> m' (Cell i j) = Num (norm a b)) /\
    (forall l, (forall i j, In i order -> i <> j -> j < length samples -> l <> Cell i j) -> m' l = m l).
Proof.
  induction order as [|i r IH]; intros m Hnd Hlt Hm.
  - exists m. cbn. repeat split; auto. intros i j a b [].
  - inversion Hnd as [|? ? Hni Hnd']; subst.
    destruct (dist_exec samples i (seq 0 (length samples)) m) as (m1 & E1 & H1 & H2); auto.
    { apply Hlt. left. reflexivity. }
    { intros j Hj. apply in_seq in Hj. lia. }
    destruct (IH m1 Hnd') as (m' & E & H3 & H4).
    { intros x Hx. apply Hlt. right. assumption. }
    { intros x a Ha. rewrite H2 by (intros; discriminate). auto. }
    exists m'. split; [|split].
    + cbn [seq_loop]. unfold dist_task at 1. rewrite E1. assumption.
    + intros x j a b [<- | Hin] Hne Ha Hb.
      * rewrite H4 by (intros y z Hy _ _ Hc; injection Hc as -> _; contradiction).
        apply H1; auto. apply in_seq. assert (j < length samples) by (apply nth_error_Some; congruence). lia.
      * apply H3; auto.
    + intros l Hl. rewrite H4.
      * apply H2. intros j Hj Hne. apply in_seq in Hj. apply Hl; [left; reflexivity | assumption | lia].
      * intros x j Hx. apply Hl. right. assumption.
Qed.

(** sparsified_gp.hpp:161-167: whatever the schedule, the loop ends and has filled the matrix, its diagonal excepted *)
Theorem C72_distances samples (m : dloc -> dval A) :
  (forall i a, nth_error samples i = Some a -> m (Samp i) = Pt a) ->
  exists m', (forall r, par_loop dloc_dec (length samples) (dist_task A norm (length samples)) m r <-> r = Finish m') /\
    (forall i j a b, i <> j -> nth_error samples i = Some a -> nth_error samples j = Some b -> m' (Cell i j) = Num (norm a b)) /\
    (forall i, m' (Cell i i) = m (Cell i i)) /\ (forall i, m' (Samp i) = m (Samp i)).
Proof.
  intros Hm. destruct (dist_seq samples (seq 0 (length samples)) m (seq_NoDup _ _)) as (m' & E & H1 & H2); auto.
  { intros i Hi. apply in_seq in Hi. lia. }
  exists m'. split; [|split; [|split]].
  - intros r. rewrite (C72_lock_free _ _ dloc_dec dist_own) by (intros; apply dist_respects). rewrite E. reflexivity.
  - intros i j a b Hne Ha Hb. apply H1; auto. apply in_seq.
    assert (i < length samples) by (apply nth_error_Some; congruence). lia.
  - intros i. apply H2. intros x j _ Hne _ Hc. injection Hc as -> ->. congruence.
  - intros i. apply H2. intros; discriminate.
Qed.
End Distances.

(** * The densest point *)
Definition dense_own (l : kloc) : owner := match l with Dist _ _ => Shared | _ => Guarded end.
Lemma dense_respects D N i js : forall row, respects dense_own i Before (read_row D N i js row).
Proof.
  induction js as [|j r IH]; intros row; cbn.
  - destruct (row_density D N (fun _ j => nth j row f0) i); try (constructor; discriminate).
    constructor. constructor; [right; right; auto|]. intros [md|].
    + destruct (flt t md); repeat (constructor; try (right; auto; fail); try discriminate).
    + constructor. constructor. discriminate.
  - constructor; [left; reflexivity|]. intros [x|]; [apply IH | constructor; discriminate].
Qed.

Lemma map_nth_seq (row : list F) : map (fun j => nth j row f0) (seq 0 (length row)) = row.
Proof.
  apply nth_ext with (d := f0) (d' := f0); [rewrite map_length, seq_length; reflexivity|].
  intros k Hk. rewrite map_length, seq_length in Hk.
  rewrite (nth_indep _ f0 (nth 0 row f0)) by (rewrite map_length, seq_length; assumption).
  rewrite (map_nth (fun j => nth j row f0) (seq 0 (length row)) 0). rewrite seq_nth by assumption. reflexivity.
Qed.

Lemma read_exec D N i dist (m : kloc -> kval) js : forall row, (forall j, In j js -> m (Dist i j) = KNum (dist i j)) ->
  exec kloc_dec (read_row D N i js row) m = exec kloc_dec (read_row D N i [] (row ++ map (dist i) js)) m.
Proof.
  induction js as [|j r IH]; intros row H.
  - rewrite app_nil_r. reflexivity.
  - cbn [read_row exec map]. rewrite (H j) by (left; reflexivity). rewrite IH by (intros; apply H; right; assumption).
    rewrite <- app_assoc. reflexivity.
Qed.

Lemma dense_seq D N dist order : forall (m : kloc -> kval) md k, (forall i, In i order -> i < N) ->
  (forall i j, i < N -> j < N -> m (Dist i j) = KNum (dist i j)) -> m MinDist = KNum md -> m Denser = KIdx k ->
  match density_loop order D N dist md k with
  | Ok k' => exists m', seq_loop kloc_dec order (dense_task D N) m = Finish m' /\ m' Denser = KIdx k'
  | _ => seq_loop kloc_dec order (dense_task D N) m = Undef
  end.
Proof.
  induction order as [|i r IH]; intros m md k Hlt Hd Hm Hk; cbn [density_loop seq_loop]; [eauto|].
  assert (Hi : i < N) by (apply Hlt; left; reflexivity).
  unfold dense_task at 1 3 5.
  rewrite (read_exec D N i dist m) by (intros j Hj; apply in_seq in Hj; apply Hd; lia).
  cbn [app read_row].
  assert (E : row_density D N (fun _ j => nth j (map (dist i) (seq 0 N)) f0) i = row_density D N dist i).
  { unfold row_density. assert (H := map_nth_seq (map (dist i) (seq 0 N))). rewrite map_length, seq_length in H. rewrite H. reflexivity. }
  rewrite E. clear E. destruct (row_density D N dist i) as [d| |]; [|reflexivity|reflexivity].
  cbn [update_denser exec]. rewrite Hm. destruct (flt d md); cbn [exec].
  - apply IH.
    + intros x Hx. apply Hlt. right. assumption.
    + intros x y Hx Hy. rewrite !upd_other by discriminate. auto.
    + rewrite upd_other by discriminate. apply upd_same.
    + apply upd_same.
  - apply IH; auto. intros x Hx. apply Hlt. right. assumption.
Qed.

(** sparsified_gp.hpp:129-157: under every schedule of the single memory accesses the result is that of some order
    of the iterations, and the mutex is never waited for in vain *)
Theorem C72_most_dense D N dist (m : kloc -> kval) :
  (forall i j, i < N -> j < N -> m (Dist i j) = KNum (dist i j)) -> m MinDist = KNum dbl_max -> m Denser = KIdx None ->
  (forall m', par_loop kloc_dec N (dense_task D N) m (Finish m') ->
     exists order k, Permutation (seq 0 N) order /\ most_dense order D N dist = Ok k /\ m' Denser = KIdx k) /\
  (par_loop kloc_dec N (dense_task D N) m Undef ->
     exists order, Permutation (seq 0 N) order /\ most_dense order D N dist <> NoFuel /\ forall k, most_dense order D N dist <> Ok k) /\
  ~ par_loop kloc_dec N (dense_task D N) m Deadlock.
Proof.
  intros Hd Hm Hk.
  destruct (C72_outcomes _ _ kloc_dec dense_own N (dense_task D N) m) as (H1 & H2 & H3); [intros; apply dense_respects|].
  assert (Hnf : forall order md k, density_loop order D N dist md k <> NoFuel).
  { induction order as [|i r IH]; intros md k; cbn; [discriminate|].
    assert (row_density D N dist i <> NoFuel) by (unfold row_density; destruct (_ && _); discriminate).
    destruct (row_density D N dist i); [destruct (flt t md); apply IH | discriminate | congruence]. }
  split; [|split; [|assumption]].
  - intros m' H. apply H1 in H. destruct H as (order & Hp & E). exists order.
    assert (S := dense_seq D N dist order m dbl_max None (fun i => perm_lt N order i Hp) Hd Hm Hk).
    unfold most_dense. destruct (density_loop order D N dist dbl_max None) as [k| |].
    + destruct S as (m1 & E1 & E2). rewrite E in E1. injection E1 as <-. eauto.
    + rewrite E in S. discriminate.
    + rewrite E in S. discriminate.
  - intros H. apply H2 in H. destruct H as (order & Hp & E). exists order. split; [assumption|]. split; [apply Hnf|].
    assert (S := dense_seq D N dist order m dbl_max None (fun i => perm_lt N order i Hp) Hd Hm Hk).
    unfold most_dense. intros k. destruct (density_loop order D N dist dbl_max None); try discriminate.
    destruct S as (m1 & E1 & E2). rewrite E in E1. discriminate.
Qed.

(** * The Pareto set *)
Section Collect.
Variables (A : Type) (objs : A -> F64.vec).
Definition collect_own (l : ploc) : owner := match l with P _ => Shared | Vec => Guarded end.
Lemma collect_respects i js : forall p, respects collect_own i Before (read_points A objs i js p).
Proof.
  induction js as [|j r IH]; intros p; cbn.
  - destruct (nth_error p i) as [x|]; [|constructor; discriminate].
    destruct (non_dominated objs (objs x) p) as [[|]|]; try (constructor; discriminate).
    constructor. constructor; [right; right; auto|]. intros [a|l].
    + constructor. constructor. discriminate.
    + constructor; [right; auto|]. constructor. constructor. discriminate.
  - constructor; [left; reflexivity|]. intros [a|l]; [apply IH | constructor; discriminate].
Qed.

Lemma points_exec i (m : ploc -> pval A) (p : list A) js : forall q q', p = q ++ q' -> js = seq (length q) (length q') ->
  (forall j a, nth_error p j = Some a -> m (P j) = Elem a) ->
  exec ploc_dec (read_points A objs i js q) m = exec ploc_dec (read_points A objs i [] p) m.
Proof.
  induction js as [|j r IH]; intros q q' Hp Hj Hm.
  - destruct q'; [|discriminate]. rewrite app_nil_r in Hp. subst. reflexivity.
  - destruct q' as [|a q']; [discriminate|]. cbn [length seq] in Hj. injection Hj as -> ->.
    change (exec ploc_dec (read_points A objs i (length q :: seq (S (length q)) (length q')) q) m) with
      (exec ploc_dec (match m (P (length q)) with Elem a => read_points A objs i (seq (S (length q)) (length q')) (q ++ [a]) | Elems _ => Stop false end) m).
    rewrite (Hm (length q) a).
    + apply IH with (q' := q'); auto; [rewrite <- app_assoc; assumption|]. rewrite app_length. cbn. f_equal. lia.
    + rewrite Hp, nth_error_app2 by lia. rewrite Nat.sub_diag. reflexivity.
Qed.

Lemma collect_seq (p : list A) d order : forall (m : ploc -> pval A) l, (forall i, In i order -> i < length p) ->
  (forall j a, nth_error p j = Some a -> m (P j) = Elem a) -> m Vec = Elems l ->
  match collect objs p (map (fun i => nth i p d) order) with
  | Some l' => exists m', seq_loop ploc_dec order (collect_task A objs (length p)) m = Finish m' /\ m' Vec = Elems (l ++ l')
  | None => seq_loop ploc_dec order (collect_task A objs (length p)) m = Undef
  end.
Proof.
  induction order as [|i r IH]; intros m l Hlt Hm Hv; cbn [collect map seq_loop]; [rewrite app_nil_r; eauto|].
  assert (Hi : i < length p) by (apply Hlt; left; reflexivity).
  assert (E0 := points_exec i m p _ [] p eq_refl eq_refl Hm). cbn [length] in E0.
  fold (collect_task A objs (length p) i) in E0. rewrite E0. clear E0. cbn [read_points].
  rewrite (nth_error_nth' p d Hi). set (x := nth i p d).
  assert (Hr : forall y, In y r -> y < length p) by (intros y Hy; apply Hlt; right; assumption).
  destruct (non_dominated objs (objs x) p) as [[|]|]; cbn [exec push_back]; [| |destruct (collect objs p _); reflexivity].
  - rewrite Hv. cbn [exec].
    specialize (IH (upd ploc_dec m Vec (Elems (l ++ [x]))) (l ++ [x]) Hr).
    assert (Hm' : forall j a, nth_error p j = Some a -> upd ploc_dec m Vec (Elems (l ++ [x])) (P j) = Elem a)
      by (intros j a Ha; rewrite upd_other by discriminate; auto).
    specialize (IH Hm' (upd_same _ _ _ _)). destruct (collect objs p (map (fun i => nth i p d) r)); [|assumption].
    rewrite <- app_assoc in IH. assumption.
  - specialize (IH m l Hr Hm Hv). destruct (collect objs p (map (fun i => nth i p d) r)); assumption.
Qed.

(** pareto.hpp:145-155: under every schedule the vector holds what [collect] returns for some order of the points *)
Theorem C72_collect (p : list A) (m : ploc -> pval A) :
  (forall j a, nth_error p j = Some a -> m (P j) = Elem a) -> m Vec = Elems [] ->
  (forall m', par_loop ploc_dec (length p) (collect_task A objs (length p)) m (Finish m') ->
     exists order l, Permutation p order /\ collect objs p order = Some l /\ m' Vec = Elems l) /\
  (par_loop ploc_dec (length p) (collect_task A objs (length p)) m Undef ->
     exists order, Permutation p order /\ collect objs p order = None) /\
  ~ par_loop ploc_dec (length p) (collect_task A objs (length p)) m Deadlock.
Proof.
  intros Hm Hv.
  destruct (C72_outcomes _ _ ploc_dec collect_own (length p) (collect_task A objs (length p)) m) as (H1 & H2 & H3); [intros; apply collect_respects|].
  destruct p as [|d p'] eqn:Ep.
  { split; [|split; [|assumption]].
    - intros m' H. apply H1 in H. destruct H as (order & Hp & E). exists [], []. apply Permutation_nil in Hp. subst order.
      cbn in E. injection E as <-. auto.
    - intros H. apply H2 in H. destruct H as (order & Hp & E). apply Permutation_nil in Hp. subst order. discriminate. }
  rewrite <- Ep in *. clear Ep p'.
  assert (Hperm : forall order, Permutation (seq 0 (length p)) order -> Permutation p (map (fun i => nth i p d) order)).
  { intros order Hp. apply (Permutation_map (fun i => nth i p d)) in Hp. rewrite <- Hp.
    replace (map (fun i => nth i p d) (seq 0 (length p))) with p; [reflexivity|].
    apply nth_ext with (d := d) (d' := d); [rewrite map_length, seq_length; reflexivity|].
    intros k Hk. rewrite (nth_indep (map (fun i => nth i p d) (seq 0 (length p))) d (nth 0 p d)) by (rewrite map_length, seq_length; assumption).
    rewrite (map_nth (fun j => nth j p d)), seq_nth by assumption. reflexivity. }
  split; [|split; [|assumption]].
  - intros m' H. apply H1 in H. destruct H as (order & Hp & E).
    assert (S := collect_seq p d order m [] (fun i => perm_lt _ order i Hp) Hm Hv).
    exists (map (fun i => nth i p d) order). destruct (collect objs p _) as [l|].
    + destruct S as (m1 & E1 & E2). rewrite E in E1. injection E1 as <-. exists l. auto.
    + rewrite E in S. discriminate.
  - intros H. apply H2 in H. destruct H as (order & Hp & E).
    assert (S := collect_seq p d order m [] (fun i => perm_lt _ order i Hp) Hm Hv).
    exists (map (fun i => nth i p d) order). destruct (collect objs p _) as [l|]; [|auto].
    destruct S as (m1 & E1 & E2). rewrite E in E1. discriminate.
Qed.
End Collect.

(** * Examples *)
Definition one : F := fofZ (BinNums.Zpos BinNums.xH).
Definition ftwo : F := fofZ (BinNums.Zpos (BinNums.xO BinNums.xH)).
Definition ex_dist (i j : nat) : F := if (i =? j)%nat then f0 else if ((i =? 2) || (j =? 2))%nat then ftwo else one.
Definition ex_mem : kloc -> kval :=
  fun l => match l with Dist i j => KNum (ex_dist i j) | MinDist => KNum dbl_max | Denser => KIdx None end.

Lemma run_check {L V} dec n sched (s0 : st L V) l v :
  match run dec n sched s0 with Some s => (map (pool s) (seq 0 n), mem s l) = (repeat (Stop true) n, v) | None => False end ->
  exists s, run dec n sched s0 = Some s /\ finished n s /\ mem s l = v.
Proof.
  destruct (run dec n sched s0) as [s|]; [|contradiction]. intros H. injection H as H1 H2. exists s. split; [reflexivity|]. split; [|assumption].
  intros i Hi. assert (E : nth i (map (pool s) (seq 0 n)) (pool s 0) = Stop true).
  { rewrite H1. assert (In (nth i (repeat (Stop true) n) (pool s 0)) (repeat (Stop true : task L V) n)) as HI
      by (apply nth_In; rewrite repeat_length; assumption). apply repeat_spec in HI. assumption. }
  rewrite (map_nth (pool s) (seq 0 n) 0), seq_nth in E by assumption. exact E.
Qed.

(** three points: a schedule that mixes the accesses of all iterations ends, with point 1 as the densest (point 0, as
    dense, comes second at the mutex) *)
Example C72_example : exists sched s,
  run kloc_dec 3 sched {| mem := ex_mem; lk := None; pool := dense_task 1 3 |} = Some s /\
  finished 3 s /\ mem s Denser = KIdx (Some 1).
Proof.
  exists [0;1;2;0;1;2;0;1;2; 1;1;1;1;1; 2;2;2; 0;0;0]. apply run_check. vm_compute. reflexivity.
Qed.

(** the same loop without the mutex *)
Definition unguarded (i : nat) (d : F) : task kloc kval :=
  Rd MinDist (fun v => match v with
    | KNum md => if flt d md then Wr MinDist (KNum d) (Wr Denser (KIdx (Some i)) (Stop true)) else Stop true
    | KIdx _ => Stop false end).
(** it has a data race, and point 1 overwrites the denser point 0 *)
Example C72_mutex_needed :
  let body i := unguarded i (if (i =? 0)%nat then one else ftwo) in
  par_loop kloc_dec 2 body ex_mem Undef /\
  (exists m', par_loop kloc_dec 2 body ex_mem (Finish m') /\ m' Denser = KIdx (Some 1) /\
   forall order m1, Permutation (seq 0 2) order -> seq_loop kloc_dec order body ex_mem = Finish m1 -> m1 Denser = KIdx (Some 0)).
Proof.
  intros body. split.
  - exists [0]. destruct (run kloc_dec 2 [0] {| mem := ex_mem; lk := None; pool := body |}) as [s|] eqn:E; [|vm_compute in E; discriminate].
    exists s. split; [reflexivity|]. right. exists 0, 1. injection E as <-.
    split; [lia|]. split; [lia|]. split; [discriminate|]. vm_compute. reflexivity.
  - destruct (run_check kloc_dec 2 [0;1;0;0;1;1] {| mem := ex_mem; lk := None; pool := body |} Denser (KIdx (Some 1))) as (s & E & Hf & Hk).
    { vm_compute. reflexivity. }
    exists (mem s). split; [|split; [assumption|]].
    + exists [0;1;0;0;1;1], s. auto.
    + intros order m1 Hp. cbn in Hp.
      assert (Ho : order = [0; 1] \/ order = [1; 0]).
      { assert (Hl := Permutation_length Hp). destruct order as [|a [|b [|c o]]]; try discriminate.
        assert (Ha : In a [0; 1]) by (eapply Permutation_in; [apply Permutation_sym; exact Hp | left; reflexivity]).
        assert (Hb : In b [0; 1]) by (eapply Permutation_in; [apply Permutation_sym; exact Hp | right; left; reflexivity]).
        assert (Hn : NoDup [a; b]) by (eapply Permutation_NoDup; [exact Hp | repeat constructor; cbn; intuition congruence]).
        inversion Hn as [|? ? Hx]; subst. cbn in *. intuition congruence. }
      assert (H01 : match seq_loop kloc_dec [0; 1] body ex_mem with Finish m => m Denser = KIdx (Some 0) | _ => False end) by (vm_compute; reflexivity).
      assert (H10 : match seq_loop kloc_dec [1; 0] body ex_mem with Finish m => m Denser = KIdx (Some 0) | _ => False end) by (vm_compute; reflexivity).
      destruct Ho as [-> | ->]; intros E1; [rewrite E1 in H01 | rewrite E1 in H10]; assumption.
Qed.

(** three objects, each doubled by its iteration *)
Example C72_each_example : par_loop Nat.eq_dec 3 (each_task (fun i a => Done (2 * a + i))) (fun i => nth i [5; 6; 7] 0) (Finish (fun i => nth i [10; 13; 16] 0)).
Proof. apply (C72_each 0 (fun i a => Done (2 * a + i)) [5; 6; 7]). reflexivity. Qed.

(** two points on a line: both distances are written, the diagonal is not *)
Example C72_distances_example : exists m' : dloc -> dval nat, forall r,
  par_loop dloc_dec 2 (dist_task nat (fun a b => if (a =? b)%nat then f0 else one) 2) (fun l => match l with Samp i => Pt i | _ => Num f0 end) r ->
  r = Finish m' /\ m' (Cell 0 1) = Num one /\ m' (Cell 1 0) = Num one /\ m' (Cell 0 0) = Num f0.
Proof.
  destruct (C72_distances nat (fun a b => if (a =? b)%nat then f0 else one) [0; 1] (fun l => match l with Samp i => Pt i | _ => Num f0 end)) as (m' & H1 & H2 & H3 & _).
  - intros [|[|i]] a E; try (injection E as <-; reflexivity). destruct i; discriminate.
  - exists m'. intros r Hr. split; [apply H1, Hr|]. split; [apply (H2 0 1 0 1); auto|]. split; [apply (H2 1 0 1 0); auto | apply H3].
Qed.

(** two incomparable points and one they dominate *)
Example C72_collect_example : exists m' : ploc -> pval F64.vec,
  par_loop ploc_dec 3 (collect_task F64.vec (fun a => a) 3)
    (fun l => match l with P i => Elem (nth i [[one; ftwo]; [ftwo; one]; [one; one]] []) | Vec => Elems [] end) (Finish m') /\
  m' Vec = Elems [[ftwo; one]; [one; ftwo]].
Proof.
  match goal with |- exists m', par_loop _ _ ?b ?m _ /\ _ =>
    destruct (run_check ploc_dec 3 [0;0;1;1;2;2;0;1;2; 1;1;1;1; 0;0;0;0] {| mem := m; lk := None; pool := b |} Vec (Elems [[ftwo; one]; [one; ftwo]])) as (s & E & Hf & Hk) end.
  - vm_compute. reflexivity.
  - exists (mem s). split; [|assumption]. exists [0;0;1;1;2;2;0;1;2; 1;1;1;1; 0;0;0;0], s. auto.
Qed.
