(** Proofs about the initialisation functions. *)
From Coq Require Import ZArith List Bool Lia Reals Lra Permutation.
From Coq Require Import Floats.SpecFloat.
From Flocq Require Import Core.Raux.
From Verif Require Import F64 F64R OptModel OptSpec OptFacts InitModel OptFloat BOModel BOSpec BOFacts.
Import ListNotations.
Open Scope nat_scope.

(** the points passed to the objective in a list of events *)
Fixpoint eval_points {M E} (evs : list (event M E)) : list vec :=
  match evs with
  | [] => []
  | EvEval x _ :: r => x :: eval_points r
  | _ :: r => eval_points r
  end.

Definition all_evals {M E} (evs : list (event M E)) : Prop := Forall (fun e => is_eval e = true) evs.

Section Run.
  Context {W M E : Type}.
  Variable sfun : W -> vec -> (vec + E) * W.
  Variable init_pt : nat -> W -> vec * W.
  Notation run_init := (run_init (M := M) sfun init_pt).

  (** [P i x]: x may be the i-th point *)
  Variable P : nat -> vec -> Prop.
  Hypothesis HP : forall i w, P i (fst (init_pt i w)).

  Inductive seq_points : nat -> list vec -> Prop :=
  | sp_nil i : seq_points i []
  | sp_cons i x l : P i x -> seq_points (S i) l -> seq_points i (x :: l).

  Lemma run_init_points k : forall i (s : bo W M E) r,
    run_init k i s = r ->
    match r with
    | Ret s' => exists evs, trace s' = trace s ++ evs /\ all_evals evs /\
                  length evs = k /\ seq_points i (eval_points evs)
    | Throw s' _ => exists evs, trace s' = trace s ++ evs /\ all_evals evs /\
                  1 <= length evs <= k /\ seq_points i (eval_points evs)
    | _ => False
    end.
  Proof.
    induction k as [|k IH]; intros i s r Er; subst r; cbn [BOModel.run_init].
    - exists []. rewrite app_nil_r. repeat split; constructor.
    - pose proof (HP i (world s)) as Hx. destruct (init_pt i (world s)) as [x w]. simpl in Hx.
      destruct (eval_and_add_spec (M := M) sfun (set_world s w) x) as (r & w' & Hf & Hc). cbv zeta in Hc.
      destruct Hc as [(v & -> & Hfin & ->)|(Hb & ->)].
      + set (s1 := push _ _ _).
        assert (T1 : trace s1 = trace s ++ [EvEval x (inl v)]) by (destruct s; reflexivity).
        pose proof (IH (S i) s1 _ eq_refl) as K.
        destruct (run_init k (S i) s1) as [s'|s' e|s'|]; auto;
          destruct K as (evs & A & B & C & D); exists (EvEval x (inl v) :: evs);
          rewrite A, T1, <- app_assoc; (split; [reflexivity|]); (split; [constructor; auto|]);
          (split; [simpl; lia|]); simpl; constructor; auto.
      + exists [EvEval x r]. split; [destruct s; reflexivity|]. split; [repeat constructor|].
        split; [simpl; lia|]. simpl. repeat constructor; auto.
  Qed.
End Run.

Lemma eval_points_all {M E} (evs : list (event M E)) : all_evals evs -> length (eval_points evs) = length evs.
Proof. intro H. induction H as [|e l He H IH]; auto. destruct e; simpl in *; try discriminate. lia. Qed.

(** fixed list of points *)
Lemma seq_points_list pts : forall i l,
  seq_points (fun i x => x = nth i pts []) i l -> length l + i <= length pts ->
  l = firstn (length l) (skipn i pts).
Proof.
  intros i l H. induction H as [|i x l Hx H IH]; intro L; auto.
  simpl in *. rewrite IH at 1 by lia. rewrite Hx.
  assert (K : skipn i pts = nth i pts [] :: skipn (S i) pts); [|now rewrite K].
  assert (Hi : i < length pts) by lia. clear - Hi. revert i Hi.
  induction pts as [|p pts IH]; intros i Hi; simpl in *; [lia|].
  destruct i; auto. apply IH. lia.
Qed.

(** * exploration of the grid *)
Section Explore.
  Variable xs : list F.

  Lemma explore_in d : forall depth cur q, depth + S d = length cur ->
    (In q (explore xs d depth cur) <-> below xs depth cur q).
  Proof.
    induction d as [|d IH]; intros depth cur q L; cbn [explore]; rewrite in_flat_map.
    - split.
      + intros (x & Hx & [<-|[]]). repeat split; [apply set_nth_length|apply set_nth_firstn|].
        rewrite set_nth_skipn by lia. constructor; auto. rewrite skipn_all2 by lia. constructor.
      + intro B. destruct (below_last xs depth cur q) as (x & Hx & ->); auto; [lia|].
        exists x. split; auto. now left.
    - split.
      + intros (x & Hx & Hq). apply IH in Hq; [|rewrite set_nth_length; lia].
        apply below_step_inv with x; auto. lia.
      + intro B. destruct (below_step xs depth cur q) as (x & Hx & Bx); auto; [lia|].
        exists x. split; auto. apply IH; auto. rewrite set_nth_length; lia.
  Qed.

  Lemma explore_length d : forall depth cur, length (explore xs d depth cur) = length xs ^ S d.
  Proof.
    induction d as [|d IH]; intros depth cur; cbn [explore].
    - assert (K : forall l, length (flat_map (fun x => [set_nth depth x cur]) l) = length l)
        by (induction l; simpl; auto). rewrite K. simpl. lia.
    - assert (K : forall l, length (flat_map (fun x => explore xs d (S depth) (set_nth depth x cur)) l)
                  = length l * length xs ^ S d).
      { induction l; auto. cbn [flat_map]. rewrite app_length, IH, IHl. simpl. lia. }
      rewrite K. simpl. lia.
  Qed.

  Lemma explore_nodup d : forall depth cur, depth + S d = length cur -> NoDup xs -> NoDup (explore xs d depth cur).
  Proof.
    induction d as [|d IH]; intros depth cur L ND; cbn [explore].
    - assert (K : forall l, NoDup l -> NoDup (flat_map (fun x => [set_nth depth x cur]) l)).
      { induction l as [|x l IHl]; intro N; simpl; constructor; inversion N; subst; auto.
        intro I. apply in_flat_map in I. destruct I as (y & Hy & [E|[]]).
        assert (A : skipn depth (set_nth depth y cur) = skipn depth (set_nth depth x cur)) by (now rewrite E).
        rewrite !set_nth_skipn in A by lia. injection A; intros; subst. contradiction. }
      now apply K.
    - assert (K : forall l, NoDup l -> incl l xs ->
                  NoDup (flat_map (fun x => explore xs d (S depth) (set_nth depth x cur)) l)).
      { induction l as [|x l IHl]; intros N I; cbn [flat_map]; [constructor|].
        inversion N; subst.
        assert (Dj : forall q, In q (explore xs d (S depth) (set_nth depth x cur)) ->
                     ~ In q (flat_map (fun x => explore xs d (S depth) (set_nth depth x cur)) l)).
        { intros q Hq Hq'. apply in_flat_map in Hq'. destruct Hq' as (y & Hy & Hq').
          apply explore_in in Hq; [|rewrite set_nth_length; lia].
          apply explore_in in Hq'; [|rewrite set_nth_length; lia].
          destruct Hq as (_ & A & _), Hq' as (_ & B & _). rewrite A in B.
          rewrite !set_nth_firstn_S in B by lia. apply app_inj_tail in B. destruct B as [_ ->]. contradiction. }
        assert (N1 : NoDup (explore xs d (S depth) (set_nth depth x cur)))
          by (apply IH; auto; rewrite set_nth_length; lia).
        assert (N2 : NoDup (flat_map (fun x => explore xs d (S depth) (set_nth depth x cur)) l))
          by (apply IHl; auto; intros z Hz; apply I; now right).
        clear - N1 N2 Dj.
        induction (explore xs d (S depth) (set_nth depth x cur)) as [|q e IHe]; simpl; auto.
        inversion N1; subst. constructor.
        - intro J. apply in_app_or in J. destruct J as [J|J]; auto. apply (Dj q); auto. now left.
        - apply IHe; auto. intros z Hz. apply Dj. now right. }
      apply K; auto. intros z Hz; auto.
  Qed.
End Explore.

Lemma grid_sampling_spec xs dim pts :
  grid_sampling xs dim = Some pts ->
  (forall q, In q pts <-> on_grid xs dim q) /\ (NoDup xs -> NoDup pts) /\ length pts = length xs ^ dim.
Proof.
  destruct dim as [|d]; [discriminate|]. intro E. injection E; intros <-. clear E.
  assert (L : 0 + S d = length (repeat f0 (S d))) by (now rewrite repeat_length).
  split; [|split].
  - intro q. rewrite (explore_in xs d 0 _ q L). rewrite (below_grid (fun _ => f0)), repeat_length. reflexivity.
  - intro N. now apply explore_nodup.
  - apply explore_length.
Qed.

(** values of the sampling grid *)
Lemma acc_increasing n i j : (1 <= n <= 2 ^ 20)%Z -> i < j -> (Z.of_nat j <= n + 2)%Z ->
  (fval (acc (fdiv f1 (fofZ n)) f0 i) < fval (acc (fdiv f1 (fofZ n)) f0 j))%R.
Proof.
  intros Hn Hij Hj.
  destruct (acc_val n Hn i) as (_ & _ & A & _); [lia|].
  destruct (acc_val n Hn j) as (_ & _ & B & _); [lia|].
  apply Rabs_le_inv in A. apply Rabs_le_inv in B.
  pose proof (err_small n Hn i ltac:(lia)) as Ei. pose proof (err_small n Hn j ltac:(lia)) as Ej.
  pose proof (inv_n n Hn). pose proof u50_pos.
  assert (K : ((INR i + 1) * / IZR n <= INR j * / IZR n)%R).
  { apply Rmult_le_compat_r; [lra|]. rewrite <- S_INR. apply le_INR. lia. }
  lra.
Qed.

Lemma acc_nodup n c : (1 <= n <= 2 ^ 20)%Z -> (Z.of_nat c <= n + 3)%Z ->
  NoDup (map (acc (fdiv f1 (fofZ n)) f0) (seq 0 c)).
Proof.
  intros Hn Hc. apply NoDup_nth with (d := f0). intros i j Hi Hj E.
  rewrite map_length, seq_length in Hi, Hj.
  assert (K : forall k, k < c -> nth k (map (acc (fdiv f1 (fofZ n)) f0) (seq 0 c)) f0 = acc (fdiv f1 (fofZ n)) f0 k).
  { intros k Hk. change f0 with (acc (fdiv f1 (fofZ n)) f0 0) at 2. rewrite map_nth, seq_nth; auto. }
  rewrite !K in E by auto.
  destruct (Nat.lt_trichotomy i j) as [L|[L|L]]; auto.
  - pose proof (acc_increasing n i j Hn L ltac:(lia)). rewrite E in H. lra.
  - pose proof (acc_increasing n j i Hn L ltac:(lia)). rewrite E in H. lra.
Qed.

Lemma acc_nth n c k x : nth_error (map (acc (fdiv f1 (fofZ n)) f0) (seq 0 c)) k = Some x ->
  k < c /\ x = acc (fdiv f1 (fofZ n)) f0 k.
Proof.
  intro H. assert (L : k < c).
  { assert (N : nth_error (map (acc (fdiv f1 (fofZ n)) f0) (seq 0 c)) k <> None) by congruence.
    apply nth_error_Some in N. rewrite map_length, seq_length in N. auto. }
  split; auto. rewrite nth_error_map in H.
  rewrite (nth_error_nth' (seq 0 c) 0) in H by (now rewrite seq_length).
  rewrite seq_nth in H by auto. cbn [option_map] in H. injection H; intros <-. reflexivity.
Qed.

(** error 2^-29 *)
Lemma acc_close n k : (1 <= n <= 2 ^ 20)%Z -> (Z.of_nat k <= n + 2)%Z ->
  (Rabs (fval (acc (fdiv f1 (fofZ n)) f0 k) - INR k / IZR n) <= / 2 ^ 28)%R.
Proof.
  intros Hn Hk. destruct (acc_val n Hn k Hk) as (_ & _ & A & _).
  unfold Rdiv. eapply Rle_trans; [exact A|].
  assert (Nk : (INR k <= IZR (2 ^ 21))%R) by (rewrite INR_IZR_INZ; apply IZR_le; lia).
  pose proof u50_pos.
  apply Rle_trans with (IZR (2 ^ 21) * (2 * u50))%R; [apply Rmult_le_compat_r; lra|].
  rewrite u50_val. rewrite <- Rmult_assoc, <- mult_IZR.
  apply Rmult_le_reg_r with (IZR (2 ^ 50)); [apply IZR_lt; lia|].
  rewrite Rmult_assoc, Rinv_l, Rmult_1_r by (apply IZR_neq; lia).
  apply Rmult_le_reg_l with (2 ^ 28)%R; [apply pow_lt; lra|].
  rewrite <- Rmult_assoc, Rinv_r, Rmult_1_l by (apply pow_nonzero; lra).
  rewrite pow_IZR, <- mult_IZR. apply IZR_le. vm_compute. discriminate.
Qed.

(** * random vectors *)
Lemma random_vec_spec {W} (rd : W -> F * W) (P : F -> Prop) :
  (forall w, P (fst (rd w))) -> forall n w, length (fst (random_vec rd n w)) = n /\ Forall P (fst (random_vec rd n w)).
Proof.
  intro H. induction n as [|n IH]; intro w; simpl; [split; constructor|].
  pose proof (H w) as Hw. destruct (rd w) as [x w1]. destruct (IH w1) as [A B].
  destruct (random_vec rd n w1) as [r w2]. simpl in *. split; [lia|constructor; auto].
Qed.

Lemma random_grid_vec_spec {W} (ri : Z -> Z -> W -> Z * W) bins :
  (forall w, (0 <= fst (ri 0%Z bins w) <= bins)%Z) -> forall n w,
  length (fst (random_grid_vec ri bins n w)) = n /\
  Forall (fun x => exists j, (0 <= j <= bins)%Z /\ x = fdiv (fofZ j) (fofZ bins)) (fst (random_grid_vec ri bins n w)).
Proof.
  intro H. induction n as [|n IH]; intro w; simpl; [split; constructor|].
  pose proof (H w) as Hw. destruct (ri 0%Z bins w) as [x w1]. destruct (IH w1) as [A B].
  destruct (random_grid_vec ri bins n w1) as [r w2]. simpl in *. split; [lia|constructor; eauto].
Qed.

Lemma seq_points_forall (Q : vec -> Prop) i l : seq_points (fun _ => Q) i l -> Forall Q l.
Proof. induction 1; constructor; auto. Qed.
