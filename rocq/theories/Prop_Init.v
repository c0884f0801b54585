(** Properties C11 and C12: grid and random initialisation functions. *)
From Coq Require Import ZArith List Bool Lia Reals Lra.
From Coq Require Import Floats.SpecFloat.
From Verif Require Import F64 F64R OptModel OptSpec OptFacts InitModel OptFloat InitFacts BOModel BOSpec.
Import ListNotations.
Open Scope nat_scope.

(** * C11 *)

(** GridSampling lists every point of xs^dim, once if the values are distinct *)
Theorem C11_grid_points :
  forall xs dim pts, grid_sampling xs dim = Some pts ->
    (forall q, In q pts <-> on_grid xs dim q) /\ (NoDup xs -> NoDup pts) /\ length pts = length xs ^ dim.
Proof. exact grid_sampling_spec. Qed.
Print Assumptions C11_grid_points.

(** ... and inside the optimizer, a run of the initialisation that returns has called the
    objective on exactly these points, in this order; an exception stops after a prefix *)
Theorem C11_grid_points_evaluated :
  forall (W M E : Type) (sfun : W -> vec -> (vec + E) * W) (s : bo W M E) pts r,
    run_init (M := M) sfun (list_init_pt pts) (list_init_n pts) 0 s = r ->
    match r with
    | Ret s' => exists evs, trace s' = trace s ++ evs /\ all_evals evs /\ eval_points evs = pts
    | Throw s' _ => exists evs k, trace s' = trace s ++ evs /\ all_evals evs /\
                      eval_points evs = firstn (S k) pts /\ k < length pts
    | _ => False
    end.
Proof.
  intros W M E sfun s pts r Er.
  pose proof (run_init_points sfun (list_init_pt pts) (fun i x => x = nth i pts []) (fun i w => eq_refl)
                (list_init_n pts) 0 s r Er) as H.
  unfold list_init_n in H. destruct r as [s'|s' e|s'|]; auto; destruct H as (evs & A & B & C & D).
  - exists evs. split; [exact A|split; [exact B|]].
    apply (seq_points_list pts 0) in D; [|rewrite eval_points_all by auto; idtac; match goal with H : length evs = _ |- _ => rewrite H end; apply Nat.eq_le_incl, Nat.add_0_r].
    rewrite eval_points_all, C in D by auto. rewrite D. apply firstn_all.
  - exists evs, (length evs - 1). split; [exact A|split; [exact B|]].
    split; [|lia].
    apply (seq_points_list pts 0) in D; [|rewrite eval_points_all by auto; rewrite Nat.add_0_r; apply C].
    rewrite eval_points_all in D by auto. replace (S (length evs - 1)) with (length evs) by lia. exact D.
Qed.
Print Assumptions C11_grid_points_evaluated.

(** The full statement ("the values are 0, 1/bins, ..., 1": bins+1 of them) is false: with
    bins = 9 the accumulated value after 9 steps is above 1 and the last plane is lost. *)
Theorem C11_covers_the_upper_bound_refuted :
  exists bins xs, (1 <= bins <= 2 ^ 20)%Z /\ grid_sampling_xs 20 bins = Some xs /\
    length xs = Z.to_nat bins /\ Forall (fun x => flt x f1 = true) xs.
Proof.
  exists 9%Z, (match grid_sampling_xs 20 9 with Some l => l | None => [] end).
  split; [lia|]. split; [vm_compute; reflexivity|]. split; [vm_compute; reflexivity|].
  apply Forall_forall. apply forallb_forall. vm_compute. reflexivity.
Qed.
Print Assumptions C11_covers_the_upper_bound_refuted.

(** what holds: bins or bins+1 distinct values in [0,1], the k-th being k/bins up to 2^-28 *)
Theorem C11_grid_values_partial :
  forall bins fuel, (1 <= bins <= 2 ^ 20)%Z -> Z.to_nat bins + 1 < fuel ->
  exists xs, grid_sampling_xs fuel bins = Some xs /\
    (length xs = Z.to_nat bins \/ length xs = Z.to_nat bins + 1) /\ NoDup xs /\
    (forall k x, nth_error xs k = Some x ->
       in_unit x /\ ffin x /\ (Rabs (fval x - INR k / IZR bins) <= / 2 ^ 28)%R).
Proof.
  intros n fuel Hn Hf. destruct (sampling_xs n Hn) as (c & Hc & E).
  eexists. split; [apply E; auto|]. rewrite map_length, seq_length. split; [lia|].
  split; [apply acc_nodup; auto; lia|].
  intros k x Hx.
  assert (U : fle x f1 = true).
  { apply nth_error_In in Hx. specialize (E fuel Hf). unfold grid_sampling_xs in E. clear - E Hx.
    assert (K : forall fuel x0 s lim l, steps_le fuel x0 s lim = Some l -> forall x, In x l -> fle x lim = true).
    { clear. induction fuel as [|fuel IH]; intros x0 s lim l H x I; simpl in H; [discriminate|].
      destruct (fle x0 lim) eqn:Ex; [|injection H; intros; subst; destruct I].
      destruct (steps_le fuel (fadd x0 s) s lim) as [l'|] eqn:El; [|discriminate].
      injection H; intros; subst. destruct I as [<-|I]; eauto. }
    exact (K _ _ _ _ _ E x Hx). }
  apply acc_nth in Hx. destruct Hx as [Hk ->].
  destruct (acc_val n Hn k) as (V & Fk & A & B); [lia|].
  split; [|split; [auto|apply acc_close; auto; lia]].
  split; auto. destruct f0_ok as (a & b & e). apply fle_R; auto.
Qed.
Print Assumptions C11_grid_values_partial.

Example C11_example : grid_sampling_xs 10 2 = Some [f0; fofZe 1 (-1); f1] /\
  option_map (length (A := vec)) (grid_sampling [f0; fofZe 1 (-1); f1] 3) = Some 27.
Proof. split; vm_compute; reflexivity. Qed.

(** * C12 *)
Theorem C12_random_sampling :
  forall (W M E : Type) (sfun : W -> vec -> (vec + E) * W) (rand_double : W -> F * W)
         (samples : Z) (dim : nat) (s : bo W M E) r,
    (forall w, in_unit (fst (rand_double w))) ->
    run_init (M := M) sfun (random_sampling_pt rand_double dim) (random_sampling_n samples) 0 s = r ->
    match r with
    | Ret s' => exists evs, trace s' = trace s ++ evs /\ all_evals evs /\
                  length (eval_points evs) = Z.to_nat samples /\
                  Forall (fun x => length x = dim /\ in_box x) (eval_points evs)
    | Throw s' _ => exists evs, trace s' = trace s ++ evs /\ all_evals evs /\
                  1 <= length (eval_points evs) <= Z.to_nat samples /\
                  Forall (fun x => length x = dim /\ in_box x) (eval_points evs)
    | _ => False
    end.
Proof.
  intros W M E sfun rd n dim s r Hr Er.
  pose proof (run_init_points sfun (random_sampling_pt rd dim) (fun _ x => length x = dim /\ in_box x)
                (fun i w => random_vec_spec rd in_unit Hr dim w) _ 0 s r Er) as H.
  destruct r as [s'|s' e|s'|]; auto; destruct H as (evs & A & B & C & D); exists evs;
    rewrite eval_points_all by auto;
    (split; [exact A|split; [exact B|split; [exact C|]]]); eapply seq_points_forall; eauto.
Qed.
Print Assumptions C12_random_sampling.

Theorem C12_random_sampling_grid :
  forall (W M E : Type) (sfun : W -> vec -> (vec + E) * W) (rand_int : Z -> Z -> W -> Z * W)
         (bins samples : Z) (dim : nat) (s : bo W M E) r,
    (1 <= bins <= 2 ^ 53)%Z ->
    (forall a b w, (a <= b -> a <= fst (rand_int a b w) <= b)%Z) ->
    run_init (M := M) sfun (random_sampling_grid_pt rand_int bins dim) (random_sampling_grid_n samples) 0 s = r ->
    let on_lattice x := exists j, (0 <= j <= bins)%Z /\ ffin x /\ fval x = F64R.rnd (IZR j / IZR bins) /\ in_unit x in
    match r with
    | Ret s' => exists evs, trace s' = trace s ++ evs /\ all_evals evs /\
                  length (eval_points evs) = Z.to_nat samples /\
                  Forall (fun x => length x = dim /\ Forall on_lattice x) (eval_points evs)
    | Throw s' _ => exists evs, trace s' = trace s ++ evs /\ all_evals evs /\
                  1 <= length (eval_points evs) <= Z.to_nat samples /\
                  Forall (fun x => length x = dim /\ Forall on_lattice x) (eval_points evs)
    | _ => False
    end.
Proof.
  intros W M E sfun ri bins n dim s r Hb Hr Er on_lattice.
  assert (HP : forall (i : nat) w, length (fst (random_sampling_grid_pt ri bins dim i w)) = dim /\
                         Forall on_lattice (fst (random_sampling_grid_pt ri bins dim i w))).
  { intros i w. destruct (random_grid_vec_spec ri bins (fun w => Hr 0%Z bins w ltac:(lia)) dim w) as [A B].
    split; auto. eapply Forall_impl; [|exact B]. intros x (j & Hj & ->). exists j. split; auto.
    destruct (ratio_unit j bins Hj Hb) as [U V].
    destruct (in_unit_fin (fdiv (fofZ j) (fofZ bins))) as [Fi _]; auto.
    apply fdiv_valid; apply fofZ_valid. }
  pose proof (run_init_points sfun (random_sampling_grid_pt ri bins dim) (fun _ x => length x = dim /\ Forall on_lattice x)
                HP _ 0 s r Er) as H.
  destruct r as [s'|s' e|s'|]; auto; destruct H as (evs & A & B & C & D); exists evs;
    rewrite eval_points_all by auto;
    (split; [exact A|split; [exact B|split; [exact C|]]]); eapply seq_points_forall; eauto.
Qed.
Print Assumptions C12_random_sampling_grid.

(** both ends of the lattice, 0 and 1, can be drawn: bins+1 values per dimension *)
Example C12_example :
  fst (random_sampling_grid_pt (fun a b w => (w, b)) 5 2 0 0%Z) = [f0; f1].
Proof. vm_compute. reflexivity. Qed.

(** ** The coordinates are successive draws of the generator.
    [tape w] is the sequence of numbers the generator is about to produce; the objective does not
    touch the generator. *)
Section Draws.
  Context {W M E D : Type}.
  Variable sfun : W -> vec -> (vec + E) * W.
  Variable pt : nat -> W -> vec * W.
  Variable dim : nat.
  Variable tape : W -> list D.
  Variable coord : D -> F.
  Hypothesis Hf : forall w x, tape (snd (sfun w x)) = tape w.
  Hypothesis Hp : forall i w l t, tape w = l ++ t -> length l = dim -> fst (pt i w) = map coord l /\ tape (snd (pt i w)) = t.

  Lemma run_draws k : forall i (s : bo W M E) l t, tape (world s) = l ++ t -> length l = k * dim ->
    match run_init (M := M) sfun pt k i s with
    | Ret s' => exists evs, trace s' = trace s ++ evs /\ concat (eval_points evs) = map coord l /\ tape (world s') = t
    | Throw s' _ => exists evs l1 l2, trace s' = trace s ++ evs /\ l = l1 ++ l2 /\ concat (eval_points evs) = map coord l1 /\ tape (world s') = l2 ++ t
    | _ => True
    end.
  Proof.
    induction k as [|k IH]; intros i s l t Ht Hl; cbn [BOModel.run_init].
    - destruct l; [|discriminate]. exists []. rewrite app_nil_r. auto.
    - simpl in Hl. rewrite <- (firstn_skipn dim l) in Ht. rewrite <- app_assoc in Ht.
      assert (L1 : length (firstn dim l) = dim) by (rewrite firstn_length; lia).
      assert (L2 : length (skipn dim l) = k * dim) by (rewrite skipn_length; lia).
      destruct (Hp i _ _ _ Ht L1) as [H1 H2]. destruct (pt i (world s)) as [x w]. cbn [fst snd] in H1, H2.
      destruct (BOFacts.eval_and_add_spec (M := M) sfun (set_world s w) x) as (r & w' & Hs & Hc). cbv zeta in Hc.
      assert (Hw : tape w' = skipn dim l ++ t).
      { pose proof (Hf (world (set_world s w)) x) as H. rewrite Hs in H. cbn [snd] in H. rewrite H. destruct s. exact H2. }
      destruct Hc as [(v & -> & Hfin & ->)|(Hb & ->)].
      + set (s1 := push _ _ _).
        assert (T1 : trace s1 = trace s ++ [EvEval x (inl v)]) by (destruct s; reflexivity).
        assert (W1 : world s1 = w') by (destruct s; reflexivity).
        specialize (IH (S i) s1 (skipn dim l) t). rewrite W1 in IH. specialize (IH Hw L2).
        destruct (run_init sfun pt k (S i) s1) as [s'|s' e|s'|]; auto.
        * destruct IH as (evs & A & B & C). exists (EvEval x (inl v) :: evs). rewrite A, T1, <- app_assoc.
          split; [reflexivity|]. split; [|exact C]. cbn [eval_points concat]. rewrite B, H1, <- map_app, firstn_skipn. reflexivity.
        * destruct IH as (evs & l1 & l2 & A & B & C & T). exists (EvEval x (inl v) :: evs), (firstn dim l ++ l1), l2. rewrite A, T1, <- app_assoc.
          split; [reflexivity|]. split; [rewrite <- app_assoc, <- B, firstn_skipn; reflexivity|]. split; [|exact T].
          cbn [eval_points concat]. now rewrite C, H1, map_app.
      + exists [EvEval x r], (firstn dim l), (skipn dim l). split; [destruct s; reflexivity|]. rewrite firstn_skipn.
        split; [reflexivity|]. split; [cbn; now rewrite app_nil_r|]. destruct s; exact Hw.
  Qed.
End Draws.

Theorem C12_random_sampling_draws :
  forall (W M E : Type) (sfun : W -> vec -> (vec + E) * W) (rand_double : W -> F * W) (tape : W -> list F)
         (samples : Z) (dim : nat) (s : bo W M E) l t,
    (forall w x, tape (snd (sfun w x)) = tape w) ->
    (forall w x t, tape w = x :: t -> fst (rand_double w) = x /\ tape (snd (rand_double w)) = t) ->
    tape (world s) = l ++ t -> length l = Z.to_nat samples * dim ->
    match run_init (M := M) sfun (random_sampling_pt rand_double dim) (random_sampling_n samples) 0 s with
    | Ret s' => exists evs, trace s' = trace s ++ evs /\ concat (eval_points evs) = l /\ tape (world s') = t
    | Throw s' _ => exists evs l1 l2, trace s' = trace s ++ evs /\ l = l1 ++ l2 /\ concat (eval_points evs) = l1 /\ tape (world s') = l2 ++ t
    | _ => True
    end.
Proof.
  intros W M E sfun rd tape n dim s l t Hf Hd Ht Hl.
  assert (Hp : forall (i : nat) w l t, tape w = l ++ t -> length l = dim -> fst (random_sampling_pt rd dim i w) = map (fun x => x) l /\ tape (snd (random_sampling_pt rd dim i w)) = t).
  { intros i w l0 t0. unfold random_sampling_pt. clear -Hd. revert l0 w. induction dim as [|k IH]; intros l0 w H Hl.
    - destruct l0; [|discriminate]. auto.
    - destruct l0 as [|x l0]; [discriminate|]. destruct (Hd w x _ H) as [E1 E2]. cbn [random_vec]. destruct (rd w) as [x' w1]. cbn [fst snd] in E1, E2. subst x'.
      destruct (IH l0 w1 E2 ltac:(simpl in Hl; lia)) as [E3 E4]. destruct (random_vec rd k w1) as [r w2]. cbn [fst snd map] in *. now subst r. }
  pose proof (run_draws (M := M) sfun _ dim tape (fun x => x) Hf Hp (Z.to_nat n) 0 s l t Ht Hl) as R.
  rewrite map_id in R. unfold random_sampling_n. destruct (run_init sfun _ _ 0 s) as [s'|s' e|s'|]; auto.
  destruct R as (evs & l1 & l2 & A & B & C & T). rewrite map_id in C. exists evs, l1, l2. auto.
Qed.
Print Assumptions C12_random_sampling_draws.

Theorem C12_random_grid_draws :
  forall (W M E : Type) (sfun : W -> vec -> (vec + E) * W) (rand_int : Z -> Z -> W -> Z * W) (tape : W -> list Z)
         (bins samples : Z) (dim : nat) (s : bo W M E) l t,
    (forall w x, tape (snd (sfun w x)) = tape w) ->
    (forall w j t, tape w = j :: t -> fst (rand_int 0%Z bins w) = j /\ tape (snd (rand_int 0%Z bins w)) = t) ->
    tape (world s) = l ++ t -> length l = Z.to_nat samples * dim ->
    let coord j := fdiv (fofZ j) (fofZ bins) in
    match run_init (M := M) sfun (random_sampling_grid_pt rand_int bins dim) (random_sampling_grid_n samples) 0 s with
    | Ret s' => exists evs, trace s' = trace s ++ evs /\ concat (eval_points evs) = map coord l /\ tape (world s') = t
    | Throw s' _ => exists evs l1 l2, trace s' = trace s ++ evs /\ l = l1 ++ l2 /\ concat (eval_points evs) = map coord l1 /\ tape (world s') = l2 ++ t
    | _ => True
    end.
Proof.
  intros W M E sfun ri tape bins n dim s l t Hf Hd Ht Hl coord.
  assert (Hp : forall (i : nat) w l t, tape w = l ++ t -> length l = dim -> fst (random_sampling_grid_pt ri bins dim i w) = map coord l /\ tape (snd (random_sampling_grid_pt ri bins dim i w)) = t).
  { intros i w l0 t0. unfold random_sampling_grid_pt. clear -Hd. revert l0 w. induction dim as [|k IH]; intros l0 w H Hl.
    - destruct l0; [|discriminate]. auto.
    - destruct l0 as [|x l0]; [discriminate|]. destruct (Hd w x _ H) as [E1 E2]. cbn [random_grid_vec]. destruct (ri 0%Z bins w) as [x' w1]. cbn [fst snd] in E1, E2. subst x'.
      destruct (IH l0 w1 E2 ltac:(simpl in Hl; lia)) as [E3 E4]. destruct (random_grid_vec ri bins k w1) as [r w2]. cbn [fst snd map] in *. now subst r. }
  exact (run_draws (M := M) sfun _ dim tape coord Hf Hp (Z.to_nat n) 0 s l t Ht Hl).
Qed.
Print Assumptions C12_random_grid_draws.

(** the hypotheses hold for a generator that is a list of numbers *)
Definition list_draw (a b : Z) (w : list Z) : Z * list Z := match w with j :: t => (j, t) | [] => (0%Z, []) end.
Definition same_point (w : list Z) (x : vec) : (vec + unit) * list Z := (inl x, w).
Example C12_draws_example :
  and (forall w x, snd (same_point w x) = w)
 (and (forall w j t, w = j :: t -> and (fst (list_draw 0%Z 4%Z w) = j) (snd (list_draw 0%Z 4%Z w) = t))
  match run_init (M := unit) same_point (random_sampling_grid_pt list_draw 4 2) (random_sampling_grid_n 2) 0
          (mkBo None 0%Z [] [] tt [1; 2; 3; 0; 5]%Z []) with
  | Ret s' => and (length (eval_points (trace s')) = 2) (world s' = [5%Z])
  | _ => False
  end).
Proof. split; [reflexivity|]. split; [intros w j t ->; auto|]. vm_compute. auto. Qed.
