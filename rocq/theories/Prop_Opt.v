(** Properties C13-C19: inner optimizers and the parallel maximum. *)
From Coq Require Import ZArith List Bool Lia Reals Lra.
From Coq Require Import Floats.SpecFloat.
From Verif Require Import F64 F64R OptModel OptSpec OptFacts InitModel OptFloat AdamFloat InitFacts.
Import ListNotations.
Open Scope nat_scope.

(** * C13 *)

(** Rprop: when the start has no NaN coordinate (infinities allowed), every evaluated point and
    the result are in the unit box, whatever the objective and its gradient return (NaN and
    infinities included). *)
Theorem C13_rprop_in_box :
  forall f norm eps_stop iterations init p tr,
    Forall fvalid init -> Forall notnan init ->
    rprop f norm eps_stop true iterations init = Some (p, tr) ->
    in_box p /\ Forall (fun e => in_box (fst e)) tr.
Proof. exact rprop_in_box. Qed.
Print Assumptions C13_rprop_in_box.

(** all three optimizers, without any hypothesis: coordinates are in [0,1] or NaN *)
Theorem C13_rprop_box_or_nan :
  forall f norm eps_stop iterations init p tr,
    rprop f norm eps_stop true iterations init = Some (p, tr) ->
    in_box_or_nan p /\ Forall (fun e => in_box_or_nan (fst e)) tr.
Proof. exact rprop_box. Qed.
Print Assumptions C13_rprop_box_or_nan.

Theorem C13_adam_box_or_nan :
  forall f norm b1 b2 alpha stop iterations init p tr,
    adam f norm b1 b2 alpha stop true iterations init = Some (p, tr) ->
    in_box_or_nan p /\ Forall (fun e => in_box_or_nan (fst e)) tr.
Proof. exact adam_box. Qed.
Print Assumptions C13_adam_box_or_nan.

Theorem C13_gradient_ascent_box_or_nan :
  forall f norm gamma alpha stop nesterov iterations init p tr,
    gradient_ascent f norm gamma alpha stop nesterov true iterations init = Some (p, tr) ->
    in_box_or_nan p /\ Forall (fun e => in_box_or_nan (fst e)) tr.
Proof. exact ga_box. Qed.
Print Assumptions C13_gradient_ascent_box_or_nan.

(** Adam and GradientAscent: no NaN either when the rates are in [0,1) (as the code asserts), the learning rate is a number
    of size at most 2^400, and every gradient taken in the box has components of size at most 2^400.  Any number of
    iterations. *)
Theorem C13_adam_in_box :
  forall f norm b1 b2 alpha stop iterations init p tr,
    rate b1 -> rate b2 -> bnd 400 alpha -> bounded_grad f ->
    Forall fvalid init -> Forall notnan init ->
    adam f norm b1 b2 alpha stop true iterations init = Some (p, tr) ->
    in_box p /\ Forall (fun e => in_box (fst e)) tr.
Proof.
  intros f norm b1 b2 alpha stop iterations init p tr R1 R2 Ha Hf V N E. destruct (adam_good f norm b1 b2 alpha stop R1 R2 Ha Hf _ _ _ _ V N E) as [[A _] B].
  split; [now apply good_point_box|exact B].
Qed.
Theorem C13_gradient_ascent_in_box :
  forall f norm gamma alpha stop nesterov iterations init p tr,
    rate gamma -> bnd 400 alpha -> bounded_grad f ->
    Forall fvalid init -> Forall notnan init ->
    gradient_ascent f norm gamma alpha stop nesterov true iterations init = Some (p, tr) ->
    in_box p /\ Forall (fun e => in_box (fst e)) tr.
Proof.
  intros f norm gamma alpha stop nesterov iterations init p tr R1 Ha Hf V N E. destruct (ga_good f norm gamma alpha stop nesterov R1 Ha Hf _ _ _ _ V N E) as [[A _] B].
  split; [now apply good_point_box|exact B].
Qed.
(** the bounded optimizers replace a coordinate by the nearest number of [0,1]; infinities go to the
    end they are on *)
Theorem C13_clamp_nearest : forall v i x, nth_error v i = Some x -> fvalid x -> notnan x ->
  exists y, nth_error (clamp true v) i = Some y /\ ffin y /\ (0 <= fval y <= 1)%R /\
    (ffin x -> forall t, (0 <= t <= 1)%R -> (Rabs (fval y - fval x) <= Rabs (t - fval x))%R) /\
    (x = finf -> fval y = 1%R) /\ (x = fopp finf -> fval y = 0%R).
Proof.
  intros v i x Hx V N. exists (clamp1 x). split; [cbn; now apply map_nth_error|].
  destruct f0_ok as (V0 & F0 & E0), f1_ok as (V1 & F1 & E1).
  destruct (in_unit_fin (clamp1 x)) as (Fy & By); [now apply clamp1_valid|now apply clamp1_unit|]. split; auto. split; auto.
  split; [|split; intros ->; vm_compute; lra].
  intros Fx t Ht. unfold clamp1 in *. destruct (flt x f0) eqn:L0.
  - apply flt_R in L0; auto. destruct (flt f1 f0) eqn:L1; [apply flt_R in L1; auto; lra|].
    rewrite E0 in *. rewrite !Rabs_pos_eq by lra. lra.
  - apply flt_R_false in L0; auto. destruct (flt f1 x) eqn:L1.
    + apply flt_R in L1; auto. rewrite E1 in *. rewrite !Rabs_left1 by lra. lra.
    + replace (fval x - fval x)%R with 0%R by ring. rewrite Rabs_R0. apply Rabs_pos.
Qed.
Example C13_clamp_example : clamp true [fofZ (-3); fdiv f1 (fofZ 2); fofZ 7; finf] = [f0; fdiv f1 (fofZ 2); f1; f1].
Proof. vm_compute. reflexivity. Qed.
(** the hypotheses can be met: gradient 2^50 everywhere, default rates; and a run *)
Example C13_bounded_nonvacuous : let f := fun (_ : nat) (x : vec) => (f0, Some (map (fun _ => fofZ (2 ^ 50)) x)) in let b := fdiv (fofZ 9) (fofZ 10) in
  rate b /\ bnd 400 b /\ bounded_grad f /\ exists p tr, adam f (fun _ => f0) b b b f0 true 5 [finf; f0] = Some (p, tr).
Proof.
  cbv zeta. set (b := fdiv (fofZ 9) (fofZ 10)). assert (Vb : fvalid b) by (apply fdiv_valid; apply fofZ_valid). destruct f0_ok as (V0 & F0 & E0). destruct f1_ok as (V1 & F1 & E1).
  assert (R : rate b).
  { assert (H1 : flt b f1 = true) by (vm_compute; reflexivity). assert (H2 : fle f0 b = true) by (vm_compute; reflexivity).
    assert (H3 : ffin b) by (vm_compute; reflexivity). split; [exact Vb|]. split; [exact H3|]. apply flt_R in H1; auto. apply fle_R in H2; auto. lra. }
  split; [exact R|]. split; [|split].
  - destruct R as (_ & Fb & B). apply (bnd_le 0); [lia|]. split; [exact Vb|]. split; [exact Fb|]. change (Raux.bpow Zaux.radix2 0) with 1%R. rewrite Rabs_pos_eq; lra.
  - destruct (fofZ_correct (2 ^ 50)) as [A B]; [vm_compute; discriminate|]. pose proof (fofZ_valid (2 ^ 50)) as V. generalize dependent (fofZ (2 ^ 50)). intros c A B V.
    intros i x lik g _ E. injection E as _ <-. apply Forall_map, Forall_forall. intros y _. split; [exact V|]. split; [exact A|]. rewrite B.
    change (IZR (2 ^ 50)) with (Raux.bpow Zaux.radix2 50). rewrite Rabs_pos_eq by apply Raux.bpow_ge_0. apply Raux.bpow_le. lia.
  - do 2 eexists. vm_compute. reflexivity.
Qed.

(** * C14 *)

(** Rprop returns the first best point it evaluated (NaN values ignored), or the clamped start
    when no evaluation exceeded -inf. *)
Theorem C14_rprop_returns_best :
  forall f norm eps_stop b iterations init p tr,
    rprop f norm eps_stop b iterations init = Some (p, tr) ->
    (exists v, flt fninf v = true /\ first_best tr p v)
    \/ (p = clamp b init /\ Forall (fun e => flt fninf (snd e) = false) tr).
Proof. exact rprop_best. Qed.
Print Assumptions C14_rprop_returns_best.

(** what is recorded: at most [iterations] evaluations, the i-th one is the i-th call of the
    objective, the first one at the clamped start *)
Theorem C14_rprop_evaluations :
  forall f norm eps_stop b iterations init p tr,
    rprop f norm eps_stop b iterations init = Some (p, tr) ->
    (length tr <= Z.to_nat iterations) /\
    (forall i x v, nth_error tr i = Some (x, v) -> fst (f i x) = v /\ length x = length init) /\
    ((0 < iterations)%Z -> exists v, nth_error tr 0 = Some (clamp b init, v)).
Proof. exact rprop_trace. Qed.
Print Assumptions C14_rprop_evaluations.

(** for a deterministic objective: the result is never worse than the (clamped) start *)
Theorem C14_rprop_never_worse_than_start :
  forall (g : vec -> F * option vec) norm eps_stop b iterations init p tr,
    (0 < iterations)%Z ->
    rprop (fun _ => g) norm eps_stop b iterations init = Some (p, tr) ->
    flt (fst (g p)) (fst (g (clamp b init))) = false.
Proof.
  intros g norm eps b it init p tr Hit E.
  destruct (rprop_trace _ _ _ _ _ _ _ _ E) as (_ & T & S).
  destruct (S Hit) as (v0 & H0). destruct (T _ _ _ H0) as [E0 _].
  destruct (rprop_best _ _ _ _ _ _ _ _ E) as [(v & _ & l1 & l2 & Et & Nv & A & _)|(-> & _)];
    [|apply flt_irrefl].
  assert (Ev : fst (g p) = v).
  { assert (Hn : nth_error tr (length l1) = Some (p, v))
      by (rewrite Et, nth_error_app2, Nat.sub_diag by lia; reflexivity).
    exact (proj1 (T _ _ _ Hn)). }
  rewrite Ev, E0. rewrite Forall_forall in A. apply (A (clamp b init, v0)).
  eapply nth_error_In; eauto.
Qed.
Print Assumptions C14_rprop_never_worse_than_start.

(** non-vacuity of C13/C14: maximise -(x-1/4)^2 - (y-1)^2 ... from outside the box *)
Definition ex_obj (i : nat) (x : vec) : F * option vec :=
  let q := fdiv f1 (fofZ 4) in
  match x with
  | [a; b] => let da := fsub q a in let db := fsub (fofZ 3) b in
              (fopp (fadd (fmul da da) (fmul db db)), Some [fmul (fofZ 2) da; fmul (fofZ 2) db])
  | _ => (fnan, None)
  end.
Definition ex_rprop := rprop ex_obj (fun _ => f1) f0 true 12 [fofZ (-3); finf].
Definition unitb (p : vec) : bool := forallb (fun x => fle f0 x && fle x f1) p.
Example C13_example :
  Forall fvalid [fofZ (-3); finf] /\ Forall notnan [fofZ (-3); finf] /\
  (match ex_rprop with
   | Some (p, tr) => unitb p && (length tr =? 12) && negb (feq (nth 1 p f0) (nth 0 p f0))
                     && negb (feq (nth 0 p f0) f0)
   | None => false end) = true.
Proof.
  split; [repeat constructor|]. split; [repeat constructor; vm_compute; discriminate|].
  vm_compute. reflexivity.
Qed.
Example C13_adam_example :
  (match adam ex_obj (fun _ => f1) (fofZ 0) (fofZ 0) (fofZ 1) f0 true 3 [fofZ (-3); finf] with
   | Some (p, tr) => unitb p && (length tr =? 3) | None => false end) = true.
Proof. vm_compute. reflexivity. Qed.
Example C13_ga_example :
  (match gradient_ascent ex_obj (fun _ => f1) (fofZ 1) (fofZ 1) f0 true true 3 [fofZ (-3); finf] with
   | Some (p, tr) => unitb p && (length tr =? 3) | None => false end) = true.
Proof. vm_compute. reflexivity. Qed.

(** * C15 *)

(** when a vector comes back it is a best point of the explored grid *)
Theorem C15_grid_search_best :
  forall f xs dim p,
    grid_search f xs dim = GVec p ->
    on_grid xs dim p /\ flt f_lowest (f p) = true /\ forall q, on_grid xs dim q -> flt (f p) (f q) = false.
Proof. exact grid_search_best. Qed.
Print Assumptions C15_grid_search_best.

(** a vector comes back exactly when every line of the grid along the last dimension has an
    acceptable value *)
Theorem C15_grid_search_defined :
  forall f xs dim, 1 <= dim -> xs <> [] ->
    ((exists p, grid_search f xs dim = GVec p) <->
     (forall pre, S (length pre) = dim -> Forall (fun x => In x xs) pre ->
        exists x, In x xs /\ flt f_lowest (f (pre ++ [x])) = true)).
Proof.
  intros f xs dim Hd Hx. split.
  - intros (p & E). exact (grid_search_bad_line f xs dim p E).
  - intro G. exact (grid_search_total f xs dim Hd Hx G).
Qed.
Print Assumptions C15_grid_search_defined.

(** the full statement "the best point is returned as soon as one value is acceptable" is false:
    one line of NaN values is enough to evaluate the objective at an uninitialised vector *)
Theorem C15_some_good_value_suffices_refuted :
  exists f xs dim q, on_grid xs dim q /\ flt f_lowest (f q) = true /\ grid_search f xs dim = GUB.
Proof.
  exists (fun x => match x with [a; b] => if feq a f0 then fnan else f1 | _ => fnan end).
  exists [f0; f1], 2, [f1; f1]. split; [split; [reflexivity|repeat (apply Forall_cons; [right; left; reflexivity|]); apply Forall_nil]|].
  split; vm_compute; reflexivity.
Qed.
Print Assumptions C15_some_good_value_suffices_refuted.

Example C15_example :
  grid_search (fun x => match x with [a; b] => fsub (fmul a b) (fmul a a) | _ => fnan end)
    [f0; fdiv f1 (fofZ 2); f1] 2 = GVec [fdiv f1 (fofZ 2); f1].
Proof. vm_compute. reflexivity. Qed.

(** * C16 *)

(** bins = 10: the value 1.0999999999999999 is explored and returned, outside of [0,1] *)
Theorem C16_stays_in_box_refuted :
  exists bins f xs p, (1 <= bins <= 2 ^ 20)%Z /\ grid_search_xs 20 bins = Some xs /\
    grid_search f xs 1 = GVec p /\ ~ in_box p /\ length xs = Z.to_nat bins + 2.
Proof.
  exists 10%Z, (fun x => nth 0 x fnan), (match grid_search_xs 20 10 with Some l => l | None => [] end),
    [fofZe 4953959590107545 (-52)].
  split; [lia|]. split; [vm_compute; reflexivity|]. split; [vm_compute; reflexivity|].
  split; [|vm_compute; reflexivity].
  intro H. inversion H; subst. destruct H2 as [_ K]. vm_compute in K. discriminate.
Qed.
Print Assumptions C16_stays_in_box_refuted.

(** what holds of the full statement "bins+1 values per dimension, all in [0,1]":
    the number of values is bins+1 or bins+2, they are distinct, non-negative, below 1 + 1/bins
    (up to 2^-28), and the k-th value is k/bins up to 2^-28. *)
Theorem C16_grid_search_values_partial :
  forall bins fuel, (1 <= bins <= 2 ^ 20)%Z -> Z.to_nat bins + 2 < fuel ->
  exists xs, grid_search_xs fuel bins = Some xs /\
    (length xs = Z.to_nat bins + 1 \/ length xs = Z.to_nat bins + 2) /\ NoDup xs /\
    (forall k x, nth_error xs k = Some x ->
       ffin x /\ (Rabs (fval x - INR k / IZR bins) <= / 2 ^ 28)%R /\ (0 <= fval x < 1 + / IZR bins + / 2 ^ 28)%R).
Proof.
  intros n fuel Hn Hf. destruct (search_xs n Hn) as (c & Hc & E).
  eexists. split; [apply E; auto|]. rewrite map_length, seq_length. split; [lia|].
  split; [apply acc_nodup; auto; lia|].
  intros k x Hx. apply acc_nth in Hx. destruct Hx as [Hk ->].
  destruct (acc_val n Hn k) as (V & Fk & A & B); [lia|].
  pose proof (acc_close n k Hn ltac:(lia)) as C.
  split; auto. split; auto. split; auto.
  apply Raux.Rabs_le_inv in C.
  pose proof (k_over_n n Hn k 1 ltac:(lia)). unfold Rdiv in C.
  assert (P : (0 < / 2 ^ 28)%R) by (apply Rinv_0_lt_compat, pow_lt; lra).
  assert (N : (2 ^ 28 <> 0)%R) by (apply pow_nonzero; lra).
  assert (K : (fval (acc (fdiv f1 (fofZ n)) f0 k) <= 1 + / IZR n + / 2 ^ 28)%R) by lra.
  destruct (Rle_lt_or_eq_dec _ _ K) as [L|Q]; auto. exfalso.
  pose proof (err_small n Hn k ltac:(lia)). apply Raux.Rabs_le_inv in A.
  (* the accumulated error is strictly below 2^-28 *)
  assert (U : (INR k * (2 * u50) < / 2 ^ 28)%R).
  { rewrite u50_val. assert (Nk : (INR k <= IZR (2 ^ 20 + 2))%R) by (rewrite INR_IZR_INZ; apply IZR_le; lia).
    apply Rle_lt_trans with (IZR (2 ^ 20 + 2) * (2 * / IZR (2 ^ 50)))%R.
    - apply Rmult_le_compat_r; auto. apply Rmult_le_pos; [lra|]. left. apply Rinv_0_lt_compat, IZR_lt. lia.
    - apply Rmult_lt_reg_r with (IZR (2 ^ 50)); [apply IZR_lt; lia|].
      rewrite !Rmult_assoc, Rinv_l, Rmult_1_r by (apply IZR_neq; lia).
      apply Rmult_lt_reg_l with (2 ^ 28)%R; [apply pow_lt; lra|].
      rewrite <- (Rmult_assoc (2 ^ 28) (/ 2 ^ 28)), Rinv_r, Rmult_1_l by auto.
      rewrite pow_IZR, <- !mult_IZR. apply IZR_lt. reflexivity. }
  lra.
Qed.
Print Assumptions C16_grid_search_values_partial.

(** the candidates evaluated are grid points built from these values *)
Theorem C16_result_on_grid_partial :
  forall f bins fuel xs dim p, grid_search_xs fuel bins = Some xs -> grid_search f xs dim = GVec p ->
    length p = dim /\ Forall (fun x => In x xs) p.
Proof. intros f bins fuel xs dim p _ E. apply (grid_search_best f xs dim p E). Qed.
Print Assumptions C16_result_on_grid_partial.

Example C16_example : grid_search_xs 10 4 = Some [f0; fofZe 1 (-2); fofZe 1 (-1); fofZe 3 (-2); f1].
Proof. vm_compute. reflexivity. Qed.

(** * C17 *)
Theorem C17_par_max_best :
  forall (T : Type) (value : T -> F) (comp : T -> T -> bool) (g : nat -> T) (init : T) n r,
    (forall a b, comp a b = flt (value b) (value a)) -> notnan (value init) ->
    par_max_tbb comp g init n r ->
    (r = init \/ exists i, i < n /\ r = g i) /\ notnan (value r) /\
    flt (value r) (value init) = false /\ (forall i, i < n -> flt (value r) (value (g i)) = false).
Proof. intros T value comp g init n r Hc Hi. exact (par_max_best value comp Hc g init Hi n r). Qed.
Print Assumptions C17_par_max_best.

Theorem C17_schedule_independent :
  forall (T : Type) (value : T -> F) (comp : T -> T -> bool) (g : nat -> T) (init : T) n r r',
    (forall a b, comp a b = flt (value b) (value a)) -> notnan (value init) ->
    par_max_tbb comp g init n r -> par_max_tbb comp g init n r' -> feq (value r) (value r') = true.
Proof. intros T value comp g init n r r' Hc Hi. exact (par_max_same_value value comp Hc g init Hi n r r'). Qed.
Print Assumptions C17_schedule_independent.

(** the sequential version is one of the schedules *)
Theorem C17_sequential_agrees :
  forall (T : Type) (value : T -> F) (comp : T -> T -> bool) (g : nat -> T) (init : T) n r,
    (forall a b, comp a b = flt (value b) (value a)) -> notnan (value init) ->
    par_max_tbb comp g init n r -> feq (value r) (value (par_max_seq comp g init n)) = true.
Proof.
  intros T value comp g init n r Hc Hi R.
  exact (par_max_same_value value comp Hc g init Hi n r _ R (par_max_seq_tbb comp g init n)).
Qed.
Print Assumptions C17_sequential_agrees.

(** the argument itself may depend on the schedule: ties *)
Theorem C17_argument_schedule_independent_refuted :
  exists (g : nat -> nat * F) (init : nat * F) n r r',
    let comp a b := flt (snd b) (snd a) in
    par_max_tbb comp g init n r /\ par_max_tbb comp g init n r' /\ r <> r'.
Proof.
  exists (fun i => (S i, f1)), (0, f0), 2, (1, f1), (2, f1). cbv zeta. split; [|split; [|discriminate]].
  - exact (red_scan _ _ _ 0 2 _).
  - exact (red_split _ _ _ 0 1 1 _ _ _ (red_scan _ _ _ 0 1 _) (red_scan _ _ _ 1 1 _)).
Qed.
Print Assumptions C17_argument_schedule_independent_refuted.

(** * C18 *)
Theorem C18_repeater_best :
  forall f opt eps rnd init repeats r,
    repeater f opt eps rnd init repeats r ->
    let res i := opt i (repeater_start eps rnd init i) in
    (exists i, i < repeats /\ r = res i /\ flt f_float_lowest (f r) = true /\
       forall j, j < repeats -> flt (f r) (f (res j)) = false)
    \/ (r = init /\ forall j, j < repeats -> flt f_float_lowest (f (res j)) = false).
Proof. exact repeater_best. Qed.
Print Assumptions C18_repeater_best.

(** each start is, coordinate by coordinate, between round(init - eps) and round(init + eps) *)
Theorem C18_starts_within_epsilon :
  forall eps rnd init i,
    fvalid eps -> ffin eps -> (0 <= fval eps <= IZR (2 ^ 900))%R ->
    Forall (fun x => fvalid x /\ ffin x /\ (Rabs (fval x) <= IZR (2 ^ 900))%R) init ->
    length (rnd i) = length init -> Forall (fun r => fvalid r /\ in_unit r) (rnd i) ->
    Forall2 (fun x s => fle (fsub x eps) s = true /\ fle s (fadd x eps) = true) init (repeater_start eps rnd init i).
Proof.
  intros eps rnd init i Ve Fe Be Hi Hl Hr. unfold repeater_start.
  revert Hl Hr. generalize (rnd i) as l. induction Hi as [|x init (Vx & Fx & Bx) Hi IH]; intros [|r l] Hl Hr;
    simpl in Hl; try discriminate; cbn [map map2]; constructor.
  - inversion Hr; subst. destruct H1 as [Vr Ur].
    destruct (repeater_dev r eps Vr Ur Ve Fe Be) as (Vd & Fd & Bd).
    set (d := fsub _ _) in *.
    assert (B2 : (2 * IZR (2 ^ 900) <= Raux.bpow Zaux.radix2 1000)%R).
    { rewrite <- mult_IZR. change (2 * 2 ^ 900)%Z with (2 ^ 901)%Z.
      change (IZR (2 ^ 901)) with (Raux.bpow Zaux.radix2 901). apply Raux.bpow_le. lia. }
    apply Raux.Rabs_le_inv in Bx.
    assert (K : forall y, (- fval eps <= y <= fval eps)%R -> (Rabs (F64R.rnd (fval x + y)) < Raux.bpow Zaux.radix2 1024)%R).
    { intros y Hy. apply rnd_small. apply Rabs_le. lra. }
    destruct (fadd_correct x d) as [F1 E1]; auto.
    destruct (fadd_correct x eps) as [F2 E2]; auto; [apply K; lra|].
    destruct (fsub_correct x eps) as [F3 E3]; auto; [apply (K (- fval eps)%R); lra|].
    split; apply fle_R; auto using fadd_valid, fsub_valid; rewrite ?E1, ?E2, ?E3; apply rnd_le; lra.
  - inversion Hr; subst. apply IH; auto.
Qed.
Print Assumptions C18_starts_within_epsilon.

(** * C19 *)
Theorem C19_chained_composes :
  forall (o : vec -> vec) (os : list (vec -> vec)) (init : vec),
    exists xs, length xs = S (S (length os)) /\ nth_error xs 0 = Some init /\
      (forall i g x, nth_error (o :: os) i = Some g -> nth_error xs i = Some x -> nth_error xs (S i) = Some (g x)) /\
      nth_error xs (S (length os)) = Some (chained o os init).
Proof.
  intros o os. revert o. induction os as [|o' os IH]; intros o init.
  - exists [init; o init]. simpl. repeat split; auto.
    intros [|i] g x Hg Hx; simpl in *; [congruence|destruct i; discriminate].
  - destruct (IH o' (o init)) as (xs & L & H0 & St & Hl).
    exists (init :: xs). simpl in *. repeat split; auto.
    intros [|i] g x Hg Hx; simpl in *; [congruence|]. now apply St.
Qed.
Print Assumptions C19_chained_composes.

Lemma last_default {A} (a : A) l d d' : last (a :: l) d = last (a :: l) d'.
Proof. revert a. induction l as [|b l IH]; intro a; auto. exact (IH b). Qed.

Theorem C19_chained_bounded :
  forall (B : vec -> Prop) o os init,
    (forall x, B (last (o :: os) o x)) -> B (chained o os init).
Proof.
  intros B o os. revert o. induction os as [|o' os IH]; intros o init H.
  - apply H.
  - simpl chained. apply IH. intro x. replace (last (o' :: os) o') with (last (o :: o' :: os) o); auto.
    change (last (o :: o' :: os) o) with (last (o' :: os) o). apply last_default.
Qed.
Print Assumptions C19_chained_bounded.

Theorem C19_chained_never_worse :
  forall (f : vec -> F) o os init,
    (forall g x, In g (o :: os) -> notnan (f (g x)) /\ flt (f (g x)) (f x) = false) ->
    flt (f (chained o os init)) (f init) = false.
Proof.
  intros f o os. revert o. induction os as [|o' os IH]; intros o init H.
  - apply H. now left.
  - simpl chained. eapply nflt_trans; [apply (H o init); now left| |apply (H o init); now left].
    apply IH. intros g x Hg. apply H. now right.
Qed.
Print Assumptions C19_chained_never_worse.

Example C19_example :
  chained (map clamp1) [map (fadd f1); map clamp1] [fofZ (-3); fofZ 7] = [f1; f1].
Proof. vm_compute. reflexivity. Qed.
