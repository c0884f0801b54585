(** Model of IMGPO (/repo/src/limbo/experimental/bayes_opt/imgpo.hpp).
    Boxes and points have real coordinates (rounding of the thirds is not modelled), values are doubles.
    The parallel vectors of a TreeNode are one list of cells.  [h_upper] is a parameter (1000 in the
    code).  The exploration factor XI (a multiple of 1/2) is stored as 2*XI.  Exceptions end the run.
    The statistics [rho_*], [split_n], [xi_max], which are never read, are left out. *)
From Coq Require Import Reals List Bool ZArith Arith.
From Coq Require Import Floats.SpecFloat.
From Verif Require Import F64 BOModel.
Import ListNotations.
Local Open Scope nat_scope.

Notation point := (list R).
(** imgpo.hpp:72-75, one index of the vectors *)
Record cell := mkCell { c_min : point; c_max : point; c_x : point; c_f : vec; c_leaf : bool; c_samp : bool }.
Notation level := (list cell).

Definition coord (p : point) (i : nat) : R := nth i p 0%R.
Definition set_coord (p : point) (i : nat) (v : R) : point := firstn i p ++ v :: skipn (S i) p.

(** maxCoeff(&splitd, &tmp) of a column vector: the first largest coefficient *)
Fixpoint argmax_from (l : list R) (i best : nat) (m : R) : nat :=
  match l with [] => best | x :: r => if Rlt_dec m x then argmax_from r (S i) i x else argmax_from r (S i) best m end.
Definition argmax (l : list R) : nat := match l with [] => 0 | x :: r => argmax_from r 1 0 x end.
(** imgpo.hpp:196-198 and 264-266 *)
Definition widths (mn mx : point) : list R := map (fun ab => (snd ab - fst ab)%R) (combine mn mx).
Definition split_dim (mn mx : point) : nat := argmax (widths mn mx).

(** imgpo.hpp:199-237 and 267-269, 303-306, 342-345, 353-356 *)
Definition left_pt (mn mx xx : point) (d : nat) : point := set_coord xx d ((5 * coord mn d + coord mx d) / 6)%R.
Definition right_pt (mn mx xx : point) (d : nat) : point := set_coord xx d ((coord mn d + 5 * coord mx d) / 6)%R.
Definition third (mn mx : point) (d : nat) : R := ((2 * coord mn d + coord mx d) / 3)%R.
Definition two_thirds (mn mx : point) (d : nat) : R := ((coord mn d + 2 * coord mx d) / 3)%R.

Inductive ires (T : Type) := Fine (t : T) | Bad | Thrown | OutOfFuel.
Arguments Fine {T}. Arguments Bad {T}. Arguments Thrown {T}. Arguments OutOfFuel {T}.
Definition ibind {A B} (o : ires A) (f : A -> ires B) : ires B :=
  match o with Fine a => f a | Bad => Bad | Thrown => Thrown | OutOfFuel => OutOfFuel end.

Section Imgpo.
Context {W : Type}.
Variable sfun : W -> point -> option vec * W.               (* None: an exception *)
Variable afun : vec -> F.
(** [_model.compute(samples, observations)] followed by the acquisition function with [M] at a point, by query *)
Variable acq : list point -> list vec -> nat -> point -> F.
Variable query : list point -> list vec -> point -> vec * F.
(** imgpo.hpp:283: [(sqrt(2 log(pi^2 M^2 / (12 * 0.05))) + 0.2) * sqrt(sigma)] *)
Variable spread : nat -> F -> F.
(** 1e-6 *)
Variable tiny : F.
(** StateFunction::dim_in(), [h_upper] *)
Variables (dim h_upper : nat).

Record st := mkSt {
  tree : list level; t_samples : list point; t_obs : list vec;
  t_cur : Z; t_tot : Z; t_w : W }.
(** local variables of optimize() *)
Record loc := mkLoc { depth : nat; bigM : nat; xi2 : Z; lb : F; lb_old : F }.
Variable stop : st -> bool.

Definition finf_neg : F := S754_infinity true.
Definition fabs (x : F) : F := match x with S754_zero _ => S754_zero false | S754_infinity _ => S754_infinity false | S754_finite _ m e => S754_finite false m e | S754_nan => S754_nan end.
Definition std_max (a b : F) : F := if flt a b then b else a.

(** bo_base.hpp:232-238 [add_new_sample] *)
Definition add_sample (s : st) (x : point) (v : vec) : ires st :=
  if is_nan_or_inf v then Thrown
  else Fine (mkSt (tree s) (t_samples s ++ [x]) (t_obs s ++ [v]) (t_cur s) (t_tot s) (t_w s)).
(** [sfun(x)], [add_new_sample], and the counters (e.g. imgpo.hpp:156-164) *)
Definition evaluate (s : st) (x : point) : ires (vec * st) :=
  let '(r, w) := sfun (t_w s) x in
  match r with
  | None => Thrown
  | Some v => ibind (add_sample (mkSt (tree s) (t_samples s) (t_obs s) (t_cur s) (t_tot s) w) x v) (fun s' =>
      Fine (v, mkSt (tree s') (t_samples s') (t_obs s') (t_cur s' + 1) (t_tot s' + 1) (t_w s')))
  end.

Definition set_tree (s : st) (t : list level) : st := mkSt t (t_samples s) (t_obs s) (t_cur s) (t_tot s) (t_w s).
Definition upd_cell (t : list level) (h i : nat) (f : cell -> cell) : list level :=
  match nth_error t h with
  | None => t
  | Some l => match nth_error l i with
              | None => t
              | Some c => firstn h t ++ (firstn i l ++ f c :: skipn (S i) l) :: skipn (S h) t
              end
  end.
Definition push_cells (t : list level) (h : nat) (cs : list cell) : list level :=
  match nth_error t h with None => t | Some l => firstn h t ++ (l ++ cs) :: skipn (S h) t end.
Definition mark_sampled (c : cell) : cell := mkCell (c_min c) (c_max c) (c_x c) (c_f c) (c_leaf c) true.
Definition close_leaf (c : cell) : cell := mkCell (c_min c) (c_max c) (c_x c) (c_f c) false (c_samp c).

(** ** Steps (i)-(ii), imgpo.hpp:139-148: best leaf of a level above the current bound *)
Fixpoint scan (l : level) (i : nat) (bmax : F) (im : option nat) (b : F) : F * option nat * F :=
  match l with
  | [] => (bmax, im, b)
  | c :: r =>
      if c_leaf c && flt bmax (afun (c_f c)) then scan r (S i) (afun (c_f c)) (Some i) (afun (c_f c))
      else scan r (S i) bmax im b
  end.
(** imgpo.hpp:138-166: the while loop of a level; the value observed is not stored in the tree *)
Fixpoint level_loop (fuel h : nat) (s : st) (bmax : F) (im : option nat) (b : F) : ires (st * F * option nat * F) :=
  match fuel with
  | O => OutOfFuel
  | S fuel =>
      match nth_error (tree s) h with
      | None => Bad
      | Some l =>
          let '(bmax', im', b') := scan l 0 bmax im b in
          match im' with
          | None => Fine (s, bmax', im', b')
          | Some i =>
              match nth_error l i with
              | None => Bad
              | Some c =>
                  if c_samp c then Fine (s, bmax', im', b')
                  else ibind (evaluate s (c_x c)) (fun vs =>
                         level_loop fuel h (set_tree (snd vs) (upd_cell (tree (snd vs)) h i mark_sampled)) bmax' im' b')
              end
          end
      end
  end.
(** imgpo.hpp:134-167; results: [i_max], [b_max] *)
Fixpoint levels_loop (n h : nat) (s : st) (bmax : F) : ires (st * list (option nat) * list F) :=
  match n with
  | O => Fine (s, [], [])
  | S n =>
      ibind (level_loop 2 h s bmax None finf_neg) (fun r =>
      let '(s1, bmax1, im, b) := r in
      ibind (levels_loop n (S h) s1 bmax1) (fun r2 =>
      let '(s2, ims, bs) := r2 in Fine (s2, im :: ims, b :: bs)))
  end.

(** ** Step (iii), imgpo.hpp:169-250 *)
(** imgpo.hpp:174-180: distance to the next level with a candidate among the next [n] *)
Fixpoint next_candidate (ims : list (option nat)) (n xi : nat) : option nat :=
  match n, ims with
  | S n, Some _ :: _ => Some xi
  | S n, None :: r => next_candidate r n (S xi)
  | _, _ => None
  end.
(** imgpo.hpp:190-241: the simulated splits.  Only the first cell of each level is looked at, since
    [tmp_tree[h]] has one point; that point is used at every level *)
Fixpoint simulate (s : st) (xi : nat) (xx mn mx : point) (m2 : nat) (z target : F) : F * nat :=
  match xi with
  | O => (z, m2)
  | S xi =>
      let d := split_dim mn mx in
      let z1 := std_max z (acq (t_samples s) (t_obs s) m2 (left_pt mn mx xx d)) in
      let z2 := std_max z1 (acq (t_samples s) (t_obs s) (S m2) (right_pt mn mx xx d)) in
      if fle target z2 then (z2, S (S m2))
      else simulate s xi xx mn (set_coord mx d (third mn mx d)) (S (S m2)) z2 target
  end.
(** [ims], [bs]: candidates from level [h] on; result: the candidates kept, and [M] *)
Fixpoint prune (ims : list (option nat)) (bs : list F) (h : nat) (s : st) (XI M : nat) : ires (list (option nat) * nat) :=
  match ims with
  | [] => Fine ([], M)
  | im :: r =>
      let continue im' M' := ibind (prune r (tl bs) (S h) s XI M') (fun p => Fine (im' :: fst p, snd p)) in
      match im with
      | None => continue None M
      | Some i =>
          match next_candidate r XI 1 with
          | None => continue (Some i) M
          | Some xi =>
              match nth_error (tree s) h with
              | None => Bad
              | Some l =>
                  match nth_error l i, nth_error bs xi with
                  | Some c, Some target =>
                      let '(z, m2) := simulate s xi (c_x c) (c_min c) (c_max c) M finf_neg target in
                      if flt z target then continue None m2 else continue (Some i) M
                  | _, _ => Bad
                  end
              end
          end
      end
  end.

(** ** Steps (iv)-(v), imgpo.hpp:252-366 *)
(** imgpo.hpp:273-301 and 312-340: value for a new point: the upper bound of the model, or the objective *)
Definition child_value (s : st) (x : point) (M : nat) (LB b2 : F) : ires (st * vec * bool * nat * F) :=
  let ucb := acq (t_samples s) (t_obs s) M x in
  if flt (fsub ucb LB) tiny then
    let '(mu, sigma) := query (t_samples s) (t_obs s) x in
    let var := spread M sigma in
    Fine (s, map (fun m => fadd m var) mu, false, S M, b2)
  else
    ibind (evaluate s x) (fun vs =>
    match fst vs with
    | [] => Bad
    | v0 :: _ => Fine (snd vs, fst vs, true, M, std_max b2 v0)
    end).

(** imgpo.hpp:383-390 [best_observation] with the default aggregator (bo_base.hpp FirstElem) *)
Definition first_elem0 (v : vec) : F := match v with [] => fnan | x :: _ => x end.
Definition best_obs (s : st) : option vec :=
  if existsb (fun v => length v =? 0) (t_obs s) then None   (* v(0) of an empty vector *)
  else nth_error (t_obs s) (max_element (map first_elem0 (t_obs s))).

(** imgpo.hpp:258-362: the split of cell [i] of level [h] *)
Definition split (s : st) (l : loc) (h i : nat) (b2 : F) : ires (st * loc * F) :=
  match nth_error (tree s) h with
  | None => Bad
  | Some lv =>
      match nth_error lv i with
      | None => Bad
      | Some c =>
          if negb (S h <? length (tree s)) then Bad else
          match c_x c with
          | [] => Bad     (* maxCoeff of an empty vector *)
          | _ =>
          let s0 := set_tree s (upd_cell (tree s) h i close_leaf) in
          let '(mn, mx, xx) := (c_min c, c_max c, c_x c) in
          let d := split_dim mn mx in
          let xg := left_pt mn mx xx d in
          let xd := right_pt mn mx xx d in
          ibind (child_value s0 xg (bigM l) (lb l) b2) (fun r =>
          let '(s1, fg, sg, M1, b21) := r in
          let s1 := set_tree s1 (push_cells (tree s1) (S h) [mkCell mn (set_coord mx d (third mn mx d)) xg fg true sg]) in
          ibind (child_value s1 xd M1 (lb l) b21) (fun r =>
          let '(s2, fd, sd, M2, b22) := r in
          let s2 := set_tree s2 (push_cells (tree s2) (S h)
            [mkCell (set_coord mn d (two_thirds mn mx d)) mx xd fd true sd;
             mkCell (set_coord mn d (third mn mx d)) (set_coord mx d (two_thirds mn mx d)) xx (c_f c) true true]) in
          match best_obs s2 with
          | None => Bad
          | Some v => Fine (s2, mkLoc (max (depth l) (S h)) M2 (xi2 l) (afun v) (lb_old l), b22)
          end))
          end
      end
  end.
Fixpoint splits (ims : list (option nat)) (bs : list F) (h : nat) (s : st) (l : loc) (b2 : F) : ires (st * loc) :=
  match ims, bs with
  | im :: r, b :: rb =>
      match im with
      | Some i =>
          if flt b2 b then ibind (split s l h i b2) (fun p => let '(s1, l1, b21) := p in splits r rb (S h) s1 l1 b21)
          else splits r rb (S h) s l b2
      | None => splits r rb (S h) s l b2
      end
  | _, _ => Fine (s, l)
  end.

(** imgpo.hpp:127-376: one iteration of the main loop *)
Definition iteration (s : st) (l : loc) : ires (st * loc) :=
  ibind (levels_loop (S (depth l)) 0 s finf_neg) (fun r =>
  let '(s1, ims, bs) := r in
  let XI := Nat.min (Z.to_nat ((xi2 l + 1) / 2)) 4 in
  ibind (prune ims bs 0 s1 XI (bigM l)) (fun p =>
  ibind (splits (fst p) bs 0 s1 (mkLoc (depth l) (snd p) (xi2 l) (lb l) (lb_old l)) finf_neg) (fun q =>
  let '(s2, l2) := q in
  let xi' := if flt (fabs (fsub (lb_old l2) (lb l2))) tiny then Z.max (xi2 l2 - 1) 2 else (xi2 l2 + 8)%Z in
  Fine (s2, mkLoc (depth l2) (bigM l2) xi' (lb l2) (lb l2))))).

Fixpoint main_loop (fuel : nat) (s : st) (l : loc) : ires (st * loc) :=
  if negb (length (t_samples s) =? 0) && stop s then Fine (s, l) else
  match fuel with O => OutOfFuel | S fuel => ibind (iteration s l) (fun r => main_loop fuel (fst r) (snd r)) end.

(** imgpo.hpp:93-377 and 404-408 [optimize], after [_init]; the final optimisation of hyper-parameters changes only the model *)
Definition optimize (fuel : nat) (s : st) : ires (st * loc) :=
  let t0 := if (t_tot s =? 0)%Z then repeat [] h_upper else tree s in
  match t0 with
  | [] => Bad
  | root :: rest =>
      let x := repeat (1 / 2)%R dim in
      (* sfun(_tree[0].x[0]); _tree[0].f[0] is that of the first cell *)
      let x0 := match root with [] => x | c :: _ => c_x c end in
      let '(r, w) := sfun (t_w s) x0 in
      match r with
      | None => Thrown
      | Some v =>
          let f0' := match root with [] => v | c :: _ => c_f c end in
          let t1 := (root ++ [mkCell (repeat 0%R dim) (repeat 1%R dim) x v true true]) :: rest in
          ibind (add_sample (mkSt t1 (t_samples s) (t_obs s) (t_cur s) (t_tot s) w) x0 f0') (fun s1 =>
          let LB := afun f0' in
          main_loop fuel (mkSt (tree s1) (t_samples s1) (t_obs s1) (t_cur s1 + 1) (t_tot s1 + 1) (t_w s1)) (mkLoc 0 1 2 LB LB))
      end
  end.
End Imgpo.
