(** Model of the inner optimizers of /repo/src/limbo/opt and of the parallel maximum of
    /repo/src/limbo/tools/parallel.hpp, in IEEE binary64 arithmetic.

    The objective [f] is an arbitrary function of the call number and of the point, so that
    noisy / stateful objectives are covered; it returns a value and possibly a gradient.
    [norm] (Eigen's [VectorXd::norm], whose summation order is unspecified) is an arbitrary
    function.  [None] stands for a failed assertion (gradient missing or of the wrong size). *)
From Coq Require Import ZArith List Bool.
From Coq Require Import Floats.SpecFloat.
From Verif Require Import F64.
Import ListNotations.
Open Scope Z_scope.

(** opt/rprop.hpp:99-106 (same text in adam.hpp:119-126 and gradient_ascent.hpp:115-122):
    [if (p < 0) p = 0; if (p > 1) p = 1;] *)
Definition clamp1 (x : F) : F :=
  let y := if flt x f0 then f0 else x in
  if flt f1 y then f1 else y.

Definition clamp (bounded : bool) (v : vec) : vec := if bounded then map clamp1 v else v.

(** component-wise operation on two vectors *)
Fixpoint map2 {A B C} (g : A -> B -> C) (u : list A) (v : list B) : list C :=
  match u, v with
  | x :: u', y :: v' => g x y :: map2 g u' v'
  | _, _ => []
  end.

(** [std::min(a, b)] = b < a ? b : a,  [std::max(a, b)] = a < b ? b : a *)
Definition fmin (a b : F) : F := if flt b a then b else a.
Definition fmax (a b : F) : F := if flt a b then b else a.

Section Gradient.
  (** objective: call number, point |-> value, optional gradient (opt/optimizer.hpp:58-109) *)
  Variable f : nat -> vec -> F * option vec.
  Variable norm : vec -> F.

  (** evaluated points with their values, in order *)
  Definition otrace : Type := list (vec * F).

  Section Rprop.
    Variable eps_stop : F.
    Variable bounded : bool.
    Definition delta0 : F := fdiv (fofZ 1) (fofZ 10).              (* 0.1 *)
    Definition deltamin : F := fdiv (fofZ 1) (fofZ 1000000).       (* 1e-6 *)
    Definition deltamax : F := fofZ 50.
    Definition etaminus : F := fdiv (fofZ 1) (fofZ 2).             (* 0.5 *)
    Definition etaplus : F := fdiv (fofZ 6) (fofZ 5).              (* 1.2 *)

    (** opt/rprop.hpp:121-135: update of one coordinate; [go] = grad_old(j)*grad(j) *)
    Definition rprop_coord (go g delta p : F) : F * F * F :=
      let '(delta', g') :=
        if flt f0 go then (fmin (fmul delta etaplus) deltamax, g)
        else if flt go f0 then (fmax (fmul delta etaminus) deltamin, f0)
        else (delta, g) in
      let p1 := fadd p (fmul (fofZ (- signum g')) delta') in
      let p2 := if bounded then clamp1 p1 else p1 in
      (delta', g', p2).

    (** the same for all coordinates: new deltas, new gradient, new parameters *)
    Fixpoint rprop_coords (gold g delta p : vec) : vec * vec * vec :=
      match gold, g, delta, p with
      | go :: gold', gj :: g', d :: delta', pj :: p' =>
          let '(d1, g1, p1) := rprop_coord (fmul go gj) gj d pj in
          let '(ds, gs, ps) := rprop_coords gold' g' delta' p' in
          (d1 :: ds, g1 :: gs, p1 :: ps)
      | _, _, _, _ => ([], [], [])
      end.

    (** opt/rprop.hpp:111-139: main loop; [k] remaining iterations, [i] current iteration *)
    Fixpoint rprop_loop (k i : nat) (gold delta p : vec) (best : F) (best_p : vec) (tr : otrace)
      : option (vec * otrace) :=
      match k with
      | O => Some (best_p, tr)
      | S k' =>
          match f i p with
          | (_, None) => None
          | (lik, Some g0) =>
              if negb (length g0 =? length gold)%nat then None else
              let tr' := tr ++ [(p, lik)] in
              let '(best', best_p') := if flt best lik then (lik, p) else (best, best_p) in
              let g := map fopp g0 in
              let '(delta', g', p') := rprop_coords gold g delta p in
              if flt (norm g') eps_stop then Some (best_p', tr')
              else rprop_loop k' (S i) g' delta' p' best' best_p' tr'
          end
      end.

    (** opt/rprop.hpp:84-143 *)
    Definition rprop (iterations : Z) (init : vec) : option (vec * otrace) :=
      let n := length init in
      let p := clamp bounded init in
      rprop_loop (Z.to_nat iterations) 0 (repeat f0 n) (repeat (fmul f1 delta0) n) p fninf p [].
  End Rprop.

  Section Adam.
    Variables b1 b2 alpha stop : F.
    Variable bounded : bool.
    Definition adam_eps : F := fdiv (fofZ 1) (fofZ 100000000).     (* 1e-8 *)

    (** opt/adam.hpp:128-151 *)
    Fixpoint adam_loop (k i : nat) (m v p : vec) (b1_t b2_t : F) (tr : otrace) : option (vec * otrace) :=
      match k with
      | O => Some (p, tr)
      | S k' =>
          match f i p with
          | (_, None) => None
          | (lik, Some g) =>
              if negb (length g =? length m)%nat then None else
              let tr' := tr ++ [(p, lik)] in
              let m' := map2 (fun mi gi => fadd (fmul b1 mi) (fmul (fsub f1 b1) gi)) m g in
              let v' := map2 (fun vi gi => fadd (fmul b2 vi) (fmul (fsub f1 b2) (fmul gi gi))) v g in
              let m_hat := map (fun mi => fdiv mi (fsub f1 b1_t)) m' in
              let v_hat := map (fun vi => fdiv vi (fsub f1 b2_t)) v' in
              let upd := map2 (fun mi vi => fdiv (fmul alpha mi) (fadd (fsqrt vi) adam_eps)) m_hat v_hat in
              let p' := clamp bounded (map2 fadd p upd) in
              if flt (norm (map2 fsub p p')) stop then Some (p', tr')
              else adam_loop k' (S i) m' v' p' (fmul b1_t b1) (fmul b2_t b2) tr'
          end
      end.

    (** opt/adam.hpp:96-155 *)
    Definition adam (iterations : Z) (init : vec) : option (vec * otrace) :=
      let n := length init in
      adam_loop (Z.to_nat iterations) 0 (repeat f0 n) (repeat f0 n) (clamp bounded init) b1 b2 [].
  End Adam.

  Section GradientAscent.
    Variables gamma alpha stop : F.
    Variable nesterov : bool.
    Variable bounded : bool.

    (** opt/gradient_ascent.hpp:124-156 *)
    Fixpoint ga_loop (k i : nat) (v p : vec) (tr : otrace) : option (vec * otrace) :=
      match k with
      | O => Some (p, tr)
      | S k' =>
          let q := if nesterov then clamp bounded (map2 (fun pi vi => fadd pi (fmul gamma vi)) p v) else p in
          match f i q with
          | (_, None) => None
          | (lik, Some g) =>
              if negb (length g =? length v)%nat then None else
              let tr' := tr ++ [(q, lik)] in
              let v' := map2 (fun vi gi => fadd (fmul gamma vi) (fmul alpha gi)) v g in
              let p' := clamp bounded (map2 fadd p v') in
              if flt (norm (map2 fsub p p')) stop then Some (p', tr')
              else ga_loop k' (S i) v' p' tr'
          end
      end.

    (** opt/gradient_ascent.hpp:96-158 *)
    Definition gradient_ascent (iterations : Z) (init : vec) : option (vec * otrace) :=
      ga_loop (Z.to_nat iterations) 0 (repeat f0 (length init)) (clamp bounded init) [].
  End GradientAscent.
End Gradient.

(** * Grid search: opt/grid_search.hpp *)

(** [-std::numeric_limits<double>::max()] = -(2^53-1)*2^971 *)
Definition f_lowest : F := S754_finite true 9007199254740991 971.

(** the values taken by the loop variable of [for (x = x0; x < lim; x += step)] (line 92);
    [None]: more than [fuel] values *)
Fixpoint steps_lt (fuel : nat) (x step lim : F) : option (list F) :=
  match fuel with
  | O => None
  | S k => if flt x lim
           then match steps_lt k (fadd x step) step lim with Some l => Some (x :: l) | None => None end
           else Some []
  end.

(** lines 88-92: step_size = 1.0/(double)bins, upper_lim = 1.0 + step_size *)
Definition grid_search_xs (fuel : nat) (bins : Z) : option (list F) :=
  let step := fdiv f1 (fofZ bins) in
  steps_lt fuel f0 step (fadd f1 step).

(** result of the search: a vector, the uninitialised [current_result] of line 91, or undefined
    behaviour (an uninitialised vector was passed to the objective) *)
Inductive gres : Type :=
| GVec : vec -> gres
| GUninit : gres
| GUB : gres.

(** replace component [n] *)
Fixpoint set_nth (n : nat) (x : F) (v : vec) : vec :=
  match n, v with
  | O, _ :: r => x :: r
  | S k, y :: r => y :: set_nth k x r
  | _, [] => []
  end.

Section Grid.
  Variable f : vec -> F.      (* opt::eval(f, .), no gradient *)
  Variable xs : list F.       (* the values of the loop variable *)

  (** lines 92-109: the loop; [cand x] is the vector evaluated for the value [x] of the loop
      variable, [best] = best_fit, [res] = current_result *)
  Fixpoint grid_scan (cand : F -> gres) (l : list F) (best : F) (res : gres) : gres :=
    match l with
    | [] => res
    | x :: r =>
        match cand x with
        | GVec t => let v := f t in
                    if flt best v then grid_scan cand r v (GVec t) else grid_scan cand r best res
        | _ => GUB
        end
    end.

  (** lines 85-111 [_inner_search]; [d] = dim - 1 - depth (number of dimensions below):
      at the last depth the candidate is new_point, otherwise the result of the recursive call *)
  Fixpoint inner_search (d : nat) (depth : nat) (cur : vec) : gres :=
    match d with
    | O => grid_scan (fun x => GVec (set_nth depth x cur)) xs f_lowest GUninit
    | S d' => grid_scan (fun x => inner_search d' (S depth) (set_nth depth x cur)) xs f_lowest GUninit
    end.

  (** lines 74-81: [operator()] for dim >= 1, starting from the constant vector 0.5;
      dim = 0: [depth == dim - 1] with unsigned wrap-around, out-of-range write *)
  Definition grid_search (dim : nat) : gres :=
    match dim with
    | O => GUB
    | S d => inner_search d 0 (repeat (fdiv (fofZ 1) (fofZ 2)) dim)
    end.
End Grid.

(** * Parallel maximum: tools/parallel.hpp:169-201 *)
Section ParMax.
  Context {T : Type}.
  Variable comp : T -> T -> bool.
  Variable g : nat -> T.       (* the function called on each index *)
  Variable init : T.

  (** lines 193-198 (and the TBB body, lines 173-182): sequential scan of [lo, lo+n) *)
  Fixpoint scan (lo n : nat) (cur : T) : T :=
    match n with
    | O => cur
    | S k => scan (S lo) k (let v := g lo in if comp v cur then v else cur)
    end.

  (** lines 183-189 [joint] *)
  Definition joint (p1 p2 : T) : T := if comp p1 p2 then p1 else p2.

  (** line 191: [tbb::parallel_reduce]: a range is processed by a body starting from an
      accumulated value; it may be cut, the right part being either continued with the same
      accumulator or given to a new body starting from the identity [init] and joined later. *)
  Inductive reduce : nat -> nat -> T -> T -> Prop :=
  | red_scan lo n a : reduce lo n a (scan lo n a)
  | red_seq lo n1 n2 a b c :
      reduce lo n1 a b -> reduce (lo + n1) n2 b c -> reduce lo (n1 + n2) a c
  | red_split lo n1 n2 a b c :
      reduce lo n1 a b -> reduce (lo + n1) n2 init c -> reduce lo (n1 + n2) a (joint b c).

  (** sequential version (without TBB) *)
  Definition par_max_seq (n : nat) : T := scan 0 n init.
  (** any TBB execution *)
  Definition par_max_tbb (n : nat) (r : T) : Prop := reduce 0 n init r.
End ParMax.

(** * ParallelRepeater: opt/parallel_repeater.hpp:79-106 *)

(** [-std::numeric_limits<float>::max()] = -(2^24-1)*2^104, as a double *)
Definition f_float_lowest : F := fofZe (- 16777215) 104.

Section Repeater.
  Variable f : vec -> F.
  Variable opt : nat -> vec -> vec.     (* i-th run of the inner optimizer on a start *)
  Variable epsilon : F.
  Variable rnd : nat -> vec.            (* i-th random vector *)
  Variable init : vec.

  (** line 90: init + (random * 2 * epsilon - epsilon) *)
  Definition repeater_start (i : nat) : vec :=
    map2 fadd init (map (fun r => fsub (fmul (fmul r (fofZ 2)) epsilon) epsilon) (rnd i)).

  (** lines 88-96 *)
  Definition repeater_body (i : nat) : vec * F :=
    let v := opt i (repeater_start i) in (v, f v).

  (** lines 98-102 *)
  Definition repeater_comp (a b : vec * F) : bool := flt (snd b) (snd a).

  (** lines 104-106; relation: all results under some schedule *)
  Definition repeater (repeats : nat) (r : vec) : Prop :=
    exists v, par_max_tbb repeater_comp repeater_body (init, f_float_lowest) repeats (r, v).
  Definition repeater_seq (repeats : nat) : vec :=
    fst (par_max_seq repeater_comp repeater_body (init, f_float_lowest) repeats).
End Repeater.

(** * Chained: opt/chained.hpp:57-83; an optimizer maps a start to a result.
    The empty pack is not callable (primary template has no operator()). *)
Fixpoint chained (o : vec -> vec) (os : list (vec -> vec)) (init : vec) : vec :=
  match os with
  | [] => o init
  | o' :: r => chained o' r (o init)
  end.

(** * Random point: opt/random_point.hpp:61-66, bounded: a random vector of the same size *)
Definition random_point (rnd : nat -> vec) (init : vec) : vec := rnd (length init).
