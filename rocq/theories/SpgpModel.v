(** Model of the sparse Gaussian process with pseudo-inputs, /repo/src/limbo/experimental/model/spgp.hpp, over the real
    numbers.  Rounding and overflow are not modelled; outcomes as in [GPModel].  Members that no constructor sets
    ([_m], [_del], [_c], [_sig]) are [None] until they are set; reading them before is undefined. *)
From Coq Require Import Reals List Bool ZArith.
From Verif Require Import LinAlgModel KernelModel GPModel.
Import ListNotations.
Open Scope R_scope.

Definition of_rows (X : list vec) (d : nat) : mat := Mat (length X) d (fun i j => vget (nth i X []) j).
(** [v.transpose()] of a vector, and a vector used as a matrix of one column *)
Definition row_of (v : vec) : mat := Mat 1 (length v) (fun _ j => vget v j).
Definition column_of (v : vec) : mat := Mat (length v) 1 (fun i _ => vget v i).
Definition row (A : mat) (i : nat) : vec := vec_of (cols A) (at_ A i).

(** lines 88-102 [HyperParams]: [xb] is a column of m*dim_in coefficients resized to m x dim_in; Eigen's matrices are stored by
    columns.  [None]: the vector is too short *)
Record hyper := mkHp { h_xb : nat -> nat -> R; h_b : nat -> R; h_c : R; h_sig : R }.
Definition hyper_params (w : vec) (m d : nat) : option hyper :=
  if (((m + 1) * d + 2) <=? length w)%nat then
    Some (mkHp (fun i j => vget w (i + j * m)) (fun j => exp (vget w (m * d + j))) (exp (vget w ((m + 1) * d))) (exp (vget w ((m + 1) * d + 1))))
  else None.

(** lines 612-628 [_compute_kernel_matrix], 630-634 [_k_diag] on the coefficients; [b]: [_b], [c]: [_c] *)
Definition kernel_entry (d : nat) (b : nat -> R) (c : R) (p q : nat -> R) : R :=
  let x1 := fun k => p k * sqrt (b k) in
  let x2 := fun k => q k * sqrt (b k) in
  c * exp ((-2 * rsum d (fun k => x1 k * x2 k) + rsum d (fun k => x2 k * x2 k) + rsum d (fun k => x1 k * x1 k)) * -(1/2)).

(** * The likelihood, lines 453-580 *)
Section Likelihood.
(** [_m], number of samples, [_dim_in], [_del]; hyper-parameters; data *)
Variables (m n d : nat) (del : R) (h : hyper) (X : nat -> nat -> R) (r : nat -> R).
Let c := h_c h.
Let sig := h_sig h.
(** lines 457-461 *)
Definition l_xb (i k : nat) : R := h_xb h i k * sqrt (h_b h k).
Definition l_x (j k : nat) : R := X j k * sqrt (h_b h k).
(** lines 463-467 *)
Definition l_Q (i j : nat) : R :=
  let P := fun a b => rsum d (fun k => l_xb a k * l_xb b k) in
  exp ((P i i + P j j - 2 * P i j) * -(1/2)) * c + del * (if (i =? j)%nat then 1 else 0).
(** lines 469-473 *)
Definition l_K (i j : nat) : R :=
  exp ((-2 * rsum d (fun k => l_xb i k * l_x j k) + rsum d (fun k => l_x j k * l_x j k) + rsum d (fun k => l_xb i k * l_xb i k)) * -(1/2)) * c.
(** [L]: line 476 *)
Variable L : nat -> nat -> R.
(** lines 478, 480 *)
Definition l_V0 (i j : nat) : R := fwd m L (fun a => l_K a j) i.
Definition l_ep (j : nat) : R := 1 + (c - rsum m (fun i => l_V0 i j * l_V0 i j)) / sig.
(** lines 481-483 *)
Definition l_Kc (i j : nat) : R := l_K i j / sqrt (l_ep j).
Definition l_V (i j : nat) : R := l_V0 i j / sqrt (l_ep j).
Definition l_y (j : nat) : R := r j / sqrt (l_ep j).
(** line 485: the factorised matrix *)
Definition l_M (i j : nat) : R := sig * (if (i =? j)%nat then 1 else 0) + rsum n (fun k => l_V i k * l_V j k).
(** [Lm]: line 485 *)
Variable Lm : nat -> nat -> R.
(** lines 487-488 *)
Definition l_iLmV (i j : nat) : R := fwd m Lm (fun a => l_V a j) i.
Definition l_bet (i : nat) : R := rsum n (fun j => l_iLmV i j * l_y j).
(** line 491; [n - _m] and its half are computed in [size_t] *)
Definition half_diff : R := IZR (Z.div (Z.modulo (Z.of_nat n - Z.of_nat m) (2 ^ 64)) 2).
Definition l_fw : R :=
  rsum m (fun i => ln (Lm i i)) + half_diff * ln sig + (rsum n (fun j => l_y j * l_y j) - rsum m (fun i => l_bet i * l_bet i)) / (2 * sig)
  + rsum n (fun j => ln (l_ep j)) / 2 + 0.5 * INR n * ln (2 * PI).

(** ** The gradient, lines 500-572; systems with triangular matrices solved by lu() have the solution of the substitution *)
(** lines 501-503 *)
Definition g_Lt (i j : nat) : R := rsum m (fun k => L i k * Lm k j).
Definition g_B1 (i j : nat) : R := bwd m g_Lt (fun a => l_iLmV a j) i.
Definition g_b1 (i : nat) : R := bwd m g_Lt l_bet i.
(** lines 505-509 *)
Definition g_P (i j : nat) : R := bwd m L (fun a => l_V a j) i.
Definition unit_col (j : nat) : nat -> R := fun a => if (a =? j)%nat then 1 else 0.
Definition g_invQ (i j : nat) : R := rsum m (fun k => fwd m L (unit_col i) k * fwd m L (unit_col j) k).
Definition g_invA (i j : nat) : R := rsum m (fun k => fwd m g_Lt (unit_col i) k * fwd m g_Lt (unit_col j) k).
(** lines 512-513 *)
Definition g_mu (j : nat) : R := rsum m (fun i => bwd m Lm l_bet i * l_V i j).
Definition g_sumVsq (j : nat) : R := rsum m (fun i => l_V i j * l_V i j).
(** line 516 *)
Definition g_big (j : nat) : R :=
  l_y j * rsum m (fun i => l_bet i * l_iLmV i j) / sig - rsum m (fun i => l_iLmV i j * l_iLmV i j) / 2
  - (l_y j * l_y j + g_mu j * g_mu j) / (2 * sig) + 0.5.
(** line 518 *)
Definition g_TT (a b : nat) : R := rsum n (fun j => g_P a j * (g_P b j * g_big j)).
(** lines 527, 529: [k] is the input coordinate *)
Definition g_dQ (k a b : nat) : R := (l_xb a k - l_xb b k) * l_Q a b.
Definition g_dK (k a j : nat) : R := (l_xb a k * -1 - l_x j k * -1) * l_Kc a j.
(** lines 532-533 *)
Definition g_epdot (k a j : nat) : R := g_dK k a j * g_P a j * (-2 / sig).
Definition g_epPmod (k j : nat) : R := -1 * rsum m (fun a => g_epdot k a j).
(** lines 536, 543, 546 *)
Definition g_dfxb (a k : nat) : R :=
  (g_b1 a * (rsum n (fun j => g_dK k a j * (l_y j - g_mu j)) / sig + rsum m (fun b => g_dQ k a b * g_b1 b)) * -1
   + rsum m (fun b => (g_invQ a b - g_invA a b * sig) * g_dQ k a b)
   + rsum n (fun j => g_epdot k a j * g_big j)
   - rsum m (fun b => g_dQ k a b * g_TT a b) * (2 / sig)
   + rsum n (fun j => g_dK k a j * g_B1 a j)) * sqrt (h_b h k).
(** lines 539, 544, 548-552 *)
Definition g_dfb (k : nat) : R :=
  ((rsum n (fun j => ((l_y j - g_mu j) * rsum m (fun a => g_b1 a * g_dK k a j) / sig + g_epPmod k j * g_big j) * l_x j k)
    - rsum n (fun j => rsum m (fun a => g_dK k a j * g_B1 a j) * l_x j k)) / sqrt (h_b h k)
   + rsum m (fun a => g_dfxb a k * l_xb a k) / h_b h k) * (sqrt (h_b h k) / 2).
(** lines 557-561 *)
Definition g_epc (j : nat) : R := (/ l_ep j * c - g_sumVsq j - del * rsum m (fun a => g_P a j * g_P a j)) / sig.
Definition g_dfc : R :=
  (INR m + del * rsum m (fun a => g_invQ a a - sig * g_invA a a) - sig * rsum m (fun a => rsum m (fun b => g_invA a b * l_Q b a))) / 2
  - rsum n (fun j => g_mu j * (l_y j - g_mu j)) / sig
  + rsum m (fun a => rsum m (fun b => g_b1 a * (l_Q a b - del * (if (a =? b)%nat then 1 else 0)) * g_b1 b)) / 2
  + rsum n (fun j => g_epc j * g_big j).
(** line 564 *)
Definition g_dfsig : R := rsum n (fun j => g_big j / l_ep j).
(** lines 567-571: [dfxb] is stored by columns *)
Definition g_dfw : vec :=
  vec_of (m * d) (fun q => g_dfxb (q mod m) (q / m)) ++ vec_of d g_dfb ++ [g_dfc; g_dfsig].
End Likelihood.

(** * The object *)
Section Spgp.
Variables (K : Kern) (M : Mean).
(** Params::model_spgp: jitter, samples_percent, min_m, sig, pred_kernel_sigma_sq, pred_kernel_l (lines 64-74) *)
Variables (jit pct : R) (min_m : nat) (sig0 c0 l0 : R).

(** lines 320-347 *)
Record spgp := {
  p_m : option nat; p_din : option nat; p_dout : option nat; p_del : option R;
  p_X : list vec; p_Y : list vec; p_zm : mat; p_om : vec;
  p_mean : mst M; p_kern : kst K;
  p_xb : mat; p_b : vec; p_c : option R; p_sig : option R;
  p_Lm : mat; p_bet : mat; p_L : mat;
  p_init : bool; p_opt : bool; p_w : vec
}.
(** line 105; the kernel and mean functions are built with their default dimension *)
Definition spgp_default : spgp := {|
  p_m := None; p_din := None; p_dout := None; p_del := None; p_X := []; p_Y := []; p_zm := empty_mat; p_om := [];
  p_mean := m_new M 1; p_kern := k_new K 1; p_xb := empty_mat; p_b := []; p_c := None; p_sig := None;
  p_Lm := empty_mat; p_bet := empty_mat; p_L := empty_mat; p_init := true; p_opt := false; p_w := [] |}.
(** lines 108-115 *)
Definition spgp_new (din dout : nat) : spgp := {|
  p_m := None; p_din := Some din; p_dout := Some dout; p_del := None; p_X := []; p_Y := []; p_zm := empty_mat; p_om := [];
  p_mean := m_new M dout; p_kern := k_new K din; p_xb := empty_mat; p_b := repeat l0 din; p_c := Some c0; p_sig := Some sig0;
  p_Lm := empty_mat; p_bet := empty_mat; p_L := empty_mat; p_init := true; p_opt := false; p_w := [] |}.

(** lines 270-274 [mean_observation] *)
Definition p_mean_observation (s : spgp) : vec := match p_X s with [] => repeat 0 (oget (p_dout s)) | _ => p_om s end.
Definition p_mean_at (s : spgp) (v : vec) : vec := m_val M (p_mean s) v (p_mean_observation s).

(** lines 381-387 [_update_m] (samples_percent not negative) *)
Definition m_of (n : nat) : nat := Nat.max (Z.to_nat (Int_part (pct * INR n / 100))) min_m.
(** lines 372-379 [_compute_observations_zm], after the samples and observations have been set *)
Definition with_data_zm (s : spgp) (X Y : list vec) (din dout : nat) (mean : mst M) (kern : kst K) (b : vec) (c sg : option R) (del : option R) : outcome spgp :=
  let Ym := of_rows Y dout in
  let om := col_means Ym in
  let s1 := {| p_m := Some (m_of (length X)); p_din := Some din; p_dout := Some dout; p_del := del; p_X := X; p_Y := Y; p_zm := p_zm s; p_om := om;
               p_mean := mean; p_kern := kern; p_xb := p_xb s; p_b := b; p_c := c; p_sig := sg; p_Lm := p_Lm s; p_bet := p_bet s; p_L := p_L s;
               p_init := true; p_opt := p_opt s; p_w := p_w s |} in
  check (forallb (fun x => (length (p_mean_at s1 x) =? dout)%nat) X && (length Y =? length X)%nat)
    (Done {| p_m := p_m s1; p_din := p_din s1; p_dout := p_dout s1; p_del := del; p_X := X; p_Y := Y;
             p_zm := Mat (length X) dout (fun i j => at_ Ym i j - vget (p_mean_at s1 (nth i X [])) j); p_om := om;
             p_mean := mean; p_kern := kern; p_xb := p_xb s; p_b := b; p_c := c; p_sig := sg; p_Lm := p_Lm s; p_bet := p_bet s; p_L := p_L s;
             p_init := true; p_opt := p_opt s; p_w := p_w s |}).

Fixpoint col_max (n : nat) (f : nat -> R) : R := match n with O => 0 | S O => f O | S k => Rmax (col_max k f) (f k) end.
Fixpoint col_min (n : nat) (f : nat -> R) : R := match n with O => 0 | S O => f O | S k => Rmin (col_min k f) (f k) end.

(** lines 411-428: the start of the optimisation; [pos]: the shuffled positions.  [Undefined]: more pseudo-inputs than
    samples; [NotFinite]: the logarithm of zero *)
Definition w_init (pos : list nat) (m din dout : nat) (X : list vec) (zm : mat) : outcome vec :=
  let n := length X in
  let f := fun j i => vget (nth i X []) j in
  let ms := rsum n (fun i => rsum dout (fun j => at_ zm i j * at_ zm i j)) / INR (n * dout) in
  let ms4 := rsum n (fun i => rsum dout (fun j => at_ zm i j * at_ zm i j / 4)) / INR (n * dout) in
  check ((m <=? n)%nat && (0 <? n * dout)%nat)
    (if all_pos din (fun j => (col_max n (f j) - col_min n (f j)) / 2) && (if Rlt_dec 0 ms then true else false) then
       Done (vec_of (m * din) (fun q => vget (nth (nth (q / din) pos O) X []) (q mod din))
             ++ vec_of din (fun j => -2 * ln ((col_max n (f j) - col_min n (f j)) / 2))
             ++ [ln ms; ln ms4])
     else NotFinite).

(** lines 446-451 [_likelihood]: what the optimizer is given; value, and gradient; the sign is changed because limbo maximises *)
Definition likelihood (s : spgp) (w : vec) : outcome (R * vec) :=
  match p_m s, p_din s, p_del s with
  | Some m, Some d, Some del =>
      match hyper_params w m d with
      | None => Undefined
      | Some h =>
          let n := length (p_X s) in
          let X := at_ (of_rows (p_X s) d) in
          let r := fun j => at_ (p_zm s) j 0 in
          check ((rows (p_zm s) =? n)%nat && (cols (p_zm s) =? 1)%nat)
            (match chol m (l_Q d del h) with
             | None => NotFinite
             | Some L =>
                 if all_pos n (l_ep m d h X L) then
                   match chol m (l_M m n d h X L) with
                   | None => NotFinite
                   | Some Lm => Done (- l_fw m n d h X r L Lm, map Ropp (g_dfw m n d del h X r L Lm))
                   end
                 else NotFinite
             end)
      end
  | _, _, _ => Undefined
  end.

(** lines 409-444 [_optimize_hyperparams]; [opt]: the optimizer, applied to the start; it evaluates the likelihood, which reads [_del];
    its result has the size of the start *)
Definition optimize_hp (pos : list nat) (opt : vec -> vec) (s : spgp) : outcome spgp :=
  match p_din s, p_dout s, p_del s with
  | Some d, Some dout, Some _ =>
      let m := if p_init s then m_of (length (p_X s)) else oget (p_m s) in
      bind (if p_init s then w_init pos m d dout (p_X s) (p_zm s) else Done (p_w s)) (fun w =>
      match hyper_params (opt w) m d with
      | None => Undefined
      | Some h =>
          Done {| p_m := Some m; p_din := p_din s; p_dout := p_dout s; p_del := p_del s; p_X := p_X s; p_Y := p_Y s; p_zm := p_zm s; p_om := p_om s;
                  p_mean := p_mean s; p_kern := p_kern s;
                  p_xb := Mat m d (h_xb h); p_b := vec_of d (h_b h); p_c := Some (h_c h); p_sig := Some (h_sig h);
                  p_Lm := p_Lm s; p_bet := p_bet s; p_L := p_L s; p_init := false; p_opt := true; p_w := w |}
      end)
  | _, _, _ => Undefined
  end.

(** lines 389-407 [_compute] after the optimisation *)
Definition factorize (s : spgp) : outcome spgp :=
  match p_m s, p_din s, p_c s, p_sig s with
  | Some m, Some d, Some c, Some sg =>
      let n := length (p_X s) in
      let b := vget (p_b s) in
      let xb := at_ (p_xb s) in
      let X := at_ (of_rows (p_X s) d) in
      check ((cols (p_xb s) =? length (p_b s))%nat && (d =? length (p_b s))%nat && (rows (p_xb s) =? m)%nat
             && (rows (p_zm s) =? n)%nat && (cols (p_zm s) =? 1)%nat)
        (match chol m (fun i j => kernel_entry d b c (xb i) (xb j) + (if (i =? j)%nat then 1 else 0) * jit) with
         | None => NotFinite
         | Some L =>
             let V0 := fun i j => fwd m L (fun a => kernel_entry d b c (xb a) (X j)) i in
             let ep := fun j => 1 + (c - rsum m (fun i => V0 i j * V0 i j)) / sg in
             if all_pos n ep then
               let V := fun i j => V0 i j / sqrt (ep j) in
               let y := fun j => at_ (p_zm s) j 0 / sqrt (ep j) in
               match chol m (fun i j => sg * (if (i =? j)%nat then 1 else 0) + rsum n (fun k => V i k * V j k)) with
               | None => NotFinite
               | Some Lm =>
                   let bet := fwd m Lm (fun i => rsum n (fun j => V i j * y j)) in
                   Done {| p_m := p_m s; p_din := p_din s; p_dout := p_dout s; p_del := p_del s; p_X := p_X s; p_Y := p_Y s; p_zm := p_zm s; p_om := p_om s;
                           p_mean := p_mean s; p_kern := p_kern s; p_xb := p_xb s; p_b := p_b s; p_c := p_c s; p_sig := p_sig s;
                           p_Lm := Mat m m Lm; p_bet := Mat m 1 (fun i _ => bet i); p_L := Mat m m L; p_init := p_init s; p_opt := p_opt s; p_w := p_w s |}
               end
             else NotFinite
         end)
  | _, _, _, _ => Undefined
  end.
Definition compute_ (pos : list nat) (opt : vec -> vec) (s : spgp) : outcome spgp := bind (optimize_hp pos opt s) factorize.

Definition same_length (d : nat) (X : list vec) : bool := forallb (fun x => (length x =? d)%nat) X.
(** lines 132-152 [compute], with 349-370 [_init] and 644-651 [_to_matrix] *)
Definition p_compute (pos : list nat) (opt : vec -> vec) (s : spgp) (X Y : list vec) : outcome spgp :=
  match X, Y with
  | x0 :: _, y0 :: _ =>
      let din := length x0 in let dout := length y0 in
      check (same_length din X && same_length dout Y && (length X =? length Y)%nat)
        (bind (with_data_zm s X Y din dout (m_new M dout) (k_new K din) (p_b s) (p_c s) (p_sig s) (Some jit)) (compute_ pos opt))
  | _, _ => Undefined
  end.

(** lines 155-186 [add_sample] *)
Definition p_add (pos : list nat) (opt : vec -> vec) (s : spgp) (x y : vec) : outcome spgp :=
  match p_X s with
  | [] => bind (with_data_zm s [x] (p_Y s ++ [y]) (length x) (length y) (m_new M (length y)) (k_new K (length x))
                  (repeat l0 (length x)) (Some c0) (Some sig0) (p_del s)) (compute_ pos opt)
  | _ => check (onat_eqb (p_din s) (length x) && onat_eqb (p_dout s) (length y))
           (bind (with_data_zm s (p_X s ++ [x]) (p_Y s ++ [y]) (length x) (length y) (p_mean s) (p_kern s) (p_b s) (p_c s) (p_sig s) (p_del s))
              (compute_ pos opt))
  end.

Definition init_true (s : spgp) : spgp := {|
  p_m := p_m s; p_din := p_din s; p_dout := p_dout s; p_del := p_del s; p_X := p_X s; p_Y := p_Y s; p_zm := p_zm s; p_om := p_om s;
  p_mean := p_mean s; p_kern := p_kern s; p_xb := p_xb s; p_b := p_b s; p_c := p_c s; p_sig := p_sig s;
  p_Lm := p_Lm s; p_bet := p_bet s; p_L := p_L s; p_init := true; p_opt := p_opt s; p_w := p_w s |}.
(** lines 283-287 [recompute] *)
Definition p_recompute (pos : list nat) (opt : vec -> vec) (s : spgp) : outcome spgp := compute_ pos opt (init_true s).
(** lines 125-129 [optimize_hyperparams] *)
Definition p_optimize (pos : list nat) (opt : vec -> vec) (s : spgp) : outcome spgp := optimize_hp pos opt (init_true s).

(** lines 582-610 [_predict] with both results: mean (a row per point) and variance *)
Definition predict (s : spgp) (xt : mat) : outcome (mat * (nat -> R)) :=
  let dout := oget (p_dout s) in
  match p_X s with
  | [] =>
      check (forallb (fun i => (length (p_mean_at s (row xt i)) =? dout)%nat) (seq 0 (rows xt)))
        (Done (Mat (rows xt) dout (fun i j => vget (p_mean_at s (row xt i)) j), fun i => kop0 K (p_kern s) (row xt i) (row xt i)))
  | _ =>
      match p_c s, p_sig s with
      | Some c, Some sg =>
          let d := length (p_b s) in
          let m := rows (p_xb s) in
          check ((cols (p_xb s) =? d)%nat && (cols xt =? d)%nat && (rows (p_L s) =? m)%nat && (rows (p_Lm s) =? m)%nat && (rows (p_bet s) =? m)%nat
                 && (cols (p_bet s) =? dout)%nat && forallb (fun i => (length (p_mean_at s (row xt i)) =? dout)%nat) (seq 0 (rows xt)))
            (if diag_ok m (at_ (p_L s)) && diag_ok m (at_ (p_Lm s)) then
               let lst := fun i j => fwd m (at_ (p_L s)) (fun a => kernel_entry d (vget (p_b s)) c (at_ (p_xb s) a) (at_ xt j)) i in
               let lmst := fun i j => fwd m (at_ (p_Lm s)) (fun a => lst a j) i in
               Done (Mat (rows xt) dout (fun j o => vget (p_mean_at s (row xt j)) o + rsum m (fun i => at_ (p_bet s) i o * lmst i j)),
                     fun j => c - rsum m (fun i => lst i j * lst i j) + sg * rsum m (fun i => lmst i j * lmst i j) + (if p_opt s then sg else 0))
             else NotFinite)
      | _, _ => Undefined
      end
  end.
(** lines 193-197 [query] *)
Definition p_query (s : spgp) (v : vec) : outcome (vec * R) :=
  bind (predict s (row_of v)) (fun r => Done (row (fst r) 0, snd r O)).
(** lines 214-217 [mu] called with a vector, as the acquisition functions and statistics do: the vector becomes a matrix of
    one column *)
Definition p_mu (s : spgp) (v : vec) : outcome mat := bind (predict s (column_of v)) (fun r => Done (fst r)).
(** lines 228-231 [sigma] *)
Definition p_sigma (s : spgp) (v : vec) : outcome R := bind (predict s (column_of v)) (fun r => Done (snd r O)).
End Spgp.
