(** Model of limbo's Gaussian process (/repo/src/limbo/model/gp.hpp) and mean functions
    (/repo/src/limbo/mean) over the real numbers.  Rounding and overflow are not modelled. *)
From Coq Require Import Reals List Bool ZArith.
From Verif Require Import LinAlgModel KernelModel.
Import ListNotations.
Open Scope R_scope.

(** Result of a member function.  [Undefined]: a violated assert, a size mismatch or an access out
    of range (undefined behaviour when NDEBUG is set).  [NotFinite]: a division by zero, the square
    root or logarithm of a non-positive number, or a failed Cholesky factorisation: the C++ program
    goes on with NaN, infinities or a partial factor. *)
Inductive outcome (A : Type) := Done (a : A) | Undefined | NotFinite.
Arguments Done {A}. Arguments Undefined {A}. Arguments NotFinite {A}.
Definition bind {A B} (o : outcome A) (f : A -> outcome B) : outcome B :=
  match o with Done a => f a | Undefined => Undefined | NotFinite => NotFinite end.
Definition check {A} (b : bool) (o : outcome A) : outcome A := if b then o else Undefined.

(** Eigen::MatrixXd *)
Record mat := Mat { rows : nat; cols : nat; at_ : nat -> nat -> R }.
Definition empty_mat : mat := Mat 0 0 (fun _ _ => 0).
Definition col (M : mat) (j : nat) : nat -> R := fun i => at_ M i j.

(** A mean function seen from the GP (mean/mean.hpp:60-77): state, constructor, value and gradient
    ([dim_out] rows of [h_params_size] entries).  The only part of the GP that limbo's mean functions
    consult is [gp.mean_observation()]; it is given as an argument. *)
Record Mean := {
  mst : Type;
  m_new : nat -> mst;
  m_val : mst -> vec -> vec -> vec;
  m_hsize : mst -> nat;
  m_hparams : mst -> vec;
  m_set : mst -> vec -> mst;
  m_grad : mst -> vec -> vec -> list vec
}.

(** mean/null_function.hpp:56-67 *)
Definition NullFunction : Mean := {|
  mst := nat; m_new := fun d => d; m_val := fun d _ _ => repeat 0 d;
  m_hsize := fun _ => O; m_hparams := fun _ => []; m_set := fun d _ => d; m_grad := fun _ _ _ => [] |}.
(** mean/constant.hpp:67-99: the state is [_dim_out], [_constant] *)
Definition Constant (c : R) : Mean := {|
  mst := nat * R; m_new := fun d => (d, c); m_val := fun st _ _ => repeat (snd st) (fst st);
  m_hsize := fun _ => 1%nat; m_hparams := fun st => [snd st]; m_set := fun st p => (fst st, vget p 0);
  m_grad := fun st _ _ => repeat [1] (fst st) |}.
(** mean/data.hpp:56-65 *)
Definition Data : Mean := {|
  mst := unit; m_new := fun _ => tt; m_val := fun _ _ mo => mo;
  m_hsize := fun _ => O; m_hparams := fun _ => []; m_set := fun s _ => s; m_grad := fun _ _ _ => [] |}.

(** mean/function_ard.hpp:58-126: [_mean_function], [_tr] (dim_out x dim_out+1), [_h_params] *)
Record fard (M : Mean) := { f_m : mst M; f_dim : nat; f_tr : nat -> nat -> R; f_h : vec }.
Arguments f_m {M}. Arguments f_dim {M}. Arguments f_tr {M}. Arguments f_h {M}.
(** lines 83-92 *)
Definition fard_set (M : Mean) (m : mst M) (d : nat) (p : vec) : fard M := {|
  f_h := firstn (d * (d + 1)) p;
  f_dim := d;
  f_tr := fun r c => vget p (r * (d + 1) + c);
  f_m := if (0 <? m_hsize M m)%nat then m_set M m (skipn (length p - m_hsize M m) p) else m |}.
(** lines 60-69 *)
Definition fard_new (M : Mean) (d : nat) : fard M :=
  let m := m_new M d in
  fard_set M m d
    (vec_of (d * (d + 1)) (fun k => if existsb (fun i => (k =? i * (d + 2))%nat) (seq 0 d) then 1 else 0)
     ++ (if (0 <? m_hsize M m)%nat then m_hparams M m else [])).
(** lines 113-120 *)
Definition fard_val (M : Mean) (s : fard M) (x mo : vec) : vec :=
  let m := m_val M (f_m s) x mo in
  let m1 := m ++ [1] in
  vec_of (f_dim s) (fun r => rsum (f_dim s + 1) (fun c => f_tr s r c * vget m1 c)).
(** lines 71, 73-81 *)
Definition fard_hsize (M : Mean) (s : fard M) : nat := (f_dim s * (f_dim s + 1) + m_hsize M (f_m s))%nat.
Definition fard_hparams (M : Mean) (s : fard M) : vec :=
  f_h s ++ (if (0 <? m_hsize M (f_m s))%nat then m_hparams M (f_m s) else []).
(** lines 95-110 *)
Definition fard_grad (M : Mean) (s : fard M) (x mo : vec) : list vec :=
  let m := m_val M (f_m s) x mo in
  let d := f_dim s in
  map (fun i =>
    vec_of (d * (d + 1)) (fun k =>
      if (i * (d + 1) <=? k)%nat && (k <? i * (d + 1) + d)%nat then vget m (k - i * (d + 1))
      else if (k =? (i + 1) * (d + 1) - 1)%nat then 1 else 0)
    ++ (if (0 <? m_hsize M (f_m s))%nat then
          (* _tr * m_grad, m_grad being the gradient of the mean with a row of zeros below *)
          let mg := m_grad M (f_m s) x mo ++ [repeat 0 (m_hsize M (f_m s))] in
          vec_of (m_hsize M (f_m s)) (fun q => rsum (d + 1) (fun c => f_tr s i c * vget (nth c mg []) q))
        else [])) (seq 0 d).
Definition FunctionARD (M : Mean) : Mean := {|
  mst := fard M; m_new := fard_new M; m_val := fard_val M; m_hsize := fard_hsize M;
  m_hparams := fard_hparams M; m_set := fun s p => fard_set M (f_m s) (f_dim s) p; m_grad := fard_grad M |}.

Section GP.
Variable K : Kern.
Variable M : Mean.

(** gp.hpp:513-535; [_dim_in], [_dim_out] = -1 are [None].  [_log_lik] and [_log_loo_cv] are only
    read by getters and are left out. *)
Record gp := {
  g_din : option nat; g_dout : option nat;
  g_k : kst K; g_m : mst M;
  g_samples : list vec;
  g_obs : mat;
  g_mean_vector : mat; g_obs_mean : mat;
  g_alpha : mat; g_mean_obs : vec;
  g_kernel : mat; g_inv : mat;
  g_L : mat;
  g_inv_updated : bool
}.

(** gp.hpp:79-80 *)
Definition gp_default : gp := {|
  g_din := None; g_dout := None; g_k := k_new K 1; g_m := m_new M 1; g_samples := [];
  g_obs := empty_mat; g_mean_vector := empty_mat; g_obs_mean := empty_mat; g_alpha := empty_mat; g_mean_obs := [];
  g_kernel := empty_mat; g_inv := empty_mat; g_L := empty_mat; g_inv_updated := false |}.
(** gp.hpp:82-84 *)
Definition gp_new (din dout : nat) : gp := {|
  g_din := Some din; g_dout := Some dout; g_k := k_new K din; g_m := m_new M dout; g_samples := [];
  g_obs := empty_mat; g_mean_vector := empty_mat; g_obs_mean := empty_mat; g_alpha := empty_mat; g_mean_obs := [];
  g_kernel := empty_mat; g_inv := empty_mat; g_L := empty_mat; g_inv_updated := false |}.

Definition onat_eqb (o : option nat) (n : nat) : bool := match o with Some m => (m =? n)%nat | None => false end.
Definition oget (o : option nat) : nat := match o with Some m => m | None => O end.

Definition sample (g : gp) (i : nat) : vec := nth i (g_samples g) [].
Definition nb_samples (g : gp) : nat := length (g_samples g).

(** gp.hpp:226-231 [mean_observation]; [assert(_dim_out > 0)] is checked by the callers *)
Definition mean_observation (g : gp) : vec :=
  match g_samples g with [] => repeat 0 (oget (g_dout g)) | _ => g_mean_obs g end.
Definition dout_pos (g : gp) : bool := (0 <? oget (g_dout g))%nat.

(** [_observations.colwise().mean()] *)
Definition col_means (Y : mat) : vec :=
  vec_of (cols Y) (fun j => rsum (rows Y) (fun i => at_ Y i j) / INR (rows Y)).

Definition mean_at (g : gp) (v : vec) : vec := m_val M (g_m g) v (mean_observation g).

(** gp.hpp:537-548 [_compute_obs_mean] *)
Definition compute_obs_mean (g : gp) : outcome gp :=
  let n := nb_samples g in
  let d := oget (g_dout g) in
  check ((0 <? n)%nat && dout_pos g
         && forallb (fun s => onat_eqb (g_din g) (length s) && (0 <? length s)%nat && (length (mean_at g s) =? d)%nat) (g_samples g)
         && (rows (g_obs g) =? n)%nat && (cols (g_obs g) =? d)%nat)
    (let mv := Mat n d (fun i j => vget (mean_at g (sample g i)) j) in
     Done {| g_din := g_din g; g_dout := g_dout g; g_k := g_k g; g_m := g_m g; g_samples := g_samples g; g_obs := g_obs g;
             g_mean_vector := mv; g_obs_mean := Mat n d (fun i j => at_ (g_obs g) i j - at_ mv i j);
             g_alpha := g_alpha g; g_mean_obs := g_mean_obs g; g_kernel := g_kernel g; g_inv := g_inv g; g_L := g_L g;
             g_inv_updated := g_inv_updated g |}).

(** gp.hpp:605-611 [_compute_alpha] *)
Definition compute_alpha (g : gp) : outcome gp :=
  let n := rows (g_L g) in
  let L := at_ (g_L g) in
  check ((cols (g_L g) =? n)%nat && (rows (g_obs_mean g) =? n)%nat)
    (if diag_ok n L then
       Done {| g_din := g_din g; g_dout := g_dout g; g_k := g_k g; g_m := g_m g; g_samples := g_samples g; g_obs := g_obs g;
               g_mean_vector := g_mean_vector g; g_obs_mean := g_obs_mean g;
               g_alpha := Mat n (cols (g_obs_mean g)) (fun i j => bwd n L (fwd n L (col (g_obs_mean g) j)) i);
               g_mean_obs := g_mean_obs g; g_kernel := g_kernel g; g_inv := g_inv g; g_L := g_L g;
               g_inv_updated := g_inv_updated g |}
     else NotFinite).

(** gp.hpp:571, 602: [_inv_kernel_updated = false] *)
Definition kernel_changed (g : gp) : gp := {|
  g_din := g_din g; g_dout := g_dout g; g_k := g_k g; g_m := g_m g; g_samples := g_samples g; g_obs := g_obs g;
  g_mean_vector := g_mean_vector g; g_obs_mean := g_obs_mean g; g_alpha := g_alpha g; g_mean_obs := g_mean_obs g;
  g_kernel := g_kernel g; g_inv := g_inv g; g_L := g_L g; g_inv_updated := false |}.

Definition with_kernel (g : gp) (Km Lm : mat) : gp := {|
  g_din := g_din g; g_dout := g_dout g; g_k := g_k g; g_m := g_m g; g_samples := g_samples g; g_obs := g_obs g;
  g_mean_vector := g_mean_vector g; g_obs_mean := g_obs_mean g; g_alpha := g_alpha g; g_mean_obs := g_mean_obs g;
  g_kernel := Km; g_inv := g_inv g; g_L := Lm; g_inv_updated := g_inv_updated g |}.

(** gp.hpp:550-571 [_compute_full_kernel]: the lower triangle is computed, then mirrored *)
Definition compute_full_kernel (g : gp) : outcome gp :=
  let n := nb_samples g in
  let Kf := fun i j =>
    if (j <=? i)%nat then kop K (g_k g) (sample g i) (sample g j) (Z.of_nat i) (Z.of_nat j)
    else kop K (g_k g) (sample g j) (sample g i) (Z.of_nat j) (Z.of_nat i) in
  match chol n Kf with
  | None => NotFinite
  | Some L => bind (compute_alpha (with_kernel g (Mat n n Kf) (Mat n n L))) (fun g' => Done (kernel_changed g'))
  end.

(** [conservativeResize]: new coefficients have arbitrary values ([junk]) *)
Definition cresize (A : mat) (r c : nat) (junk : nat -> nat -> R) : mat :=
  Mat r c (fun i j => if (i <? rows A)%nat && (j <? cols A)%nat then at_ A i j else junk i j).
Definition put (A : mat) (i j : nat) (v : R) : mat :=
  Mat (rows A) (cols A) (fun a b => if (a =? i)%nat && (b =? j)%nat then v else at_ A a b).

(** gp.hpp:583-586: last row and column of [_kernel] *)
Definition kernel_row (g : gp) (n : nat) (A : mat) : mat :=
  fold_left (fun A i =>
    let v := kop K (g_k g) (sample g i) (sample g (n - 1)) (Z.of_nat i) (Z.of_nat (n - 1)) in
    put (put A i (n - 1) v) (n - 1) i v) (seq 0 n) A.
(** gp.hpp:590-594: last row of [_matrixL] without the diagonal *)
Definition chol_row (n : nat) (A L : mat) : mat :=
  fold_left (fun L j =>
    put L (n - 1) j ((at_ A (n - 1) j - rsum j (fun m => at_ L j m * at_ L (n - 1) m)) / at_ L j j)) (seq 0 (n - 1)) L.

(** gp.hpp:573-603 [_compute_incremental_kernel] *)
Definition compute_incremental_kernel (junk : nat -> nat -> R) (g : gp) : outcome gp :=
  let n := nb_samples g in
  let A := kernel_row g n (cresize (g_kernel g) n n junk) in
  let L0 := cresize (g_L g) n n (fun _ _ => 0) in
  if diag_ok (n - 1) (at_ L0) then
    let L1 := chol_row n A L0 in
    let x := at_ A (n - 1) (n - 1) - rsum (n - 1) (fun m => at_ L1 (n - 1) m * at_ L1 (n - 1) m) in
    if Rlt_dec x 0 then NotFinite
    else bind (compute_alpha (with_kernel g A (put L1 (n - 1) (n - 1) (sqrt x)))) (fun g' => Done (kernel_changed g'))
  else NotFinite.

Definition with_dims (g : gp) (din dout : option nat) (k : kst K) (m : mst M) : gp := {|
  g_din := din; g_dout := dout; g_k := k; g_m := m; g_samples := g_samples g; g_obs := g_obs g;
  g_mean_vector := g_mean_vector g; g_obs_mean := g_obs_mean g; g_alpha := g_alpha g; g_mean_obs := g_mean_obs g;
  g_kernel := g_kernel g; g_inv := g_inv g; g_L := g_L g; g_inv_updated := g_inv_updated g |}.
Definition with_data (g : gp) (s : list vec) (Y : mat) : gp := {|
  g_din := g_din g; g_dout := g_dout g; g_k := g_k g; g_m := g_m g; g_samples := s; g_obs := Y;
  g_mean_vector := g_mean_vector g; g_obs_mean := g_obs_mean g; g_alpha := g_alpha g; g_mean_obs := col_means Y;
  g_kernel := g_kernel g; g_inv := g_inv g; g_L := g_L g; g_inv_updated := g_inv_updated g |}.

(** gp.hpp:95-103 and 129-136: the kernel (mean) is rebuilt when the dimension changes *)
Definition set_dims (g : gp) (din dout : nat) : gp :=
  let '(di, k) := if onat_eqb (g_din g) din then (g_din g, g_k g) else (Some din, k_new K din) in
  let '(do_, m) := if onat_eqb (g_dout g) dout then (g_dout g, g_m g) else (Some dout, m_new M dout) in
  with_dims g di do_ k m.

(** gp.hpp:87-116 [compute] *)
Definition compute (g : gp) (samples observations : list vec) (compute_kernel : bool) : outcome gp :=
  match samples, observations with
  | s0 :: _, o0 :: _ =>
      check ((length samples =? length observations)%nat)
        (let g1 := set_dims g (length s0) (length o0) in
         let d := length o0 in
         check (forallb (fun o => (length o =? d)%nat) observations)
           (let Y := Mat (length observations) d (fun i j => vget (nth i observations []) j) in
            bind (compute_obs_mean (with_data g1 samples Y)) (fun g2 =>
            if compute_kernel then compute_full_kernel g2 else Done g2)))
  | _, _ => Undefined
  end.

(** gp.hpp:126-152 [add_sample]; [junk1], [junk2]: the new coefficients of [_observations] and [_kernel] *)
Definition add_sample (junk1 junk2 : nat -> nat -> R) (g : gp) (s o : vec) : outcome gp :=
  let g1 := match g_samples g with [] => set_dims g (length s) (length o) | _ => g end in
  check (onat_eqb (g_din g1) (length s) && onat_eqb (g_dout g1) (length o))
    (let r := rows (g_obs g1) in
     let Y0 := cresize (g_obs g1) (r + 1) (length o) junk1 in
     let Y := Mat (r + 1) (length o) (fun i j => if (i =? r)%nat then vget o j else at_ Y0 i j) in
     bind (compute_obs_mean (with_data g1 (g_samples g1 ++ [s]) Y)) (compute_incremental_kernel junk2)).

(** gp.hpp:626-632 [_compute_k] *)
Definition compute_k (g : gp) (v : vec) : nat -> R := fun i => kop0 K (g_k g) (sample g i) v.
(** gp.hpp:613-616 [_mu] *)
Definition mu_ (g : gp) (v : vec) (k : nat -> R) : vec :=
  vec_of (oget (g_dout g)) (fun j => rsum (nb_samples g) (fun i => k i * at_ (g_alpha g) i j) + vget (mean_at g v) j).
(** gp.hpp:618-624 [_sigma]; DBL_EPSILON = 2^-52 *)
Definition eps : R := / 2 ^ 52.
Definition sigma_ (g : gp) (v : vec) (k : nat -> R) : R :=
  let n := nb_samples g in
  let z := fwd n (at_ (g_L g)) k in
  let res := kop0 K (g_k g) v v - rsum n (fun i => z i * z i) in
  if Rle_dec res eps then 0 else res.

(** preconditions of a prediction: sizes agree and the solve divides by non-zero numbers *)
Definition mu_ok (g : gp) (v : vec) : bool :=
  dout_pos g && onat_eqb (g_din g) (length v) && (length (mean_at g v) =? oget (g_dout g))%nat
  && (rows (g_alpha g) =? nb_samples g)%nat && (cols (g_alpha g) =? oget (g_dout g))%nat.
Definition sigma_ok (g : gp) (v : vec) : bool :=
  onat_eqb (g_din g) (length v) && (rows (g_L g) =? nb_samples g)%nat && (cols (g_L g) =? nb_samples g)%nat.

(** gp.hpp:172-177 [mu] *)
Definition mu (g : gp) (v : vec) : outcome vec :=
  match g_samples g with
  | [] => check (dout_pos g && onat_eqb (g_din g) (length v)) (Done (mean_at g v))
  | _ => check (mu_ok g v) (Done (mu_ g v (compute_k g v)))
  end.
(** gp.hpp:184-189 [sigma] *)
Definition sigma (g : gp) (v : vec) : outcome R :=
  match g_samples g with
  | [] => check (onat_eqb (g_din g) (length v)) (Done (kop0 K (g_k g) v v + k_noise K (g_k g)))
  | _ => check (sigma_ok g v)
           (if diag_ok (nb_samples g) (at_ (g_L g)) then Done (sigma_ g v (compute_k g v) + k_noise K (g_k g)) else NotFinite)
  end.
(** gp.hpp:159-167 [query] *)
Definition query (g : gp) (v : vec) : outcome (vec * R) :=
  match g_samples g with
  | [] => check (dout_pos g && onat_eqb (g_din g) (length v))
            (Done (mean_at g v, kop0 K (g_k g) v v + k_noise K (g_k g)))
  | _ => check (mu_ok g v && sigma_ok g v)
           (let k := compute_k g v in
            if diag_ok (nb_samples g) (at_ (g_L g)) then Done (mu_ g v k, sigma_ g v k + k_noise K (g_k g)) else NotFinite)
  end.

(** gp.hpp:241-252 [recompute] *)
Definition recompute (g : gp) (update_obs_mean update_full_kernel : bool) : outcome gp :=
  check ((0 <? nb_samples g)%nat)
    (bind (if update_obs_mean then compute_obs_mean g else Done g) (fun g1 =>
     if update_full_kernel then compute_full_kernel g1 else compute_alpha g1)).

(** kernel_function().set_h_params(p) and mean_function().set_h_params(p) on the GP's members
    (gp.hpp:207-213) *)
Definition set_kernel_params (g : gp) (p : vec) : outcome gp :=
  check ((length p =? k_hsize K (g_k g))%nat)
    (Done (with_dims g (g_din g) (g_dout g) (k_set K (g_k g) p) (g_m g))).
Definition set_mean_params (g : gp) (p : vec) : outcome gp :=
  check ((length p =? m_hsize M (g_m g))%nat)
    (Done (with_dims g (g_din g) (g_dout g) (g_k g) (m_set M (g_m g) p))).

(** gp.hpp:254-264 [compute_inv_kernel] *)
Definition compute_inv_kernel (g : gp) : outcome gp :=
  let n := rows (g_obs_mean g) in
  let L := at_ (g_L g) in
  check ((rows (g_L g) =? n)%nat && (cols (g_L g) =? n)%nat)
    (if diag_ok n L then
       Done {| g_din := g_din g; g_dout := g_dout g; g_k := g_k g; g_m := g_m g; g_samples := g_samples g; g_obs := g_obs g;
               g_mean_vector := g_mean_vector g; g_obs_mean := g_obs_mean g; g_alpha := g_alpha g; g_mean_obs := g_mean_obs g;
               g_kernel := g_kernel g;
               g_inv := Mat n n (fun i j => bwd n L (fwd n L (fun k => if (k =? j)%nat then 1 else 0)) i);
               g_L := g_L g; g_inv_updated := true |}
     else NotFinite).
(** gp.hpp:290-292, 319-321, 342-344, 360-362 *)
Definition need_inv (g : gp) : outcome gp := if g_inv_updated g then Done g else compute_inv_kernel g.

Fixpoint all_pos (n : nat) (f : nat -> R) : bool :=
  match n with O => true | S k => all_pos k f && (if Rlt_dec 0 (f k) then true else false) end.

(** gp.hpp:267-282 [compute_log_lik]; [NotFinite] when a logarithm is undefined *)
Definition compute_log_lik (g : gp) : outcome R :=
  let n := rows (g_obs_mean g) in
  let nl := rows (g_L g) in
  check ((rows (g_alpha g) =? n)%nat && (cols (g_alpha g) =? cols (g_obs_mean g))%nat && (cols (g_L g) =? nl)%nat)
    (if all_pos nl (fun i => at_ (g_L g) i i) then
       let logdet := 2 * rsum nl (fun i => ln (at_ (g_L g) i i)) in
       let a := rsum (cols (g_alpha g)) (fun o => rsum n (fun i => at_ (g_obs_mean g) i o * at_ (g_alpha g) i o)) in
       Done (- (1 / 2) * a - 1 / 2 * logdet - 1 / 2 * INR n * ln (2 * PI))
     else NotFinite).

(** gp.hpp:285-311 [compute_kernel_grad_log_lik] *)
Definition compute_kernel_grad_log_lik (g0 : gp) : outcome (gp * vec) :=
  let n := rows (g_obs_mean g0) in
  bind (need_inv g0) (fun g =>
    check ((rows (g_inv g) =? n)%nat && (cols (g_inv g) =? n)%nat && (rows (g_alpha g) =? n)%nat && (n <=? nb_samples g)%nat)
      (let w := fun i j => rsum (cols (g_alpha g)) (fun o => at_ (g_alpha g) i o * at_ (g_alpha g) j o) - at_ (g_inv g) i j in
       Done (g, vec_of (k_hsize K (g_k g)) (fun p =>
         rsum n (fun i => rsum (S i) (fun j =>
           let gr := vget (k_grad K (g_k g) (sample g i) (sample g j) (Z.of_nat i) (Z.of_nat j)) p in
           if (i =? j)%nat then w i j * gr * (1 / 2) else w i j * gr)))))).

(** gp.hpp:314-330 [compute_mean_grad_log_lik]; BaseMean::grad asserts false for the mean functions
    without hyper-parameters (mean/mean.hpp:70-75) *)
Definition compute_mean_grad_log_lik (g0 : gp) : outcome (gp * vec) :=
  let n := rows (g_obs_mean g0) in
  bind (need_inv g0) (fun g =>
    check ((rows (g_inv g) =? n)%nat && (cols (g_inv g) =? n)%nat && (n <=? nb_samples g)%nat && dout_pos g
           && (cols (g_obs_mean g) =? oget (g_dout g))%nat && (0 <? m_hsize M (g_m g))%nat)
      (Done (g, vec_of (m_hsize M (g_m g)) (fun p =>
         rsum (oget (g_dout g)) (fun o => rsum n (fun s =>
           rsum n (fun k => at_ (g_obs_mean g) k o * at_ (g_inv g) k s)
           * vget (nth o (m_grad M (g_m g) (sample g s) (mean_observation g)) []) p)))))).

(** gp.hpp:339-351 [compute_log_loo_cv] *)
Definition compute_log_loo_cv (g0 : gp) : outcome (gp * R) :=
  bind (need_inv g0) (fun g =>
    let n := rows (g_inv g) in
    check ((rows (g_alpha g) =? n)%nat && (cols (g_inv g) =? n)%nat)
      (if all_pos n (fun i => at_ (g_inv g) i i) then
         let inv_diag := fun i => / at_ (g_inv g) i i in
         Done (g, rsum (cols (g_alpha g)) (fun o => rsum n (fun i =>
           - (1 / 2) * (at_ (g_alpha g) i o * at_ (g_alpha g) i o * inv_diag i) - 1 / 2 * ln (inv_diag i) - 1 / 2 * ln (2 * PI))))
       else NotFinite)).

(** gp.hpp:354-402 [compute_kernel_grad_log_loo_cv] *)
Definition compute_kernel_grad_log_loo_cv (g0 : gp) : outcome (gp * vec) :=
  let n := rows (g_obs_mean g0) in
  bind (need_inv g0) (fun g =>
    check ((rows (g_inv g) =? n)%nat && (cols (g_inv g) =? n)%nat && (rows (g_alpha g) =? n)%nat
           && (cols (g_alpha g) =? oget (g_dout g))%nat && (n <=? nb_samples g)%nat)
      (if all_pos n (fun i => at_ (g_inv g) i i) then
         let inv_diag := fun i => / at_ (g_inv g) i i in
         let kg := fun i j => k_grad K (g_k g) (sample g i) (sample g j) (Z.of_nat i) (Z.of_nat j) in
         (* lines 370-382: the lower triangle, then mirrored *)
         let dk := fun i j => if (j <=? i)%nat then kg i j else kg j i in
         Done (g, vec_of (k_hsize K (g_k g)) (fun p =>
           let zeta := fun i j => rsum n (fun m => at_ (g_inv g) i m * vget (dk m j) p) in
           rsum (oget (g_dout g)) (fun o =>
             let zeta_alpha := fun i => rsum n (fun m => zeta i m * at_ (g_alpha g) m o) in
             let zeta_k := fun i => rsum n (fun m => zeta i m * at_ (g_inv g) m i) in
             rsum n (fun i =>
               (at_ (g_alpha g) i o * zeta_alpha i
                - 1 / 2 * ((1 + at_ (g_alpha g) i o * at_ (g_alpha g) i o * inv_diag i) * zeta_k i)) * inv_diag i))))
       else NotFinite)).

(** What [save] writes (gp.hpp:448-460); archives return what was stored (C36, C38) *)
Record archive := {
  ar_kernel : option vec; ar_mean : option vec;
  ar_samples : list vec; ar_obs : mat; ar_L : mat; ar_alpha : mat }.
Definition save (g : gp) : archive := {|
  ar_kernel := if (0 <? k_hsize K (g_k g))%nat then Some (k_hparams K (g_k g)) else None;
  ar_mean := if (0 <? m_hsize M (g_m g))%nat then Some (m_hparams M (g_m g)) else None;
  ar_samples := g_samples g; ar_obs := g_obs g; ar_L := g_L g; ar_alpha := g_alpha g |}.

(** gp.hpp:476-511 [load] into the GP [g]; a missing file exits the program (Undefined here) *)
Definition load (g : gp) (a : archive) (recomp : bool) : outcome gp :=
  match ar_samples a with
  | [] => Undefined
  | s0 :: _ =>
      let din := length s0 in
      let k0 := k_new K din in
      let dout := cols (ar_obs a) in
      let m0 := m_new M dout in
      bind (if (0 <? k_hsize K k0)%nat then
              match ar_kernel a with
              | Some p => check ((length p =? k_hsize K k0)%nat) (Done (k_set K k0 p))
              | None => Undefined
              end else Done k0) (fun k =>
      bind (if (0 <? m_hsize M m0)%nat then
              match ar_mean a with
              | Some p => check ((length p =? m_hsize M m0)%nat) (Done (m_set M m0 p))
              | None => Undefined
              end else Done m0) (fun m =>
      let g1 := with_data (with_dims g (Some din) (Some dout) k m) (ar_samples a) (ar_obs a) in
      if recomp then recompute g1 true true
      else Done {| g_din := g_din g1; g_dout := g_dout g1; g_k := g_k g1; g_m := g_m g1; g_samples := g_samples g1;
                   g_obs := g_obs g1; g_mean_vector := g_mean_vector g1; g_obs_mean := g_obs_mean g1;
                   g_alpha := ar_alpha a; g_mean_obs := g_mean_obs g1; g_kernel := g_kernel g1; g_inv := g_inv g1;
                   g_L := ar_L a; g_inv_updated := g_inv_updated g1 |}))
  end.
End GP.
