(** Model of limbo's multi-output Gaussian process (/repo/src/limbo/model/multi_gp.hpp) over the real
    numbers.  [mg_compute_by], [mg_add_sample_by], [mg_recompute_by] are the member functions for any [GPClass] whose
    objects have the state of model::GP (given by its [compute] and [add_sample]); [mg_compute], ... are those with
    [GPClass] = model::GP.  [_hp_optimize] is not part of the state (it has none). *)
From Coq Require Import Reals List Bool ZArith.
From Verif Require Import LinAlgModel KernelModel GPModel.
Import ListNotations.
Open Scope R_scope.

(** [v[i] = a] *)
Definition lput {A} (i : nat) (a : A) (l : list A) : list A := firstn i l ++ a :: skipn (S i) l.

(** tools/parallel.hpp:137-151 [par::loop]: the iterations are executed in the order [order], the
    [i]-th one touches the [i]-th element of [l] only; an element out of range is undefined behaviour *)
Fixpoint par_each {A} (order : list nat) (f : nat -> A -> outcome A) (l : list A) : outcome (list A) :=
  match order with
  | [] => Done l
  | i :: r => match nth_error l i with
              | None => Undefined
              | Some a => bind (f i a) (fun a' => par_each r f (lput i a' l))
              end
  end.

Section MultiGP.
Variable K : Kern.
Variable M : Mean.

(** multi_gp.hpp:63 [GP_t]: the mean of the inner GPs is NullFunction *)
Definition gp1 : Type := gp K NullFunction.
(** multi_gp.hpp:392-399 *)
Record mgp := {
  mg_gps : list gp1;
  mg_din : option nat; mg_dout : option nat;
  mg_m : mst M;
  mg_obs : list vec;
  mg_mean_obs : vec }.

(** multi_gp.hpp:66 *)
Definition mgp_default : mgp :=
  {| mg_gps := []; mg_din := None; mg_dout := None; mg_m := m_new M 1; mg_obs := []; mg_mean_obs := [] |}.
(** multi_gp.hpp:75, 98, 150: GP_t(_dim_in, 1) for every output *)
Definition new_gps (din dout : nat) : list gp1 := repeat (gp_new K NullFunction din 1) dout.
(** multi_gp.hpp:69-77 *)
Definition mgp_new (din dout : nat) : mgp :=
  {| mg_gps := new_gps din dout; mg_din := Some din; mg_dout := Some dout; mg_m := m_new M dout; mg_obs := []; mg_mean_obs := [] |}.

(** multi_gp.hpp:295-300 [mean_observation]; [assert(_dim_out > 0)] is checked by the callers *)
Definition mg_mean_observation (g : mgp) : vec :=
  match mg_obs g with [] => repeat 0 (oget (mg_dout g)) | _ => mg_mean_obs g end.
Definition mg_dout_pos (g : mgp) : bool := (0 <? oget (mg_dout g))%nat.
Definition mg_mean_at (g : mgp) (v : vec) : vec := m_val M (mg_m g) v (mg_mean_observation g).

(** multi_gp.hpp:108-112, 164-167: sum of the observations divided by their number *)
Definition average (p : nat) (obs : list vec) : vec :=
  let s := fold_left (fun acc o => vec_of p (fun i => vget acc i + vget o i)) obs (repeat 0 p) in
  vec_of p (fun i => vget s i / INR (length obs)).

(** multi_gp.hpp:80-127 [compute]; [inner i]: GPClass::compute, called for the [i]-th output;
    [order]: the order in which the loop of line 124 runs *)
Definition mg_compute_by (inner : nat -> gp1 -> list vec -> list vec -> bool -> outcome gp1) (order : list nat) (g : mgp) (samples observations : list vec) (compute_kernel : bool) : outcome mgp :=
  match samples, observations with
  | s0 :: _, o0 :: _ =>
      check ((length samples =? length observations)%nat)
        (let p := length o0 in
         let '(dout, m) := if onat_eqb (mg_dout g) p then (mg_dout g, mg_m g) else (Some p, m_new M p) in
         let gps := if (length (mg_gps g) =? p)%nat then mg_gps g else new_gps (length s0) p in
         check (forallb (fun o => (length o =? p)%nat) observations)
           (let g1 := {| mg_gps := gps; mg_din := Some (length s0); mg_dout := dout; mg_m := m;
                         mg_obs := observations; mg_mean_obs := average p observations |} in
            check (mg_dout_pos g1 && forallb (fun s => (length (mg_mean_at g1 s) =? p)%nat) samples)
              (let obs := fun i => map (fun so => [vget (snd so) i - vget (mg_mean_at g1 (fst so)) i]) (combine samples observations) in
               bind (par_each order (fun i a => inner i a samples (obs i) compute_kernel) gps) (fun gps' =>
               Done {| mg_gps := gps'; mg_din := mg_din g1; mg_dout := mg_dout g1; mg_m := mg_m g1; mg_obs := mg_obs g1;
                       mg_mean_obs := mg_mean_obs g1 |}))))
  | _, _ => Undefined
  end.

Definition mg_compute : list nat -> mgp -> list vec -> list vec -> bool -> outcome mgp := mg_compute_by (fun _ => compute K NullFunction).

(** multi_gp.hpp:141-175 [add_sample]; [inner i]: GPClass::add_sample, called for the [i]-th output *)
Definition mg_add_sample_by (inner : nat -> gp1 -> vec -> vec -> outcome gp1) (order : list nat) (g : mgp) (s o : vec) : outcome mgp :=
  let p := length o in
  let g1 := match mg_gps g with
            | [] => let '(dout, gps, m) := if onat_eqb (mg_dout g) p then (mg_dout g, [], mg_m g)
                                           else (Some p, new_gps (length s) p, m_new M p) in
                    {| mg_gps := gps; mg_din := Some (length s); mg_dout := dout; mg_m := m; mg_obs := mg_obs g; mg_mean_obs := mg_mean_obs g |}
            | _ => g
            end in
  let obs := mg_obs g1 ++ [o] in
  (* lines 156-159; line 166: [array() +=] asserts equal sizes *)
  check (onat_eqb (mg_din g1) (length s) && onat_eqb (mg_dout g1) p && forallb (fun o => (length o =? p)%nat) obs)
    (let g2 := {| mg_gps := mg_gps g1; mg_din := mg_din g1; mg_dout := mg_dout g1; mg_m := mg_m g1;
                  mg_obs := obs; mg_mean_obs := average p obs |} in
     check (mg_dout_pos g2 && (length (mg_mean_at g2 s) =? p)%nat)
       (bind (par_each order (fun i a => inner i a s [vget o i - vget (mg_mean_at g2 s) i]) (mg_gps g2))
          (fun gps' =>
           Done {| mg_gps := gps'; mg_din := mg_din g2; mg_dout := mg_dout g2; mg_m := mg_m g2; mg_obs := mg_obs g2;
                   mg_mean_obs := mg_mean_obs g2 |}))).

(** [j1 i], [j2 i]: new coefficients of the matrices of the [i]-th GP *)
Definition mg_add_sample (j1 j2 : nat -> nat -> nat -> R) : list nat -> mgp -> vec -> vec -> outcome mgp :=
  mg_add_sample_by (fun i => add_sample K NullFunction (j1 i) (j2 i)).

(** multi_gp.hpp:182-198 [query]; [junk]: the vectors [mu] and [sigma] are not initialised *)
Definition mg_query (junk : R * R) (order : list nat) (g : mgp) (v : vec) : outcome (vec * vec) :=
  match mg_dout g with
  | None => Undefined
  | Some p =>
      check (mg_dout_pos g && (length (mg_mean_at g v) =? p)%nat)
        (bind (par_each order (fun i _ =>
                 match nth_error (mg_gps g) i with
                 | None => Undefined
                 | Some a => bind (query K NullFunction a v) (fun ms =>
                             check ((0 <? length (fst ms))%nat) (Done (vget (fst ms) 0 + vget (mg_mean_at g v) i, snd ms)))
                 end) (repeat junk p)) (fun l => Done (map fst l, map snd l)))
  end.
(** multi_gp.hpp:205-215 [mu] *)
Definition mg_mu (junk : R) (order : list nat) (g : mgp) (v : vec) : outcome vec :=
  match mg_dout g with
  | None => Undefined
  | Some p =>
      check (mg_dout_pos g && (length (mg_mean_at g v) =? p)%nat)
        (par_each order (fun i _ =>
           match nth_error (mg_gps g) i with
           | None => Undefined
           | Some a => bind (mu K NullFunction a v) (fun m =>
                       check ((0 <? length m)%nat) (Done (vget m 0 + vget (mg_mean_at g v) i)))
           end) (repeat junk p))
  end.
(** multi_gp.hpp:222-231 [sigma] *)
Definition mg_sigma (junk : R) (order : list nat) (g : mgp) (v : vec) : outcome vec :=
  match mg_dout g with
  | None => Undefined
  | Some p => par_each order (fun i _ => match nth_error (mg_gps g) i with None => Undefined | Some a => sigma K NullFunction a v end)
                (repeat junk p)
  end.

(** multi_gp.hpp:254-266 [recompute]; no [GPClass] of limbo redefines GP::recompute *)
Definition mg_recompute_by (inner : nat -> gp1 -> list vec -> list vec -> bool -> outcome gp1) (order : list nat) (g : mgp) (update_obs_mean update_full_kernel : bool) : outcome mgp :=
  match mg_gps g with
  | [] => Done g
  | a0 :: _ =>
      if update_obs_mean then mg_compute_by inner order g (g_samples K NullFunction a0) (mg_obs g) update_full_kernel
      else bind (par_each order (fun _ a => recompute K NullFunction a false update_full_kernel) (mg_gps g)) (fun gps' =>
           Done {| mg_gps := gps'; mg_din := mg_din g; mg_dout := mg_dout g; mg_m := mg_m g; mg_obs := mg_obs g; mg_mean_obs := mg_mean_obs g |})
  end.

Definition mg_recompute : list nat -> mgp -> bool -> bool -> outcome mgp := mg_recompute_by (fun _ => compute K NullFunction).

(** gp_models()[i].kernel_function().set_h_params(p) (multi_gp.hpp:309, gp.hpp:209) and
    mean_function().set_h_params(p) (multi_gp.hpp:137) *)
Definition mg_set_kernel_params (i : nat) (g : mgp) (p : vec) : outcome mgp :=
  match nth_error (mg_gps g) i with
  | None => Undefined
  | Some a => bind (set_kernel_params K NullFunction a p) (fun a' =>
      Done {| mg_gps := lput i a' (mg_gps g); mg_din := mg_din g; mg_dout := mg_dout g; mg_m := mg_m g; mg_obs := mg_obs g;
              mg_mean_obs := mg_mean_obs g |})
  end.
Definition mg_set_mean_params (g : mgp) (p : vec) : outcome mgp :=
  check ((length p =? m_hsize M (mg_m g))%nat)
    (Done {| mg_gps := mg_gps g; mg_din := mg_din g; mg_dout := mg_dout g; mg_m := m_set M (mg_m g) p; mg_obs := mg_obs g;
             mg_mean_obs := mg_mean_obs g |}).

(** What [save] writes (multi_gp.hpp:324-339); one directory for every inner GP *)
Record mg_archive := {
  ma_dims : option nat * option nat; ma_obs : list vec; ma_mean : option vec; ma_gps : list archive }.
Definition mg_save (g : mgp) : outcome mg_archive :=
  match mg_dout g with
  | None => Done {| ma_dims := (mg_din g, mg_dout g); ma_obs := mg_obs g;
                    ma_mean := if (0 <? m_hsize M (mg_m g))%nat then Some (m_hparams M (mg_m g)) else None; ma_gps := [] |}
  | Some p =>
      check ((p <=? length (mg_gps g))%nat)
        (Done {| ma_dims := (mg_din g, mg_dout g); ma_obs := mg_obs g;
                 ma_mean := if (0 <? m_hsize M (mg_m g))%nat then Some (m_hparams M (mg_m g)) else None;
                 ma_gps := map (save K NullFunction) (firstn p (mg_gps g)) |})
  end.

(** multi_gp.hpp:376-381: the [i]-th inner GP, default-constructed if it did not exist, is loaded *)
Fixpoint load_gps (gps : list gp1) (l : list archive) : outcome (list gp1) :=
  match l with
  | [] => Done []
  | a :: r =>
      let '(g, gs) := match gps with g :: gs => (g, gs) | [] => (gp_default K NullFunction, []) end in
      bind (load K NullFunction g a false) (fun g' => bind (load_gps gs r) (fun gs' => Done (g' :: gs')))
  end.
(** multi_gp.hpp:355-390 [load] into [g].  Loading an empty list of observations, or a missing file, exits
    or is undefined (Undefined here, see C38) *)
Definition mg_load (order : list nat) (g : mgp) (a : mg_archive) (recomp : bool) : outcome mgp :=
  match ma_dims a with
  | (Some din, Some p) =>
      check ((0 <? length (ma_obs a))%nat && forallb (fun o => (length o =? p)%nat) (ma_obs a) && (length (ma_gps a) =? p)%nat)
        (let m0 := m_new M p in
         bind (if (0 <? m_hsize M m0)%nat then
                 match ma_mean a with
                 | Some h => check ((length h =? m_hsize M m0)%nat) (Done (m_set M m0 h))
                 | None => Undefined
                 end else Done m0) (fun m =>
         bind (load_gps (mg_gps g) (ma_gps a)) (fun gps =>
         let g1 := {| mg_gps := gps; mg_din := Some din; mg_dout := Some p; mg_m := m; mg_obs := ma_obs a;
                      mg_mean_obs := average p (ma_obs a) |} in
         if recomp then mg_recompute order g1 true true else Done g1)))
  | _ => Undefined
  end.
End MultiGP.
