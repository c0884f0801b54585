(** C32 in binary64: whatever the rounding errors of the GP computations, KernelLFOpt with Rprop does not
    return hyper-parameters with a lower computed likelihood than the starting ones. *)
From Coq Require Import List ZArith Bool Lia.
From Verif Require Import F64 OptModel Prop_Opt.
Import ListNotations.

(** model/gp/kernel_lf_opt.hpp:58-91 on an arbitrary GP object: reading and setting the parameters,
    recompute(false), compute_log_lik() and compute_kernel_grad_log_lik() are arbitrary functions of its
    state (the same code on the same state gives the same result; copies are values). *)
Section FloatGP.
Variable gp : Type.
Variable h_params : gp -> vec.
Variable set_h_params : gp -> vec -> gp.
Variable recompute : gp -> gp.
Variable log_lik : gp -> F.
Variable grad : gp -> vec.
Variable norm : vec -> F.

Definition klf_eval (g : gp) (p : vec) : F * option vec :=
  let g1 := recompute (set_h_params g p) in (log_lik g1, Some (grad g1)).
Definition klf (eps_stop : F) (iterations : Z) (g : gp) : option gp :=
  match rprop (fun _ => klf_eval g) norm eps_stop false iterations (h_params g) with
  | Some (p, _) => Some (recompute (set_h_params g p))
  | None => None
  end.
(** [recompute (set_h_params g (h_params g))]: the GP with its current parameters, recomputed *)
Theorem C32_float_never_lower eps_stop iterations g g' :
  klf eps_stop iterations g = Some g' ->
  flt (log_lik g') (log_lik (recompute (set_h_params g (h_params g)))) = false /\
  exists p, g' = recompute (set_h_params g p).
Proof.
  unfold klf. destruct (rprop _ _ _ _ _ _) as [[p tr]|] eqn:E; [|discriminate]. intro H. injection H as <-. split; [|eauto].
  destruct (Z_lt_le_dec 0 iterations) as [Hi|Hi].
  - pose proof (C14_rprop_never_worse_than_start (klf_eval g) norm eps_stop false iterations (h_params g) p tr Hi E) as H. exact H.
  - unfold rprop in E. replace (Z.to_nat iterations) with O in E by lia. cbn [rprop_loop] in E.
    injection E as <- _. cbn [clamp]. apply flt_irrefl.
Qed.
(** it is defined when the gradient has the size of the parameters *)
Theorem C32_float_defined eps_stop iterations g :
  (forall p, length p = length (h_params g) -> length (grad (recompute (set_h_params g p))) = length (h_params g)) ->
  exists g', klf eps_stop iterations g = Some g'.
Proof.
  intro H. unfold klf, rprop.
  assert (A : forall k i gold delta p best bp tr, length gold = length (h_params g) -> length delta = length (h_params g) -> length p = length (h_params g) ->
    exists q t, rprop_loop (fun _ => klf_eval g) norm eps_stop false k i gold delta p best bp tr = Some (q, t)).
  { induction k as [|k IH]; intros i gold delta p best bp tr H1 H2 H3; cbn [rprop_loop]; [eauto|].
    cbn [klf_eval]. rewrite H, H1, Nat.eqb_refl by exact H3. cbn [negb].
    destruct (if flt best _ then _ else _) as [b' bp'].
    assert (L : forall gold gr delta p n, length gold = n -> length gr = n -> length delta = n -> length p = n ->
      let '(ds, gs, ps) := rprop_coords false gold gr delta p in length ds = n /\ length gs = n /\ length ps = n).
    { clear. induction gold as [|go gold IH]; intros gr delta p n H1 H2 H3 H4; destruct gr as [|gj gr]; destruct delta as [|d delta]; destruct p as [|pj p];
      cbn in H1, H2, H3, H4; try (exfalso; lia); [cbn; lia|]. destruct n as [|n]; [discriminate|].
      specialize (IH gr delta p n ltac:(lia) ltac:(lia) ltac:(lia) ltac:(lia)). cbn [rprop_coords].
      destruct (rprop_coord _ _ _ _) as [[d1 g1] p1]. destruct (rprop_coords _ gold gr delta p) as [[ds gs] ps]. cbn. lia. }
    specialize (L gold (map fopp (grad (recompute (set_h_params g p)))) delta p (length (h_params g)) H1).
    rewrite map_length, H in L by exact H3. specialize (L eq_refl H2 H3).
    destruct (rprop_coords _ _ _ _ _) as [[d' g''] p']. destruct L as (L1 & L2 & L3).
    destruct (flt _ eps_stop); eauto. }
  destruct (A (Z.to_nat iterations) 0 (repeat f0 (length (h_params g))) (repeat (fmul f1 delta0) (length (h_params g))) (clamp false (h_params g)) fninf (clamp false (h_params g)) [])
    as (q & t & E); try apply repeat_length; [reflexivity|]. rewrite E. eauto.
Qed.
End FloatGP.
(** a toy GP: two parameters, likelihood with a maximum *)
Example C32_float_example :
  let q := fdiv f1 (fofZ 4) in
  let lik := fun p : vec => match p with [a; b] => fopp (fadd (fmul (fsub a q) (fsub a q)) (fmul b b)) | _ => fnan end in
  let gr := fun p : vec => match p with [a; b] => [fmul (fofZ (-2)) (fsub a q); fmul (fofZ (-2)) b] | _ => [] end in
  match klf vec (fun g => g) (fun _ p => p) (fun g => g) lik gr (fun _ => f1) f0 20 [fofZ 2; fofZ 1] with
  | Some g' => flt (lik [fofZ 2; fofZ 1]) (lik g')
  | None => false end = true.
Proof. vm_compute. reflexivity. Qed.
