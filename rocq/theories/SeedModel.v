(** Model of [randutils::seed_seq_fe<count, uint32_t, mix_rounds>]
    (/repo/src/external/rand_utils.hpp:212-390), used by limbo's random generators
    (tools/random_generator.hpp:77-84, 177).  32-bit words are numbers in [0, 2^32). *)
From Coq Require Import ZArith List Bool.
Import ListNotations.
Open Scope Z_scope.

Definition W32 : Z := 2 ^ 32.
Definition wmul (a b : Z) : Z := (a * b) mod W32.
Definition wadd (a b : Z) : Z := (a + b) mod W32.
Definition wsub (a b : Z) : Z := (a - b) mod W32.

(** lines 221-230 *)
Definition INIT_A : Z := 0x43b0d7e5.
Definition MULT_A : Z := 0x931e8875.
Definition INIT_B : Z := 0x8b51f9dd.
Definition MULT_B : Z := 0x58f38ded.
Definition MIX_MULT_L : Z := 0xca01f9dd.
Definition MIX_MULT_R : Z := 0x4973f715.
Definition XSHIFT : Z := 16.

(** [v ^= v >> XSHIFT] *)
Definition xorshift (v : Z) : Z := Z.lxor v (Z.shiftr v XSHIFT).

(** lines 232-244 [fast_exp]; the loop on the bits of [power] *)
Fixpoint fast_exp_loop (power : positive) (multiplier result : Z) : Z :=
  match power with
  | xH => wmul result multiplier
  | xO p => fast_exp_loop p (wmul multiplier multiplier) (wmul result 1)
  | xI p => fast_exp_loop p (wmul multiplier multiplier) (wmul result multiplier)
  end.
Definition fast_exp (x power : Z) : Z :=
  match power with Zpos p => fast_exp_loop p x 1 | _ => 1 end.

(** [mixer_], as a list of [count] words *)
Definition get (m : list Z) (i : nat) : Z := nth i m 0.
Fixpoint put (m : list Z) (i : nat) (v : Z) : list Z :=
  match m, i with
  | [], _ => []
  | _ :: r, O => v :: r
  | x :: r, S k => x :: put r k v
  end.

(** lines 301-307: [hash], returning the new [hash_const] too *)
Definition hash (h value : Z) : Z * Z :=
  let v := Z.lxor value h in
  let h' := wmul h MULT_A in
  (xorshift (wmul v h'), h').

(** lines 308-312 *)
Definition mix (x y : Z) : Z := xorshift (wsub (wmul MIX_MULT_L x) (wmul MIX_MULT_R y)).

(** lines 314-320: the first loop over [count] elements; missing inputs are 0 *)
Fixpoint mix_first (count : nat) (inp : list Z) (h : Z) : list Z * list Z * Z :=
  match count with
  | O => ([], inp, h)
  | S k =>
      let '(v, rest) := match inp with [] => (0, []) | x :: r => (x, r) end in
      let '(e, h1) := hash h v in
      let '(es, more, h2) := mix_first k rest h1 in
      (e :: es, more, h2)
  end.

(** lines 321-324: body of the double loop *)
Definition mix_pair (st : list Z * Z) (src dest : nat) : list Z * Z :=
  if (src =? dest)%nat then st else
  let '(m, h) := st in
  let '(hv, h1) := hash h (get m src) in
  (put m dest (mix (get m dest) hv), h1).

Definition mix_second (count : nat) (st : list Z * Z) : list Z * Z :=
  fold_left (fun st src => fold_left (fun st dest => mix_pair st src dest) (seq 0 count) st) (seq 0 count) st.

(** lines 325-327: what is left of the input *)
Definition mix_third (count : nat) (more : list Z) (st : list Z * Z) : list Z * Z :=
  fold_left (fun st x => fold_left (fun st dest =>
    let '(m, h) := st in let '(hv, h1) := hash h x in (put m dest (mix (get m dest) hv), h1)) (seq 0 count) st) more st.

(** lines 297-328 [mix_entropy] *)
Definition mix_entropy (count : nat) (inp : list Z) : list Z :=
  let '(m, more, h) := mix_first count inp INIT_A in
  fst (mix_third count more (mix_second count (m, h))).

(** lines 279-288 [seed], lines 290-294 [stir] (the input iterators then point into [mixer_]
    itself, each word being read just before it is overwritten) *)
Fixpoint stir (n count : nat) (m : list Z) : list Z :=
  match n with O => m | S k => stir k count (mix_entropy count m) end.
Definition seed (count mix_rounds : nat) (inp : list Z) : list Z :=
  stir (mix_rounds - 1) count (mix_entropy count inp).

(** lines 334-335 *)
Definition INV_A : Z := fast_exp MULT_A (W32 - 1).
Definition MIX_INV_L : Z := fast_exp MIX_MULT_L (W32 - 1).

(** lines 342-356 *)
Definition unmix_pair (st : list Z * Z) (src dest : nat) : list Z * Z :=
  if (src =? dest)%nat then st else
  let '(m, h) := st in
  let h1 := wmul h INV_A in
  let revhashed := xorshift (wmul (Z.lxor (get m src) h1) h) in
  let unmixed := wmul (wadd (xorshift (get m dest)) (wmul MIX_MULT_R revhashed)) MIX_INV_L in
  (put m dest unmixed, h1).

Definition unmix_second (count : nat) (st : list Z * Z) : list Z * Z :=
  fold_left (fun st src => fold_left (fun st dest => unmix_pair st src dest) (rev (seq 0 count)) st)
    (rev (seq 0 count)) st.

(** lines 357-364, over the words in reverse order *)
Fixpoint unhash_rev (l : list Z) (h : Z) : list Z :=
  match l with
  | [] => []
  | x :: r =>
      let u := wmul (xorshift x) (fast_exp h (W32 - 1)) in
      let h1 := wmul h INV_A in
      Z.lxor u h1 :: unhash_rev r h1
  end.

(** lines 338-365: one round *)
Definition unmix_entropy (count : nat) (m : list Z) : list Z :=
  let h := wmul INIT_A (fast_exp MULT_A (Z.of_nat count * Z.of_nat count mod W32)) in
  let '(m1, h1) := unmix_second count (m, h) in
  rev (unhash_rev (rev m1) h1).

(** lines 330-367 [param] *)
Fixpoint param (mix_rounds count : nat) (m : list Z) : list Z :=
  match mix_rounds with O => m | S k => param k count (unmix_entropy count m) end.

(** lines 369-388 [generate]: [n] words; [i] = position in [mixer_] *)
Fixpoint generate_from (n : nat) (m : list Z) (i : nat) (h : Z) : list Z :=
  match n with
  | O => []
  | S k =>
      let dataval := Z.lxor (get m i) h in
      let h1 := wmul h MULT_B in
      xorshift (wmul dataval h1)
        :: generate_from k m (if (S i =? length m)%nat then O else S i) h1
  end.
Definition generate (n : nat) (m : list Z) : list Z := generate_from n m 0 INIT_B.
