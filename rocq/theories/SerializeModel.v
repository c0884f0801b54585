(** Model of the archives of /repo/src/limbo/serialize. *)
From Coq Require Import ZArith List Bool Ascii.
Import ListNotations.
Open Scope Z_scope.

(** * Binary archive: serialize/binary_archive.hpp
    A file is a list of bytes (numbers in [0, 256)); a double is its 64-bit pattern, so that
    NaN payloads and signed zeros are visible.  The machine is little-endian with 4-byte [int]
    and 8-byte [Eigen::Index] and [double].  A byte that was never written is [None]. *)

(** the [n] low bytes of [z], least significant first *)
Fixpoint le_bytes (n : nat) (z : Z) : list Z :=
  match n with O => [] | S k => z mod 256 :: le_bytes k (z / 256) end.
Fixpoint of_bytes (l : list Z) : Z :=
  match l with [] => 0 | b :: r => b + 256 * of_bytes r end.
(** two's complement reading of an unsigned number on [n] bytes *)
Definition to_signed (n : nat) (u : Z) : Z :=
  if u <? 2 ^ (8 * Z.of_nat n - 1) then u else u - 2 ^ (8 * Z.of_nat n).

(** an Eigen matrix: dimensions and coefficients in storage order *)
Record matrix : Type := mkMat { rows : Z; cols : Z; coefs : list Z }.

(** lines 144-151 [_write_binary] *)
Definition write_binary (m : matrix) : list Z :=
  le_bytes 8 (rows m) ++ le_bytes 8 (cols m) ++ flat_map (le_bytes 8) (coefs m).

(** lines 68-75 [save(matrix)]: the bytes of the file *)
Definition save_matrix (m : matrix) : list Z := write_binary m.

(** lines 78-94 [save(vector)]; [int size = v.size()] *)
Definition save_list (l : list matrix) : list Z :=
  le_bytes 4 (Z.of_nat (length l)) ++ flat_map write_binary l.

(** an input stream: what is left and whether it is still good *)
Record stream : Type := mkStream { left : list Z; good : bool }.

(** [in.read(p, n)] on the [n] bytes [old] at [p]: a short read stores what there is and sets
    eofbit and failbit, after which reads do nothing *)
Definition read (n : nat) (s : stream) (old : list (option Z)) : list (option Z) * stream :=
  if good s then
    if (n <=? length (left s))%nat
    then (map Some (firstn n (left s)), mkStream (skipn n (left s)) true)
    else (map Some (left s) ++ skipn (length (left s)) old, mkStream [] false)
  else (old, s).

Fixpoint all_some {A} (l : list (option A)) : option (list A) :=
  match l with
  | [] => Some []
  | Some a :: r => match all_some r with Some r' => Some (a :: r') | None => None end
  | None :: _ => None
  end.

(** value of an [n]-byte signed integer; [None]: indeterminate *)
Definition int_value (n : nat) (l : list (option Z)) : option Z :=
  match all_some l with Some bs => Some (to_signed n (of_bytes bs)) | None => None end.

(** a loaded matrix may have indeterminate coefficients *)
Record loaded : Type := mkLoaded { lrows : Z; lcols : Z; lcoefs : list (option Z) }.

(** group bytes into doubles *)
Fixpoint words (k : nat) (l : list (option Z)) : list (option Z) :=
  match k with
  | O => []
  | S k' => match all_some (firstn 8 l) with Some bs => Some (of_bytes bs) | None => None end
            :: words k' (skipn 8 l)
  end.

Inductive lres (T : Type) : Type :=
| LOk : T -> lres T
| LAssert : lres T         (* an assertion of the library or of Eigen fails *)
| LThrow : lres T          (* std::bad_alloc *)
| LUB : lres T.            (* an indeterminate value decides the control flow *)
Arguments LOk {T} _. Arguments LAssert {T}. Arguments LThrow {T}. Arguments LUB {T}.

Section Load.
  (** can a matrix of that many coefficients be allocated? *)
  Variable alloc_ok : Z -> bool.
  (** the destination is a column vector type (Eigen::VectorXd) *)
  Variable isvec : bool.

  (** lines 153-161 [_read_binary]; new storage is indeterminate *)
  Definition read_binary (s : stream) : lres (loaded * stream) :=
    let '(br, s1) := read 8 s (map Some (le_bytes 8 0)) in
    let '(bc, s2) := read 8 s1 (map Some (le_bytes 8 0)) in
    match int_value 8 br, int_value 8 bc with
    | Some r, Some c =>
        if (r <? 0) || (c <? 0) || (isvec && negb (c =? 1)) then LAssert   (* Eigen's resize *)
        else if negb (alloc_ok (r * c)) then LThrow
        else let n := Z.to_nat (r * c) in
             let '(d, s3) := read (8 * n) s2 (repeat None (8 * n)) in
             LOk (mkLoaded r c (words n d), s3)
    | _, _ => LUB
    end.

  (** lines 97-103 [load(matrix)] *)
  Definition load_matrix (file : list Z) : lres loaded :=
    match read_binary (mkStream file true) with
    | LOk (m, _) => LOk m
    | LAssert => LAssert | LThrow => LThrow | LUB => LUB
    end.

  Fixpoint load_loop (k : nat) (s : stream) : lres (list loaded) :=
    match k with
    | O => LOk []
    | S k' =>
        match read_binary s with
        | LOk (m, s') =>
            match load_loop k' s' with
            | LOk l => LOk (m :: l)
            | r => r
            end
        | LAssert => LAssert | LThrow => LThrow | LUB => LUB
        end
    end.

  (** lines 106-123 [load(vector)]; [int size;] is not initialised *)
  Definition load_list (file : list Z) : lres (list loaded) :=
    let '(bs, s) := read 4 (mkStream file true) (repeat None 4) in
    match int_value 4 bs with
    | None => LUB
    | Some size =>
        match load_loop (Z.to_nat size) s with
        | LOk [] => LAssert
        | r => r
        end
    end.
End Load.

(** * Text archive: serialize/text_archive.hpp *)
Definition text := list ascii.
Definition sp : ascii := " "%char.
Definition nl : ascii := Ascii.ascii_of_nat 10.

Fixpoint join (sep : ascii) (l : list text) : text :=
  match l with
  | [] => []
  | [a] => a
  | a :: r => a ++ sep :: join sep r
  end.

(** [std::getline] until the end: the pieces ended by [sep], and the last one if it is not empty *)
Fixpoint split_lines (sep : ascii) (cur : text) (l : text) : list text :=
  match l with
  | [] => match cur with [] => [] | _ => [rev cur] end
  | c :: r => if Ascii.eqb c sep then rev cur :: split_lines sep [] r else split_lines sep (c :: cur) r
  end.

Section Text.
  Context {D : Type}.
  (** operator<< on a double at the precision of the format, and [std::stod];
      [None]: std::invalid_argument or std::out_of_range *)
  Variable print : D -> text.
  Variable stod : text -> option D.

  (** lines 70-75 [save(matrix)] and Eigen's [print_matrix]: a matrix without coefficients prints
      nothing; [tm] lists the rows, [c] is the number of columns *)
  Definition save_text (c : nat) (tm : list (list D)) : text :=
    (match tm, c with
     | [], _ | _, O => []
     | _, _ => join nl (map (fun row => join sp (map print row)) tm)
     end) ++ [nl].

  (** lines 78-85 [save(vector)] *)
  Definition save_text_list (l : list (list D)) : text :=
    flat_map (fun v => save_text (length v) [v]) l.

  Inductive tres (T : Type) : Type :=
  | TOk : T -> tres T
  | TAssert : tres T
  | TThrow : tres T
  | TUB : tres T.
  Arguments TOk {T} _. Arguments TAssert {T}. Arguments TThrow {T}. Arguments TUB {T}.

  Fixpoint stods (l : list text) : option (list D) :=
    match l with
    | [] => Some []
    | a :: r => match stod a, stods r with Some x, Some r' => Some (x :: r') | _, _ => None end
    end.
  Fixpoint stods_lines (l : list text) : option (list (list D)) :=
    match l with
    | [] => Some []
    | a :: r => match stods (split_lines sp [] a), stods_lines r with
                | Some x, Some r' => Some (x :: r') | _, _ => None end
    end.

  (** lines 134-150 [_load] *)
  Definition load_text_values (file : text) : tres (list (list D)) :=
    match stods_lines (split_lines nl [] file) with
    | None => TThrow
    | Some [] => TAssert
    | Some v => TOk v
    end.

  (** lines 89-96 [load(matrix)]: rows x (length of the first row), coefficient (i,j) written for
      every j of line i; [None]: coefficient never written.  A longer line writes out of range. *)
  Definition load_text (file : text) : tres (nat * list (list (option D))) :=
    match load_text_values file with
    | TOk v =>
        let c := length (hd [] v) in
        if forallb (fun l => (length l <=? c)%nat) v
        then TOk (c, map (fun l => map Some l ++ repeat None (c - length l)) v)
        else TUB
    | TAssert => TAssert | TThrow => TThrow | TUB => TUB
    end.

  (** lines 99-112 [load(vector)] *)
  Definition load_text_list (file : text) : tres (list (list D)) := load_text_values file.
End Text.
Arguments TOk {T} _. Arguments TAssert {T}. Arguments TThrow {T}. Arguments TUB {T}.
