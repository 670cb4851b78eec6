(** Byte-level readers and writers shared by the binary and text formats.

    rustfst/src/parsers/{utils_parsing,utils_serialization,nom_utils}.rs and
    rustfst/src/parsers/bin_fst/fst_header.rs (OpenFstString 44-48, 139-163).
    A byte is an [N] below 256, a string is its list of UTF-8 bytes, a nom parser maps the
    input to [Ok (value, rest)], [Err] (a nom error) or [Panic]. *)
From Coq Require Import List Arith NArith ZArith Bool.
From Verif Require Import Base.Util.
Import ListNotations.
Local Open Scope N_scope.

Definition bytes := list N.
Definition parser (A : Type) := bytes -> res (A * bytes).

Definition pbind {A B} (r : res (A * bytes)) (f : A -> bytes -> res B) : res B :=
  match r with Ok (a, i) => f a i | Err => Err | Panic => Panic end.
Notation "a & i <~ e ;; k" := (pbind e (fun a i => k))
  (at level 61, i name, e at next level, right associativity).
Definition pret {A} (a : A) : parser A := fun i => Ok (a, i).

(** nom [bytes::complete::take]. *)
Definition take (n : N) : parser bytes := fun i =>
  if N.of_nat (length i) <? n then Err else Ok (firstn (N.to_nat n) i, skipn (N.to_nat n) i).

(** [to_le_bytes] of a [k]-byte integer and its inverse. *)
Fixpoint le_bytes (k : nat) (v : N) : bytes :=
  match k with O => [] | S k' => (v mod 256) :: le_bytes k' (v / 256) end.
Fixpoint le_val (l : bytes) : N :=
  match l with [] => 0 | b :: l' => b + 256 * le_val l' end.

(** utils_parsing.rs 7-34 and utils_serialization.rs 5-33: unsigned. *)
Definition write_u (k : nat) (v : N) : bytes := le_bytes k v.
Definition parse_u (k : nat) : parser N := fun i =>
  c & i <~ take (N.of_nat k) i ;; Ok (le_val c, i).

(** Signed, two's complement. *)
Definition write_i (k : nat) (z : Z) : bytes := le_bytes k (Z.to_N (z mod 256 ^ Z.of_nat k)).
Definition signed (k : nat) (v : N) : Z :=
  if 2 * v <? 256 ^ N.of_nat k then Z.of_N v else (Z.of_N v - 256 ^ Z.of_nat k)%Z.
Definition parse_i (k : nat) : parser Z := fun i =>
  v & i <~ parse_u k i ;; Ok (signed k v, i).

Definition write_bin_u8 := write_u 1.
Definition parse_bin_u8 := parse_u 1.
Definition write_bin_u32 := write_u 4.
Definition parse_bin_u32 := parse_u 4.
Definition write_bin_u64 := write_u 8.
Definition parse_bin_u64 := parse_u 8.
Definition write_bin_i32 := write_i 4.
Definition parse_bin_i32 := parse_i 4.
Definition write_bin_i64 := write_i 8.
Definition parse_bin_i64 := parse_i 8.

(** [as] casts: [x as u32] and [x as usize] (64 bits) of a signed integer, [x as i32] of an
    unsigned one. *)
Definition as_u32 (z : Z) : N := Z.to_N (z mod 2 ^ 32).
Definition as_usize (z : Z) : N := Z.to_N (z mod 2 ^ 64).
Definition as_i32 (v : N) : Z := signed 4 (v mod 2 ^ 32).
Definition as_i64 (v : N) : Z := signed 8 (v mod 2 ^ 64).

(** nom [combinator::verify]. *)
Definition verify {A} (p : parser A) (ok : A -> bool) : parser A := fun i =>
  a & r <~ p i ;; if ok a then Ok (a, r) else Err.

(** nom [multi::count].  The element parsers used all consume at least one byte, so the fuel
    (one more than the input's length) only runs out when the input has. *)
Fixpoint count_loop {A} (p : parser A) (fuel : nat) (n : N) (i : bytes) : res (list A * bytes) :=
  match fuel with
  | O => if n =? 0 then Ok ([], i) else Err
  | S fuel' =>
      if n =? 0 then Ok ([], i)
      else
        a & i <~ p i ;;
        l & i <~ count_loop p fuel' (n - 1) i ;;
        Ok (a :: l, i)
  end.
Definition pcount {A} (p : parser A) (n : N) : parser (list A) := fun i =>
  count_loop p (S (length i)) n i.

(** [String::from_utf8]: is this byte list valid UTF-8 (no overlong forms, no surrogates,
    at most U+10FFFF)? *)
Definition cont (b : N) : bool := (128 <=? b) && (b <? 192).
Fixpoint utf8 (fuel : nat) (l : bytes) : bool :=
  match fuel with
  | O => match l with [] => true | _ => false end
  | S fuel' =>
      match l with
      | [] => true
      | b0 :: l0 =>
          if b0 <? 128 then utf8 fuel' l0
          else match l0 with
          | [] => false
          | b1 :: l1 =>
              if (194 <=? b0) && (b0 <? 224) then cont b1 && utf8 fuel' l1
              else match l1 with
              | [] => false
              | b2 :: l2 =>
                  if (224 <=? b0) && (b0 <? 240) then
                    cont b1 && cont b2
                    && (if b0 =? 224 then 160 <=? b1 else true)
                    && (if b0 =? 237 then b1 <? 160 else true)
                    && utf8 fuel' l2
                  else match l2 with
                  | [] => false
                  | b3 :: l3 =>
                      (240 <=? b0) && (b0 <? 245) && cont b1 && cont b2 && cont b3
                      && (if b0 =? 240 then 144 <=? b1 else true)
                      && (if b0 =? 244 then b1 <? 144 else true)
                      && utf8 fuel' l3
                  end
              end
          end
      end
  end.
Definition utf8_ok (l : bytes) : bool := utf8 (length l) l.

(** fst_header.rs 140-146, 159-162: length as i32, then the bytes. *)
Definition write_string (s : bytes) : bytes :=
  write_bin_i32 (as_i32 (N.of_nat (length s))) ++ s.
(** fst_header.rs 147-157: invalid UTF-8 panics. *)
Definition parse_string : parser bytes := fun i =>
  n & i <~ parse_bin_i32 i ;;
  s & i <~ take (as_usize n) i ;;
  if utf8_ok s then Ok (s, i) else Panic.

(** Decimal printing of an unsigned integer ([Display]). *)
Fixpoint digits (fuel : nat) (n : N) : bytes :=
  match fuel with
  | O => []
  | S fuel' => if n <? 10 then [48 + n] else digits fuel' (n / 10) ++ [48 + n mod 10]
  end.
Definition dec (n : N) : bytes := digits (S (N.size_nat n)) n.

(** nom [take_while]. *)
Fixpoint take_while (p : N -> bool) (l : bytes) : bytes * bytes :=
  match l with
  | [] => ([], [])
  | b :: l' => if p b then let (u, v) := take_while p l' in (b :: u, v) else ([], l)
  end.
Definition is_digit (b : N) : bool := (48 <=? b) && (b <=? 57).
Definition dec_val (l : bytes) : N := fold_left (fun a b => 10 * a + (b - 48)) l 0.

(** nom_utils.rs 32-34: digit1, then [str::parse] to an unsigned integer with maximum [m]. *)
Definition num (m : N) : parser N := fun i =>
  match take_while is_digit i with
  | ([], _) => Err
  | (ds, r) => if dec_val ds <=? m then Ok (dec_val ds, r) else Err
  end.
Definition u32_max : N := 4294967295.

(** nom_utils.rs 36-39. *)
Definition TAB : N := 9.
Definition NL : N := 10.
Definition SP : N := 32.
Definition word_char (b : N) : bool := negb (b =? SP) && negb (b =? TAB) && negb (b =? NL).
Definition word : parser bytes := fun i => Ok (take_while word_char i).
(** nom [space1]: one or more spaces or tabs. *)
Definition space1 : parser unit := fun i =>
  match take_while (fun b => (b =? SP) || (b =? TAB)) i with
  | ([], _) => Err
  | (_, r) => Ok (tt, r)
  end.
(** nom [tag] / [char] of one byte. *)
Definition tag1 (c : N) : parser unit := fun i =>
  match i with b :: r => if b =? c then Ok (tt, r) else Err | [] => Err end.

(** nom [multi::many0] for a parser that consumes input: stops quietly at the first error. *)
Fixpoint many0_loop {A} (p : parser A) (fuel : nat) (i : bytes) : res (list A * bytes) :=
  match fuel with
  | O => Ok ([], i)
  | S fuel' =>
      match p i with
      | Ok (a, r) => l & r <~ many0_loop p fuel' r ;; Ok (a :: l, r)
      | Err => Ok ([], i)
      | Panic => Panic
      end
  end.
Definition many0 {A} (p : parser A) : parser (list A) := fun i => many0_loop p (S (length i)) i.

Fixpoint bytes_eqb (a b : bytes) : bool :=
  match a, b with
  | [], [] => true
  | x :: a', y :: b' => (x =? y) && bytes_eqb a' b'
  | _, _ => false
  end.
