(** Symbol tables and their two file formats.

    rustfst/src/symbol_table.rs, rustfst/src/parsers/{text_symt,bin_symt}/nom_parser.rs.
    [BiHashMapString] (symbol_table.rs 332-401) is the same structure as [BiHashMap]. *)
From Coq Require Import List Arith NArith ZArith Bool.
From Verif Require Import Base.Util Model.BiMap Model.Codec.
Import ListNotations.
Local Open Scope N_scope.

Definition symt := bimap bytes.

(** "<eps>" *)
Definition EPS_SYMBOL : bytes := [60; 101; 112; 115; 62].

(** symbol_table.rs 45-49. *)
Definition symt_empty : symt := bm_new.
(** 125-127 (370-380): the label and the new table. *)
Definition add_symbol (t : symt) (s : bytes) : symt * nat := get_id_or_insert bytes_eqb t s.
(** 129-133. *)
Definition add_symbols (t : symt) (l : list bytes) : symt :=
  fold_left (fun t s => fst (add_symbol t s)) l t.
(** 37-43. *)
Definition symt_new : symt := fst (add_symbol symt_empty EPS_SYMBOL).
(** 145-147, 162-164, 179-181. *)
Definition symt_len (t : symt) : nat := length (id_to_tuple t).
Definition get_label (t : symt) (s : bytes) : option nat := assoc bytes_eqb (tuple_to_id t) s.
Definition get_symbol (t : symt) (l : nat) : option bytes := nth_error (id_to_tuple t) l.
(** 193-195, 208-210. *)
Definition contains_symbol (t : symt) (s : bytes) : bool :=
  match get_label t s with Some _ => true | None => false end.
Definition contains_label (t : symt) (l : nat) : bool :=
  match get_symbol t l with Some _ => true | None => false end.
(** 230-232, 249-251, 255-257. *)
Definition symt_labels (t : symt) : list nat := seq 0 (symt_len t).
Definition symt_symbols (t : symt) : list bytes := id_to_tuple t.
Definition symt_iter (t : symt) : list (nat * bytes) := combine (symt_labels t) (symt_symbols t).
(** 260-264. *)
Definition add_table (t u : symt) : symt := add_symbols t (symt_symbols u).

(** 293-300: one "symbol TAB label NEWLINE" row per symbol; the rows are already in label
    order, so the stable sort by label is the identity. *)
Definition symt_text (t : symt) : bytes :=
  flat_map (fun p => snd p ++ [TAB] ++ dec (N.of_nat (fst p)) ++ [NL]) (symt_iter t).

(** text_symt/nom_parser.rs 11-16, 18-20. *)
Definition symt_row : parser (bytes * N) := fun i =>
  s & i <~ word i ;;
  u & i <~ space1 i ;;
  l & i <~ num u32_max i ;;
  Ok ((s, l), i).
Definition symt_rows : parser (list (bytes * N)) :=
  many0 (fun i => r & i <~ symt_row i ;; u & i <~ tag1 NL i ;; Ok (r, i)).

(** symbol_table.rs 51-61. *)
Fixpoint from_pairs (t : symt) (l : list (bytes * N)) : res symt :=
  match l with
  | [] => Ok t
  | (s, k) :: l' =>
      let (t', n) := add_symbol t s in
      if N.of_nat n =? k then from_pairs t' l' else Err
  end.
(** 63-66 with parsed_text_symt.rs 15-19: what follows the rows is ignored. *)
Definition symt_from_text (i : bytes) : res symt :=
  l & i <~ symt_rows i ;; from_pairs symt_empty l.

(** bin_symt/nom_parser.rs 14. *)
Definition SYMT_MAGIC : Z := 2125658996.
(** "rustfst_symboltable" *)
Definition SYMT_NAME : bytes :=
  [114; 117; 115; 116; 102; 115; 116; 95; 115; 121; 109; 98; 111; 108; 116; 97; 98; 108; 101].

(** bin_symt/nom_parser.rs 44-59. *)
Definition write_bin_symt (t : symt) : bytes :=
  write_bin_i32 SYMT_MAGIC ++ write_string SYMT_NAME ++
  write_bin_i64 (as_i64 (N.of_nat (symt_len t))) ++ write_bin_i64 (as_i64 (N.of_nat (symt_len t))) ++
  flat_map (fun p => write_string (snd p) ++ write_bin_i64 (as_i64 (N.of_nat (fst p)))) (symt_iter t).

(** bin_symt/nom_parser.rs 16-20. *)
Definition parse_row_symt : parser (Z * bytes) := fun i =>
  s & i <~ parse_string i ;;
  k & i <~ parse_bin_i64 i ;;
  Ok ((k, s), i).

(** bin_symt/nom_parser.rs 31-39. *)
Fixpoint from_bin_rows (t : symt) (l : list (Z * bytes)) : res symt :=
  match l with
  | [] => Ok t
  | (k, s) :: l' =>
      let (t', n) := add_symbol t s in
      if N.of_nat n =? as_u32 k then from_bin_rows t' l' else Err
  end.

(** bin_symt/nom_parser.rs 22-42. *)
Definition parse_bin_symt : parser symt := fun i =>
  m & i <~ verify parse_bin_i32 (Z.eqb SYMT_MAGIC) i ;;
  nm & i <~ parse_string i ;;
  ak & i <~ parse_bin_i64 i ;;
  n & i <~ parse_bin_i64 i ;;
  rows & i <~ pcount parse_row_symt (as_usize n) i ;;
  match from_bin_rows symt_empty rows with
  | Ok t => Ok (t, i)
  | Err => Err
  | Panic => Panic
  end.
