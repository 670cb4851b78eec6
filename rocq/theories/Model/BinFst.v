(** Binary FST files: vector and const formats, and the const FST itself.

    rustfst/src/parsers/bin_fst/*.rs, rustfst/src/fst_impls/vector_fst/{serializable_fst,parse_const}.rs,
    rustfst/src/fst_impls/const_fst/*.rs, rustfst/src/trs.rs 67-101.
    A weight codec stands for [SerializableSemiring]: its type name and its binary reader and
    writer.  File-system access is not modelled, only the bytes. *)
From Coq Require Import List Arith NArith ZArith Bool String Ascii.
From Verif Require Import Base.Util Base.Semiring Base.Machine
  Model.Props Model.VectorFst Model.ComputeProps Model.BiMap Model.Codec Model.SymbolTable.
Import ListNotations.
Local Open Scope N_scope.

(** Rust strings are UTF-8 bytes; so are Coq's. *)
Definition sbytes (s : string) : bytes := map N_of_ascii (list_ascii_of_string s).
Definition bstring (b : bytes) : string := string_of_list_ascii (map ascii_of_N b).

(** The symbol tables attached to a machine (kept as the list of symbols in label order). *)
Definition to_symt (l : symtab) : symt := add_symbols symt_empty (map sbytes l).
Definition of_symt (t : symt) : symtab := map bstring (symt_symbols t).

Definition FST_MAGIC : Z := 2125659606.
(** fst_header.rs 20-27. *)
Definition HAS_ISYMBOLS : N := 1.
Definition HAS_OSYMBOLS : N := 2.
Definition IS_ALIGNED : N := 4.

(** fst_header.rs 30-42 (without the constant magic number). *)
Record header := HD {
  h_type : bytes; h_tr_type : bytes; h_version : Z; h_flags : N; h_props : N;
  h_start : Z; h_num_states : Z; h_num_trs : Z; h_isymt : option symtab; h_osymt : option symtab
}.

(** fst_header.rs 62-68. *)
Definition write_opt_symt (o : option symtab) : bytes :=
  match o with Some l => write_bin_symt (to_symt l) | None => [] end.
(** fst_header.rs 50-60. *)
Definition parse_opt_symt (b : bool) : parser (option symtab) := fun i =>
  if b then t & i <~ parse_bin_symt i ;; Ok (Some (of_symt t), i) else Ok (None, i).

(** fst_header.rs 114-136. *)
Definition write_header (h : header) : bytes :=
  write_bin_i32 FST_MAGIC ++ write_string (h_type h) ++ write_string (h_tr_type h) ++
  write_bin_i32 (h_version h) ++ write_bin_u32 (h_flags h) ++ write_bin_u64 (h_props h) ++
  write_bin_i64 (h_start h) ++ write_bin_i64 (h_num_states h) ++ write_bin_i64 (h_num_trs h) ++
  write_opt_symt (h_isymt h) ++ write_opt_symt (h_osymt h).

(** fst_header.rs 71-112. *)
Definition parse_header (min_version : Z) (ty tr_ty : bytes) : parser header := fun i =>
  m & i <~ verify parse_bin_i32 (Z.eqb FST_MAGIC) i ;;
  ft & i <~ verify parse_string (bytes_eqb ty) i ;;
  tt & i <~ verify parse_string (bytes_eqb tr_ty) i ;;
  v & i <~ verify parse_bin_i32 (Z.leb min_version) i ;;
  fl & i <~ verify parse_bin_u32 (fun v => v <? 8) i ;;
  p & i <~ parse_bin_u64 i ;;
  st & i <~ parse_bin_i64 i ;;
  nst & i <~ parse_bin_i64 i ;;
  nt & i <~ parse_bin_i64 i ;;
  is & i <~ parse_opt_symt (N.testbit fl 0) i ;;
  os & i <~ parse_opt_symt (N.testbit fl 1) i ;;
  Ok (HD ft tt v fl p st nst nt is os, i).

(** utils_parsing.rs 9-15 (start), 18-26 (final weight). *)
Definition parse_start_state (z : Z) : option nat :=
  if Z.eqb z (-1) then None else Some (N.to_nat (as_u32 z)).

Section B.
  Context {K : SR}.
  Implicit Types (f : vfst K).

  (** [SerializableSemiring]. *)
  Record wcodec := WC { wc_type : bytes; wc_write : K -> bytes; wc_parse : parser K }.

  Definition parse_final_weight (w : K) : option K := if keqb w kzero then None else Some w.

  Context (C : wcodec).

  (** "tropical" -> "standard" (tr.rs 69-76). *)
  Definition tr_type : bytes :=
    if bytes_eqb (wc_type C) (sbytes "tropical") then sbytes "standard" else wc_type C.

  (** utils_serialization.rs 8-17. *)
  Definition write_tr (t : tr K) : bytes :=
    write_bin_i32 (as_i32 (N.of_nat (il t))) ++ write_bin_i32 (as_i32 (N.of_nat (ol t))) ++
    wc_write C (wgt t) ++ write_bin_i32 (as_i32 (N.of_nat (ns t))).
  (** utils_parsing.rs 28-44. *)
  Definition parse_tr : parser (tr K) := fun i =>
    a & i <~ parse_bin_i32 i ;;
    b & i <~ parse_bin_i32 i ;;
    w & i <~ wc_parse C i ;;
    n & i <~ parse_bin_i32 i ;;
    Ok (Tr (N.to_nat (as_u32 a)) (N.to_nat (as_u32 b)) w (N.to_nat (as_u32 n)), i).

  (** serializable_fst.rs (vector) 50-56. *)
  Definition flags_of (is os : option symtab) : N :=
    N.lor (if is then HAS_ISYMBOLS else 0) (if os then HAS_OSYMBOLS else 0).
  Definition start_i64 (o : option nat) : Z :=
    match o with Some s => as_i64 (N.of_nat s) | None => (-1)%Z end.
  (** data_structure.rs 93-95 (EXPANDED | MUTABLE). *)
  Definition vector_static : N := 3.
  Definition vector_type : bytes := sbytes "vector".

  Definition write_vstate (st : vstate K) : bytes :=
    wc_write C (match vfin st with Some w => w | None => kzero end) ++
    write_bin_i64 (as_i64 (N.of_nat (List.length (vtrs st)))) ++ flat_map write_tr (vtrs st).

  (** serializable_fst.rs (vector) 45-88. *)
  Definition store_vector f : bytes :=
    write_header (HD vector_type tr_type 2 (flags_of (visymt f) (vosymt f))
      (N.lor (vprops f) vector_static) (start_i64 (vstart f))
      (as_i64 (N.of_nat (num_states f)))
      (as_i64 (N.of_nat (list_sum (map (fun st => List.length (vtrs st)) (vstates f)))))
      (visymt f) (vosymt f)) ++
    flat_map write_vstate (vstates f).

  (** serializable_fst.rs (vector) 129-146. *)
  Definition parse_vstate : parser (vstate K) := fun i =>
    w & i <~ wc_parse C i ;;
    n & i <~ parse_bin_i64 i ;;
    l & i <~ pcount parse_tr (as_usize n) i ;;
    Ok (VS (parse_final_weight w) l
          (List.length (filter (fun t => il t =? 0)%nat l)) (List.length (filter (fun t => ol t =? 0)%nat l)), i).

  (** serializable_fst.rs (vector) 148-168; [from_bits_truncate] keeps the declared bits. *)
  Definition parse_vector : parser (vfst K) := fun i =>
    h & i <~ parse_header 2 vector_type tr_type i ;;
    l & i <~ pcount parse_vstate (as_usize (h_num_states h)) i ;;
    Ok (VF l (parse_start_state (h_start h)) (h_isymt h) (h_osymt h) (N.land (h_props h) all_properties), i).
  (** 29-43. *)
  Definition load_vector (i : bytes) : res (vfst K) := f & r <~ parse_vector i ;; Ok f.

  (** const_fst/data_structure.rs 9-30. *)
  Record cstate := CState { cfin : option K; cpos : nat; cntrs : nat; cnie : nat; cnoe : nat }.
  Record cfst := CF {
    cstates : list cstate; ctrs : list (tr K); cstart : option nat;
    cisymt : option symtab; cosymt : option symtab; cprops : N
  }.

  (** const_fst/converters.rs 13-26: laying out the states. *)
  Fixpoint lay_out (pos : nat) (l : list (vstate K)) : list cstate * list (tr K) :=
    match l with
    | [] => ([], [])
    | s :: l' =>
        let (cs, ts) := lay_out (pos + List.length (vtrs s)) l' in
        (CState (vfin s) pos (List.length (vtrs s)) (vnie s) (vnoe s) :: cs, vtrs s ++ ts)
    end.
  (** const_fst/converters.rs 7-36; [unwrap] turns an error into a panic. *)
  Definition const_from f : res cfst :=
    match compute_and_update_properties f all_properties with
    | Ok (g, p) =>
        let (cs, ts) := lay_out 0 (vstates g) in
        Ok (CF cs ts (vstart g) (visymt g) (vosymt g) p)
    | _ => Panic
    end.

  (** const_fst/fst.rs 44-48, 58-63, 73-79, 85-95, 110-124. *)
  Definition cget (c : cfst) (s : nat) : res cstate :=
    match nth_error (cstates c) s with Some st => Ok st | None => Err end.
  Definition c_final_weight (c : cfst) (s : nat) : res (option K) := rmap cfin (cget c s).
  Definition c_num_trs (c : cfst) (s : nat) : res nat := rmap cntrs (cget c s).
  Definition c_num_ieps (c : cfst) (s : nat) : res nat := rmap cnie (cget c s).
  Definition c_num_oeps (c : cfst) (s : nat) : res nat := rmap cnoe (cget c s).

  (** trs.rs 68-72: a slice of the shared transition vector. *)
  Record trs_const := TC { tc_trs : list (tr K); tc_pos : nat; tc_n : nat }.
  Definition c_get_trs (c : cfst) (s : nat) : res trs_const :=
    rmap (fun st => TC (ctrs c) (cpos st) (cntrs st)) (cget c s).
  (** trs.rs 75-77: slicing out of range panics. *)
  Definition tc_slice (t : trs_const) : res (list (tr K)) :=
    if (List.length (tc_trs t) <? tc_pos t + tc_n t)%nat then Panic
    else Ok (firstn (tc_n t) (skipn (tc_pos t) (tc_trs t))).
  (** trs.rs 79-81. *)
  Definition tc_to_trs_vec (t : trs_const) : list (tr K) := tc_trs t.

  Definition const_static : N := 1.
  Definition const_type : bytes := sbytes "const".

  Definition write_cstate (st : cstate) : bytes :=
    wc_write C (match cfin st with Some w => w | None => kzero end) ++
    write_bin_i32 (as_i32 (N.of_nat (cpos st))) ++ write_bin_i32 (as_i32 (N.of_nat (cntrs st))) ++
    write_bin_i32 (as_i32 (N.of_nat (cnie st))) ++ write_bin_i32 (as_i32 (N.of_nat (cnoe st))).

  (** const_fst/serializable_fst.rs 40-84 (CONST_FILE_VERSION = 2). *)
  Definition store_const (c : cfst) : bytes :=
    write_header (HD const_type tr_type 2 (flags_of (cisymt c) (cosymt c))
      (N.lor (cprops c) const_static) (start_i64 (cstart c))
      (as_i64 (N.of_nat (List.length (cstates c)))) (as_i64 (N.of_nat (List.length (ctrs c))))
      (cisymt c) (cosymt c)) ++
    flat_map write_cstate (cstates c) ++ flat_map write_tr (ctrs c).

  (** const_fst/serializable_fst.rs 178-197 and vector_fst/parse_const.rs 50-68. *)
  Definition parse_cstate : parser cstate := fun i =>
    w & i <~ wc_parse C i ;;
    p & i <~ parse_bin_i32 i ;;
    n & i <~ parse_bin_i32 i ;;
    ie & i <~ parse_bin_i32 i ;;
    oe & i <~ parse_bin_i32 i ;;
    Ok (CState (parse_final_weight w) (N.to_nat (as_usize p)) (N.to_nat (as_usize n))
               (N.to_nat (as_usize ie)) (N.to_nat (as_usize oe)), i).

  (** Skipping to a multiple of CONST_ARCH_ALIGNMENT = 16, const_fst/serializable_fst.rs 211-216. *)
  Definition align (total : nat) (aligned : bool) (n : Z) (i : bytes) : res bytes :=
    let pos := N.of_nat (total - List.length i) in
    if aligned && Z.ltb 0 n && (0 <? pos mod 16) then p & r <~ take (16 - pos mod 16) i ;; Ok r else Ok i.

  (** const_fst/serializable_fst.rs 199-237. *)
  Definition parse_const : parser cfst := fun i =>
    let total := List.length i in
    h & i <~ parse_header 1 const_type tr_type i ;;
    let aligned := Z.eqb (h_version h) 1 in
    i <-- align total aligned (h_num_states h) i ;;
    cs & i <~ pcount parse_cstate (as_usize (h_num_states h)) i ;;
    i <-- align total aligned (h_num_trs h) i ;;
    ts & i <~ pcount parse_tr (as_usize (h_num_trs h)) i ;;
    Ok (CF cs ts (parse_start_state (h_start h)) (h_isymt h) (h_osymt h) (N.land (h_props h) all_properties), i).
  Definition load_const (i : bytes) : res cfst := c & r <~ parse_const i ;; Ok c.

  (** vector_fst/parse_const.rs 97-107. *)
  Fixpoint parse_const_trs (l : list cstate) (i : bytes) : res (list (vstate K) * bytes) :=
    match l with
    | [] => Ok ([], i)
    | c :: l' =>
        ts & i <~ pcount parse_tr (N.of_nat (cntrs c)) i ;;
        vs & i <~ parse_const_trs l' i ;;
        Ok (VS (cfin c) ts (cnie c) (cnoe c) :: vs, i)
    end.
  (** vector_fst/parse_const.rs 70-119. *)
  Definition parse_const_as_vector : parser (vfst K) := fun i =>
    let total := List.length i in
    h & i <~ parse_header 1 const_type tr_type i ;;
    let aligned := Z.eqb (h_version h) 1 in
    i <-- align total aligned (h_num_states h) i ;;
    cs & i <~ pcount parse_cstate (as_usize (h_num_states h)) i ;;
    i <-- align total aligned (h_num_trs h) i ;;
    vs & i <~ parse_const_trs cs i ;;
    Ok (VF vs (parse_start_state (h_start h)) (h_isymt h) (h_osymt h) (N.land (h_props h) all_properties), i).
  Definition read_from_const (i : bytes) : res (vfst K) := f & r <~ parse_const_as_vector i ;; Ok f.
End B.
Arguments wcodec : clear implicits.
Arguments cfst : clear implicits.
Arguments cstate : clear implicits.
Arguments trs_const : clear implicits.
