(** Facts about symbol tables. *)
From Coq Require Import List Arith NArith ZArith Bool Lia.
From Verif Require Import Base.Util Model.BiMap Model.Codec Model.SymbolTable
  Proofs.BiMapFacts Proofs.CodecFacts.
Import ListNotations.

(** A table is determined by its list of symbols. *)
Definition table_of (l : list bytes) : symt := BM (rev (combine l (seq 0 (length l)))) l.
Definition tok (t : symt) : Prop := t = table_of (id_to_tuple t) /\ NoDup (id_to_tuple t).

Lemma seq_snoc a n : seq a (S n) = seq a n ++ [a + n].
Proof. rewrite <- Nat.add_1_r, seq_app. reflexivity. Qed.
Lemma combine_snoc {A B} (l : list A) (m : list B) x y : length l = length m ->
  combine (l ++ [x]) (m ++ [y]) = combine l m ++ [(x, y)].
Proof. revert m. induction l; destruct m; simpl; intros E; try discriminate; auto. f_equal. auto. Qed.

Lemma table_of_snoc l s : table_of (l ++ [s]) =
  BM ((s, length l) :: tuple_to_id (table_of l)) (l ++ [s]).
Proof.
  unfold table_of. f_equal. rewrite app_length. simpl length. rewrite Nat.add_1_r, seq_snoc, combine_snoc.
  - rewrite rev_app_distr. reflexivity.
  - now rewrite seq_length.
Qed.

Lemma table_of_ok l : NoDup l -> bm_ok bytes_eqb (table_of l).
Proof.
  induction l as [|s l IH] using rev_ind; intros ND.
  - apply (bm_new_ok bytes_eqb).
  - assert (NI : NoDup l /\ ~ In s l).
    { apply NoDup_remove in ND. rewrite app_nil_r in ND. auto. }
    destruct NI as [ND' NI]. specialize (IH ND').
    assert (F : find_id bytes_eqb (table_of l) s = (table_of (l ++ [s]), length l)).
    { unfold find_id, get_id_or_insert. rewrite (proj2 (bm_none bytes_eqb _ s IH)); [|exact NI].
      rewrite table_of_snoc. reflexivity. }
    destruct (find_id_ok _ bytes_eqb_spec _ _ _ _ IH F) as [H _]. exact H.
Qed.

Lemma tok_ok t : tok t -> bm_ok bytes_eqb t.
Proof. intros [E ND]. rewrite E. apply table_of_ok; auto. Qed.
Lemma tok_empty : tok symt_empty.
Proof. split; [reflexivity|constructor]. Qed.
Lemma tok_table l : NoDup l -> tok (table_of l).
Proof. intros ND. split; auto. Qed.

Lemma add_symbol_tok t s : tok t ->
  exists i, add_symbol t s = (fst (add_symbol t s), i) /\ tok (fst (add_symbol t s)) /\
    nth_error (id_to_tuple (fst (add_symbol t s))) i = Some s /\
    ((In s (id_to_tuple t) /\ fst (add_symbol t s) = t) \/
     (~ In s (id_to_tuple t) /\ id_to_tuple (fst (add_symbol t s)) = id_to_tuple t ++ [s] /\ i = length (id_to_tuple t))).
Proof.
  intros T. pose proof (tok_ok _ T) as B.
  destruct (find_id bytes_eqb t s) as [t' i] eqn:E. change (add_symbol t s) with (find_id bytes_eqb t s).
  rewrite E. simpl. exists i. split; auto.
  destruct (find_id_ok _ bytes_eqb_spec _ _ _ _ B E) as (B' & N & C).
  split; [|split; auto]. destruct C as [[_ ->]|(NI & L & _)]; auto.
  split; [|apply (bm_nodup bytes_eqb); auto]. rewrite L.
  unfold find_id, get_id_or_insert in E. rewrite (proj2 (bm_none bytes_eqb _ s B) NI) in E.
  injection E as <- _. rewrite table_of_snoc. f_equal. f_equal. apply (f_equal tuple_to_id (proj1 T)).
Qed.

Lemma from_pairs_ok l : forall k t, tok t -> k = length (id_to_tuple t) -> NoDup (id_to_tuple t ++ l) ->
  from_pairs t (combine l (map N.of_nat (seq k (length l)))) = Ok (table_of (id_to_tuple t ++ l)).
Proof.
  induction l as [|s l IH]; intros k t T K ND.
  - simpl. rewrite app_nil_r. f_equal. apply T.
  - cbn [length seq map combine from_pairs].
    destruct (add_symbol_tok t s T) as (i & E & T' & N & C). rewrite E.
    assert (NI : ~ In s (id_to_tuple t)).
    { apply NoDup_remove in ND as [_ ND]. rewrite in_app_iff in ND. tauto. }
    destruct C as [[? _]|(_ & L & I)]; [tauto|]. rewrite I, <- K, N.eqb_refl.
    rewrite IH; auto.
    + rewrite L, <- app_assoc. reflexivity.
    + rewrite L, app_length. simpl. lia.
    + rewrite L, <- app_assoc. exact ND.
Qed.

Lemma from_bin_rows_ok l : forall k t, tok t -> k = length (id_to_tuple t) -> NoDup (id_to_tuple t ++ l) ->
  (N.of_nat (k + length l) <= 4294967296)%N ->
  from_bin_rows t (combine (map (fun i => as_i64 (N.of_nat i)) (seq k (length l))) l) = Ok (table_of (id_to_tuple t ++ l)).
Proof.
  induction l as [|s l IH]; intros k t T K ND LE.
  - simpl. rewrite app_nil_r. f_equal. apply T.
  - cbn [length seq map combine from_bin_rows]. simpl length in LE.
    destruct (add_symbol_tok t s T) as (i & E & T' & N & C). rewrite E.
    assert (NI : ~ In s (id_to_tuple t)).
    { apply NoDup_remove in ND as [_ ND]. rewrite in_app_iff in ND. tauto. }
    destruct C as [[? _]|(_ & L & I)]; [tauto|].
    rewrite as_i64_small by lia. rewrite as_u32_small by lia. rewrite I, <- K, N2Z.id, N.eqb_refl.
    rewrite IH; auto.
    + rewrite L, <- app_assoc. reflexivity.
    + rewrite L, app_length. simpl. lia.
    + rewrite L, <- app_assoc. exact ND.
    + lia.
Qed.

(** What the binary format can hold. *)
Definition bin_symbol (s : bytes) : Prop := utf8_ok s = true /\ (N.of_nat (length s) < 2147483648)%N.

Lemma rt_row s k : bin_symbol s -> (N.of_nat k < 4294967296)%N ->
  rt parse_row_symt (write_string s ++ write_bin_i64 (as_i64 (N.of_nat k))) (as_i64 (N.of_nat k), s).
Proof.
  intros [U L] K. unfold parse_row_symt.
  apply (rt_bind parse_string (fun s i => k & i <~ parse_bin_i64 i ;; Ok ((k, s), i)) _ _ s); [apply rt_string; auto|].
  apply (rt_bind0 parse_bin_i64 (fun k i => Ok ((k, s), i)) _ (as_i64 (N.of_nat k))).
  - apply rt_i64. apply as_i64_range.
  - apply rt_ret.
Qed.

Lemma flat_map_concat {A} (f : A -> bytes) l : flat_map f l = concat (map f l).
Proof. induction l; simpl; congruence. Qed.

Lemma rt_symt t : tok t -> Forall bin_symbol (id_to_tuple t) ->
  (N.of_nat (length (id_to_tuple t)) <= 4294967296)%N ->
  rt parse_bin_symt (write_bin_symt t) t.
Proof.
  intros T F L. unfold parse_bin_symt, write_bin_symt.
  apply (rt_bind (verify parse_bin_i32 (Z.eqb SYMT_MAGIC)) (fun _ i =>
    nm & i <~ parse_string i ;; ak & i <~ parse_bin_i64 i ;; n & i <~ parse_bin_i64 i ;;
    rows & i <~ pcount parse_row_symt (as_usize n) i ;;
    match from_bin_rows symt_empty rows with Ok t => Ok (t, i) | Err => Err | Panic => Panic end) _ _ SYMT_MAGIC).
  { apply rt_verify; [apply rt_i32; unfold SYMT_MAGIC; lia | apply Z.eqb_refl]. }
  apply (rt_bind parse_string (fun _ i => ak & i <~ parse_bin_i64 i ;; n & i <~ parse_bin_i64 i ;;
    rows & i <~ pcount parse_row_symt (as_usize n) i ;;
    match from_bin_rows symt_empty rows with Ok t => Ok (t, i) | Err => Err | Panic => Panic end) _ _ SYMT_NAME).
  { apply rt_string; reflexivity. }
  apply (rt_bind parse_bin_i64 (fun _ i => n & i <~ parse_bin_i64 i ;;
    rows & i <~ pcount parse_row_symt (as_usize n) i ;;
    match from_bin_rows symt_empty rows with Ok t => Ok (t, i) | Err => Err | Panic => Panic end) _ _
    (as_i64 (N.of_nat (symt_len t)))).
  { apply rt_i64, as_i64_range. }
  apply (rt_bind parse_bin_i64 (fun n i =>
    rows & i <~ pcount parse_row_symt (as_usize n) i ;;
    match from_bin_rows symt_empty rows with Ok t => Ok (t, i) | Err => Err | Panic => Panic end) _ _
    (as_i64 (N.of_nat (symt_len t)))).
  { apply rt_i64, as_i64_range. }
  unfold symt_len. rewrite as_i64_small by lia. rewrite as_usize_small by lia. rewrite N2Z.id.
  set (l := id_to_tuple t) in *.
  apply (rt_bind0 (pcount parse_row_symt (N.of_nat (length l))) (fun rows i =>
    match from_bin_rows symt_empty rows with Ok t => Ok (t, i) | Err => Err | Panic => Panic end) _
    (combine (map (fun i => as_i64 (N.of_nat i)) (seq 0 (length l))) l)).
  - rewrite flat_map_concat. apply rt_count.
    + unfold symt_iter, symt_labels, symt_symbols, symt_len. fold l.
      assert (G : forall l k, Forall bin_symbol l -> (N.of_nat (k + length l) <= 4294967296)%N ->
                Forall2 (fun a b => rt parse_row_symt b a)
                  (combine (map (fun i => as_i64 (N.of_nat i)) (seq k (length l))) l)
                  (map (fun p => write_string (snd p) ++ write_bin_i64 (as_i64 (N.of_nat (fst p))))
                     (combine (seq k (length l)) l))).
      { clear. induction l as [|s l IH]; intros k F L; cbn [length seq combine map]; constructor; inversion F; subst.
        - simpl in L. apply rt_row; auto. lia.
        - apply IH; auto. simpl in L. lia. }
      apply (G l 0); auto.
    + apply Forall_forall. intros b Hb. apply in_map_iff in Hb as (p & <- & _). unfold write_string.
      cbn. discriminate.
    + f_equal. rewrite combine_length, map_length, seq_length. lia.
  - rewrite (from_bin_rows_ok l 0 symt_empty tok_empty eq_refl); [|apply T|auto].
    intros r. simpl. do 2 f_equal. symmetry. apply T.
Qed.

Lemma local_symt : local parse_bin_symt.
Proof.
  unfold parse_bin_symt.
  apply (local_bind (verify parse_bin_i32 (Z.eqb SYMT_MAGIC)) (fun _ i =>
    nm & i <~ parse_string i ;; ak & i <~ parse_bin_i64 i ;; n & i <~ parse_bin_i64 i ;;
    rows & i <~ pcount parse_row_symt (as_usize n) i ;;
    match from_bin_rows symt_empty rows with Ok t => Ok (t, i) | Err => Err | Panic => Panic end)).
  { apply local_verify, local_i. }
  intros _.
  apply (local_bind parse_string (fun _ i => ak & i <~ parse_bin_i64 i ;; n & i <~ parse_bin_i64 i ;;
    rows & i <~ pcount parse_row_symt (as_usize n) i ;;
    match from_bin_rows symt_empty rows with Ok t => Ok (t, i) | Err => Err | Panic => Panic end)).
  { apply local_string. }
  intros _.
  apply (local_bind parse_bin_i64 (fun _ i => n & i <~ parse_bin_i64 i ;;
    rows & i <~ pcount parse_row_symt (as_usize n) i ;;
    match from_bin_rows symt_empty rows with Ok t => Ok (t, i) | Err => Err | Panic => Panic end)).
  { apply local_i. }
  intros _.
  apply (local_bind parse_bin_i64 (fun n i =>
    rows & i <~ pcount parse_row_symt (as_usize n) i ;;
    match from_bin_rows symt_empty rows with Ok t => Ok (t, i) | Err => Err | Panic => Panic end)).
  { apply local_i. }
  intros n.
  apply (local_bind (pcount parse_row_symt (as_usize n)) (fun rows i =>
    match from_bin_rows symt_empty rows with Ok t => Ok (t, i) | Err => Err | Panic => Panic end)).
  - apply local_count.
    + apply (local_bind parse_string (fun s i => k & i <~ parse_bin_i64 i ;; Ok ((k, s), i))); [apply local_string|].
      intros s. apply (local_bind parse_bin_i64 (fun k i => Ok ((k, s), i))); [apply local_i|].
      intros k. apply local_ret.
    + apply (eats_bind_l parse_string (fun s i => k & i <~ parse_bin_i64 i ;; Ok ((k, s), i))); [apply eats_string|].
      intros s. apply (local_bind parse_bin_i64 (fun k i => Ok ((k, s), i))); [apply local_i|].
      intros k. apply local_ret.
  - intros rows. destruct (from_bin_rows symt_empty rows); [apply local_ret|apply local_err|apply local_panic].
Qed.

(** What the text format can hold. *)
Definition text_symbol (s : bytes) : Prop := Forall (fun b => word_char b = true) s.

Lemma text_row s k r : text_symbol s -> (N.of_nat k <= u32_max)%N ->
  (r & i <~ symt_row (s ++ [TAB] ++ dec (N.of_nat k) ++ [NL] ++ r) ;; u & i <~ tag1 NL i ;; Ok (r, i)) =
  Ok ((s, N.of_nat k), r).
Proof.
  intros S K. unfold symt_row, word.
  rewrite take_while_all; [|exact S|intros ? ? [= <- _]; reflexivity]. cbn [pbind].
  unfold space1. rewrite (take_while_all _ [TAB] (dec (N.of_nat k) ++ [NL] ++ r)).
  - cbn [pbind app]. rewrite num_dec; auto.
  - repeat constructor.
  - intros b v' E. pose proof (dec_digits (N.of_nat k)) as D. pose proof (dec_nonempty (N.of_nat k)) as NE.
    destruct (dec (N.of_nat k)) as [|d ds]; [congruence|]. injection E as -> _. inversion D as [|? ? D1 _]; subst.
    unfold is_digit in D1. apply andb_true_iff in D1 as [D1 D2]. apply N.leb_le in D1, D2. unfold SP, TAB.
    destruct (N.eqb_spec b 32); [lia|]. destruct (N.eqb_spec b 9); [lia|]. auto.
Qed.

Lemma text_rows l : forall k fuel, Forall text_symbol l -> (N.of_nat (k + length l) <= 4294967296)%N ->
  length l < fuel ->
  many0_loop (fun i => r & i <~ symt_row i ;; u & i <~ tag1 NL i ;; Ok (r, i)) fuel
    (flat_map (fun p => snd p ++ [TAB] ++ dec (N.of_nat (fst p)) ++ [NL]) (combine (seq k (length l)) l)) =
  Ok (combine l (map N.of_nat (seq k (length l))), []).
Proof.
  induction l as [|s l IH]; intros k fuel F L FU; (destruct fuel as [|fuel]; [simpl in FU; lia|]);
    cbn [length seq combine map flat_map many0_loop].
  - reflexivity.
  - inversion F; subst. cbn [length] in L, FU. cbn [fst snd]. rewrite <- !app_assoc.
    rewrite text_row; auto; [|unfold u32_max; lia]. cbn [pbind]. rewrite IH; auto; lia.
Qed.

Lemma text_roundtrip t : tok t -> Forall text_symbol (id_to_tuple t) ->
  (N.of_nat (length (id_to_tuple t)) <= 4294967296)%N -> symt_from_text (symt_text t) = Ok t.
Proof.
  intros T F L. unfold symt_from_text, symt_rows, many0, symt_text, symt_iter, symt_labels, symt_symbols, symt_len.
  set (l := id_to_tuple t) in *. rewrite text_rows; auto.
  - cbn [pbind]. rewrite (from_pairs_ok l 0 symt_empty tok_empty eq_refl); [|apply T].
    f_equal. symmetry. apply T.
  - apply Nat.lt_succ_r. assert (G : forall l k, length l <= length (flat_map (fun p : nat * bytes => snd p ++ [TAB] ++ dec (N.of_nat (fst p)) ++ [NL]) (combine (seq k (length l)) l))).
    { clear. induction l as [|s l IH]; intros k; cbn [length seq combine flat_map]; auto.
      specialize (IH (S k)). rewrite !app_length. cbn [length]. lia. }
    apply G.
Qed.
