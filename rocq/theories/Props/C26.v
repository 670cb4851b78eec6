(** C26: symbol tables are bijections with dense labels, and their files read back. *)
From Coq Require Import List Arith NArith ZArith Bool Lia.
From Verif Require Import Base.Util Model.BiMap Model.Codec Model.SymbolTable
  Proofs.BiMapFacts Proofs.CodecFacts Proofs.SymtFacts Props.C22.
Import ListNotations.

(** Every way of making a table from calls. *)
Inductive build :=
| BNew                              (* SymbolTable::new() *)
| BEmpty                            (* SymbolTable::empty() *)
| BAdd (b : build) (s : bytes)      (* add_symbol *)
| BAddAll (b : build) (l : list bytes) (* add_symbols *)
| BTable (b c : build).             (* add_table *)
Fixpoint built (b : build) : symt :=
  match b with
  | BNew => symt_new
  | BEmpty => symt_empty
  | BAdd b s => fst (add_symbol (built b) s)
  | BAddAll b l => add_symbols (built b) l
  | BTable b c => add_table (built b) (built c)
  end.
(** The symbols those calls name, in order. *)
Fixpoint named (b : build) : list bytes :=
  match b with
  | BNew => [EPS_SYMBOL]
  | BEmpty => []
  | BAdd b s => named b ++ [s]
  | BAddAll b l => named b ++ l
  | BTable b c => named b ++ named c
  end.

Notation firsts := (first_seen bytes_eqb []).

Lemma first_seen_app {T} (eqb : T -> T -> bool) l1 : forall s l2,
  first_seen eqb s (l1 ++ l2) = first_seen eqb (first_seen eqb s l1) l2.
Proof. induction l1; simpl; auto. Qed.

Lemma first_seen_in l : forall s x, In x (first_seen bytes_eqb s l) <-> In x s \/ In x l.
Proof.
  induction l as [|y l IH]; simpl; intros s x; [tauto|]. rewrite IH.
  destruct (existsb (bytes_eqb y) s) eqn:E.
  - apply (existsb_in _ bytes_eqb_spec) in E. split; [tauto|]. intros [?|[<-|?]]; auto.
  - rewrite in_app_iff. simpl. tauto.
Qed.

(** Adding the distinct symbols of a list is adding the list. *)
Lemma first_seen_firsts l : forall s r, first_seen bytes_eqb s (first_seen bytes_eqb r l) =
  first_seen bytes_eqb (first_seen bytes_eqb s r) l.
Proof.
  induction l as [|y l IH]; simpl; intros s r; auto. rewrite IH. f_equal.
  destruct (existsb (bytes_eqb y) r) eqn:E.
  - apply (existsb_in _ bytes_eqb_spec) in E.
    assert (X : existsb (bytes_eqb y) (first_seen bytes_eqb s r) = true).
    { apply (existsb_in _ bytes_eqb_spec). apply first_seen_in. auto. }
    now rewrite X.
  - rewrite first_seen_app. reflexivity.
Qed.

Lemma add_symbol_first t s : tok t ->
  tok (fst (add_symbol t s)) /\ id_to_tuple (fst (add_symbol t s)) = first_seen bytes_eqb (id_to_tuple t) [s].
Proof.
  intros T. destruct (add_symbol_tok t s T) as (i & E & T' & N & C). split; auto. simpl.
  destruct (existsb (bytes_eqb s) (id_to_tuple t)) eqn:X.
  - apply (existsb_in _ bytes_eqb_spec) in X. destruct C as [[_ ->]|[C _]]; tauto.
  - destruct C as [[C _]|(_ & C & _)]; auto. apply (existsb_in _ bytes_eqb_spec) in C. congruence.
Qed.
Lemma add_symbols_first l : forall t, tok t ->
  tok (add_symbols t l) /\ id_to_tuple (add_symbols t l) = first_seen bytes_eqb (id_to_tuple t) l.
Proof.
  induction l as [|s l IH]; intros t T; [auto|]. unfold add_symbols. cbn [fold_left].
  destruct (add_symbol_first t s T) as [T' E]. destruct (IH _ T') as [A B].
  split; auto. unfold add_symbols in B. rewrite B, E. reflexivity.
Qed.

Lemma built_ok b : tok (built b) /\ id_to_tuple (built b) = firsts (named b).
Proof.
  induction b as [| |b [T E] s|b [T E] l|b [T E] c [U F]]; cbn [built named].
  - split; [split; [reflexivity|repeat constructor; simpl; tauto]|reflexivity].
  - split; [apply tok_empty|reflexivity].
  - destruct (add_symbol_first _ s T) as [A B]. split; auto. now rewrite B, E, first_seen_app.
  - destruct (add_symbols_first l _ T) as [A B]. split; auto. now rewrite B, E, first_seen_app.
  - unfold add_table, symt_symbols. destruct (add_symbols_first (id_to_tuple (built c)) _ T) as [A B].
    split; auto. rewrite B, E, F, first_seen_firsts, first_seen_app. reflexivity.
Qed.

(** After any sequence of calls: labels are 0..len-1 given in first-named order to the distinct
    symbols named, [get_label] and [get_symbol] are inverse, and adding a known symbol returns
    its label and changes nothing while adding a new one gives it the next label and moves no
    other. *)
Theorem C26_bijection (b : build) :
  let t := built b in
  symt_symbols t = firsts (named b) /\ NoDup (symt_symbols t) /\
  (forall s, In s (symt_symbols t) <-> In s (named b)) /\
  symt_labels t = seq 0 (symt_len t) /\ symt_len t = length (symt_symbols t) /\
  (forall s i, get_label t s = Some i <-> get_symbol t i = Some s) /\
  (forall s, contains_symbol t s = true <-> In s (named b)) /\
  (forall i, contains_label t i = true <-> i < symt_len t) /\
  (forall s i, get_label t s = Some i -> add_symbol t s = (t, i)) /\
  (forall s, get_label t s = None -> exists t', add_symbol t s = (t', symt_len t) /\
     (forall i, get_symbol t' i = if i =? symt_len t then Some s else get_symbol t i) /\
     (forall u i, get_label t u = Some i -> get_label t' u = Some i)).
Proof.
  intros t. destruct (built_ok b) as [T E]. fold t in T, E.
  pose proof (tok_ok _ T) as B. unfold symt_symbols.
  assert (IN : forall s, In s (id_to_tuple t) <-> In s (named b)).
  { intros s. rewrite E, first_seen_in. simpl. tauto. }
  repeat (split; [first [apply E | apply T | apply IN | reflexivity | apply B]|]).
  split.
  { intros s. unfold contains_symbol, get_label. rewrite <- IN.
    destruct (assoc bytes_eqb (tuple_to_id t) s) as [i|] eqn:A.
    - split; auto. intros _. apply B in A. eapply nth_error_In; eauto.
    - split; [discriminate|]. intros I. apply (bm_none bytes_eqb _ _ B) in A. tauto. }
  split.
  { intros i. unfold contains_label, get_symbol, symt_len. rewrite <- nth_error_Some.
    destruct (nth_error (id_to_tuple t) i); split; congruence. }
  split.
  { intros s i A. unfold add_symbol, get_id_or_insert. unfold get_label in A. now rewrite A. }
  intros s A. destruct (add_symbol_tok t s T) as (i & Ei & T' & N & C).
  assert (NI : ~ In s (id_to_tuple t)) by (apply (bm_none bytes_eqb _ _ B); exact A).
  destruct C as [[C _]|(_ & L & ->)]; [tauto|].
  eexists. split; [exact Ei|]. split.
  - intros i. unfold get_symbol, symt_len. rewrite L. destruct (Nat.eqb_spec i (length (id_to_tuple t))) as [->|NE].
    + rewrite nth_error_app2, Nat.sub_diag; auto.
    + destruct (lt_dec i (length (id_to_tuple t))).
      * rewrite nth_error_app1; auto.
      * rewrite (proj2 (nth_error_None (id_to_tuple t) i)) by lia. apply nth_error_None.
        rewrite app_length. simpl. lia.
  - intros u i U. apply (tok_ok _ T'). rewrite L. apply B in U. rewrite nth_error_app1; auto.
    apply nth_error_Some. congruence.
Qed.
Print Assumptions C26_bijection.

(** The text form reads back as the same table when no symbol contains a space, tab or newline
    (labels are 32 bits). *)
Theorem C26_text_roundtrip (b : build) :
  Forall (fun s => Forall (fun c => c <> 32%N /\ c <> 9%N /\ c <> 10%N) s) (named b) ->
  (N.of_nat (symt_len (built b)) <= 2 ^ 32)%N ->
  symt_from_text (symt_text (built b)) = Ok (built b).
Proof.
  intros F L. destruct (built_ok b) as [T E]. apply text_roundtrip; auto.
  rewrite E. apply Forall_forall. intros s I. apply first_seen_in in I as [[]|I].
  rewrite Forall_forall in F. specialize (F s I). eapply Forall_impl; [|exact F].
  intros c (A1 & A2 & A3). unfold word_char, SP, TAB, NL.
  destruct (N.eqb_spec c 32), (N.eqb_spec c 9), (N.eqb_spec c 10); tauto.
Qed.
Print Assumptions C26_text_roundtrip.

(** The binary form reads back as the same table, whatever follows it, for valid UTF-8 symbols
    shorter than 2^31 bytes; and an image cut short is rejected with an error. *)
Theorem C26_binary_roundtrip (b : build) :
  Forall (fun s => utf8_ok s = true /\ (N.of_nat (length s) < 2 ^ 31)%N) (named b) ->
  (N.of_nat (symt_len (built b)) <= 2 ^ 32)%N ->
  (forall rest, parse_bin_symt (write_bin_symt (built b) ++ rest) = Ok (built b, rest)) /\
  (forall n, n < length (write_bin_symt (built b)) -> parse_bin_symt (firstn n (write_bin_symt (built b))) = Err).
Proof.
  intros F L. destruct (built_ok b) as [T E].
  assert (R : rt parse_bin_symt (write_bin_symt (built b)) (built b)).
  { apply rt_symt; auto. rewrite E. apply Forall_forall. intros s I. apply first_seen_in in I as [[]|I].
    rewrite Forall_forall in F. apply (F s I). }
  split; [exact R|]. intros n N. eapply local_prefix; [apply local_symt| |exact N].
  rewrite <- (app_nil_r (write_bin_symt _)). apply R.
Qed.
Print Assumptions C26_binary_roundtrip.

(** The text guard is needed: with a space in a symbol the file reads back, without any error,
    as a table that has lost that symbol and every later one. *)
Theorem C26_text_space_refuted :
  let b := BAdd (BAdd BNew [97; 32; 98]%N) [99]%N in
  symt_from_text (symt_text (built b)) = Ok (built BNew) /\ symt_len (built b) = 3 /\ symt_len (built BNew) = 1.
Proof. vm_compute. auto. Qed.
Print Assumptions C26_text_space_refuted.

(** A table with a repeated, an empty and a multi-byte symbol. *)
Example C26_witness :
  let b := BTable (BAddAll BNew [[97]; [98]; [97]]%N) (BAdd (BAdd BEmpty []) [195; 169]%N) in
  named b = [EPS_SYMBOL; [97]; [98]; [97]; []; [195; 169]]%N /\
  symt_symbols (built b) = [EPS_SYMBOL; [97]; [98]; []; [195; 169]]%N /\
  symt_from_text (symt_text (built b)) = Ok (built b) /\
  parse_bin_symt (write_bin_symt (built b) ++ [1; 2]%N) = Ok (built b, [1; 2]%N) /\
  forallb utf8_ok (named b) = true.
Proof. vm_compute. auto. Qed.
