(** C64: string paths. *)
From Coq Require Import List Arith NArith Bool Lia.
From Verif Require Import Base.Util Base.Semiring Base.Machine Base.Instances Model.BiMap Model.Codec Model.SymbolTable Model.VectorFst Model.History Model.FstPath Model.Paths Model.StringPath.
From Verif Require Import Proofs.VectorFacts Proofs.BiMapFacts Proofs.CodecFacts Proofs.SymtFacts Props.C26 Props.C32.
Import ListNotations.

(** ** Specification *)
(** The words of a text: maximal runs without spaces. *)
Fixpoint words_from (cur : bytes) (s : bytes) : list bytes :=
  match s with
  | [] => match cur with [] => [] | _ => [cur] end
  | b :: s' => if N.eqb b 32 then match cur with [] => words_from [] s' | _ => cur :: words_from [] s' end
               else words_from (cur ++ [b]) s'
  end.
Definition words_of (s : bytes) : list bytes := words_from [] s.
(** A symbol that is a word. *)
Definition is_word (s : bytes) : Prop := s <> [] /\ ~ In 32%N s.

Lemma words_app w : ~ In 32%N w -> forall cur s, words_from cur (w ++ s) = words_from (cur ++ w) s.
Proof.
  induction w as [|b w IH]; intros H cur s; cbn [app words_from]; [rewrite app_nil_r; auto|].
  destruct (N.eqb_spec b 32) as [->|]; [exfalso; apply H; left; auto|]. rewrite IH by (intros I; apply H; right; auto).
  rewrite <- app_assoc. auto.
Qed.
Lemma words_join l : (forall s, In s l -> is_word s) -> words_of (join_space l) = l.
Proof.
  unfold words_of. induction l as [|s l IH]; intros H; [reflexivity|]. cbn [join_space].
  destruct (H s (or_introl eq_refl)) as [N S]. rewrite words_app by auto. cbn [app]. destruct l as [|s2 l].
  - cbn. destruct s; [congruence|auto].
  - cbn [words_from]. change (N.eqb 32 32) with true. cbv iota. destruct s; [congruence|]. f_equal. apply IH. intros. apply H. right. auto.
Qed.
Lemma all_symbols_ok t l r : all_symbols t l = Ok r -> Forall2 (fun a s => get_symbol t a = Some s) l r.
Proof.
  revert r. induction l as [|a l IH]; intros r; cbn [all_symbols]; [intros [= <-]; constructor|].
  destruct (get_symbol t a) as [s|] eqn:E; [|discriminate]. destruct (all_symbols t l) as [r'| |]; try discriminate. cbn [rbind]. intros [= <-].
  constructor; auto.
Qed.
Lemma all_symbols_total t l : (forall a, In a l -> contains_label t a = true) -> exists r, all_symbols t l = Ok r.
Proof.
  induction l as [|a l IH]; intros H; cbn [all_symbols]; [eauto|].
  pose proof (H a (or_introl eq_refl)) as E. unfold contains_label in E. destruct (get_symbol t a); [|discriminate].
  destruct IH as [r ->]; [intros; apply H; right; auto|]. cbn. eauto.
Qed.
Lemma all_symbols_err t l : all_symbols t l <> Panic /\ (all_symbols t l = Err -> exists a, In a l /\ contains_label t a = false).
Proof.
  induction l as [|a l [IH1 IH2]]; cbn [all_symbols]; [split; congruence|]. destruct (get_symbol t a) as [s|] eqn:E.
  - destruct (all_symbols t l) eqn:E2; cbn [rbind]; split; try congruence. intros _. destruct IH2 as (b & I & C); auto. exists b. split; auto. right; auto.
  - split; [congruence|]. intros _. exists a. split; [left; auto|]. unfold contains_label. rewrite E. auto.
Qed.

Section C64.
  Context {K : SR} (L : lsr_laws K).
  Implicit Types p : string_path K.

  (** Both tables are needed. *)
  Theorem C64_tables (f : vfst K) it ot : spi_new f it ot = Err <-> (it = None \/ ot = None).
  Proof. destruct it, ot; cbn; split; intros; try tauto; try discriminate; destruct H; discriminate. Qed.

  (** The paths are those of the paths iterator, shortest first, each with both tables. *)
  Theorem C64_paths (f : vfst K) i o it fuel n r : closed f -> spi_new f (Some i) (Some o) = Ok it -> spi_calls fuel f n it = Some r ->
    exists rs, r = Ok rs /\ exists k0, forall k, k0 <= k ->
      rs = firstn n (map (fun q => Some (SPath q i o)) (accepted f k) ++ repeat None n).
  Proof.
    intros C [= <-].
    assert (G : forall n q r, spi_calls fuel f n (SPI i o q) = Some r ->
      exists r', pi_calls fuel f n q = Some r' /\ r = rmap (map (option_map (fun q => SPath q i o))) r').
    { clear n r. induction n as [|n IH]; intros q r; cbn [spi_calls pi_calls]; [intros [= <-]; eexists; split; eauto|].
      unfold spi_next. cbn [spi_queue spi_isymt spi_osymt].
      destruct (pi_next fuel f q) as [[[x q']| |]|]; cbn [rmap fst snd]; try (intros [= <-]; eexists; split; eauto; fail).
      destruct (spi_calls fuel f n (SPI i o q')) as [r2|] eqn:E2; [|discriminate]. destruct (IH _ _ E2) as (r' & E3 & ->). rewrite E3.
      destruct r' as [l| |]; cbn [rmap]; intros [= <-]; eexists; split; eauto. }
    intros E. destruct (G n _ _ E) as (r' & E' & ->). destruct (C32_lists L f fuel n r' C E') as (rs & -> & _ & k0 & H).
    eexists. split; [reflexivity|]. exists k0. intros k Hk. rewrite (H k Hk), <- firstn_map, map_app, map_map. f_equal. f_equal.
    clear. induction n; cbn; auto. f_equal. auto.
  Qed.

  (** A string exists exactly when every label is in the table; nothing panics. *)
  Theorem C64_string_exists p :
    ((forall a, In a (sp_ilabels p) -> contains_label (sp_isymt p) a = true) <-> exists s, istring p = Ok s) /\
    ((forall a, In a (sp_olabels p) -> contains_label (sp_osymt p) a = true) <-> exists s, ostring p = Ok s) /\
    istring p <> Panic /\ ostring p <> Panic.
  Proof.
    assert (G : forall t l, ((forall a, In a l -> contains_label t a = true) <-> exists s, (r <-- all_symbols t l ;; Ok (join_space r)) = Ok s) /\
       (r <-- all_symbols t l ;; Ok (join_space r)) <> Panic).
    { intros t l. split; [split|].
      - intros H. destruct (all_symbols_total t l H) as [r ->]. cbn. eauto.
      - intros [s H] a Ha. destruct (all_symbols t l) as [r| |] eqn:E; try discriminate. apply all_symbols_ok in E.
        clear H. induction E as [|b s' l r' E1 E2 IH]; [destruct Ha|]. destruct Ha as [->|Ha]; [unfold contains_label; rewrite E1; auto|auto].
      - destruct (all_symbols t l) eqn:E; cbn; try discriminate. exfalso. apply (proj1 (all_symbols_err t l)). auto. }
    destruct (G (sp_isymt p) (sp_ilabels p)) as [G1 G2]. destruct (G (sp_osymt p) (sp_olabels p)) as [G3 G4]. auto.
  Qed.

  (** Reading the string back: if the symbols of the table are words, the labels of the words of the string
      are the labels of the path. *)
  Lemma read_back b l s : (forall w, In w (named b) -> is_word w) ->
    (r <-- all_symbols (built b) l ;; Ok (join_space r)) = Ok s -> map (get_label (built b)) (words_of s) = map Some l.
  Proof.
    intros W. destruct (C26_bijection b) as (_ & _ & SN & _ & _ & GL & _).
    destruct (all_symbols (built b) l) as [r| |] eqn:E; try discriminate. cbn [rbind]. intros [= <-]. apply all_symbols_ok in E.
    rewrite words_join.
    - induction E as [|a s l r E1 E2 IH]; cbn [map]; auto. rewrite IH. f_equal. apply GL. auto.
    - intros w I. apply W, SN. clear -E I. induction E as [|a s l r E1 E2 IH]; [destruct I|]. destruct I as [->|I]; auto. eapply nth_error_In. exact E1.
  Qed.
  Theorem C64_read_back p b s : sp_isymt p = built b -> (forall w, In w (named b) -> is_word w) ->
    istring p = Ok s -> map (get_label (built b)) (words_of s) = map Some (sp_ilabels p).
  Proof. intros E W. unfold istring. rewrite E. apply read_back. auto. Qed.
  Theorem C64_read_back_output p b s : sp_osymt p = built b -> (forall w, In w (named b) -> is_word w) ->
    ostring p = Ok s -> map (get_label (built b)) (words_of s) = map Some (sp_olabels p).
  Proof. intros E W. unfold ostring. rewrite E. apply read_back. auto. Qed.
  (** Two paths with the same string have the same labels. *)
  Theorem C64_injective p (q : string_path K) b s : sp_isymt p = built b -> sp_isymt q = built b -> (forall w, In w (named b) -> is_word w) ->
    istring p = Ok s -> istring q = Ok s -> sp_ilabels p = sp_ilabels q.
  Proof.
    intros E1 E2 W H1 H2. apply (C64_read_back p b s E1 W) in H1. apply (C64_read_back q b s E2 W) in H2. rewrite H1 in H2.
    revert H2. generalize (sp_ilabels p) (sp_ilabels q). clear. induction l as [|a l IH]; intros [|c m]; cbn; intros H; try discriminate; auto.
    injection H as -> H. f_equal. auto.
  Qed.
End C64.
Print Assumptions C64_tables.
Print Assumptions C64_paths.
Print Assumptions C64_string_exists.
Print Assumptions C64_read_back.
Print Assumptions C64_injective.

(** ** Witnesses *)
(** "a", "bc". *)
Definition c64_b : build := BAdd (BAdd BNew [97]%N) [98; 99]%N.
Definition c64_f : vfst natSR := match run vnew [OAddStates 3; OSetStart 0; OSetFinal 2 5; OAddTr 0 (Tr 1 2 1 1); OAddTr 1 (Tr 2 0 1 2)] with Ok f => f | _ => vnew end.
Example C64_witness : (forall w, In w (named c64_b) -> is_word w) /\
  exists it p, spi_new c64_f (Some (built c64_b)) (Some (built c64_b)) = Ok it /\
    spi_calls 10 c64_f 2 it = Some (Ok [Some p; None]) /\ istring p = Ok [97; 32; 98; 99]%N /\ ostring p = Ok [98; 99]%N /\
    sp_weight p = 5 /\ words_of [97; 32; 98; 99]%N = [[97]; [98; 99]]%N.
Proof.
  split.
  - intros w I. cbn in I. repeat destruct I as [<-|I]; try destruct I; (split; [discriminate|]); cbn; intros H; repeat destruct H as [H|H]; try discriminate; auto.
  - eexists. eexists. repeat match goal with |- _ /\ _ => split end; vm_compute; reflexivity.
Qed.

(** A symbol with a space: two sequences of labels have the same string. *)
Theorem C64_space_refuted : exists (b : build) (p q : string_path natSR) s,
  sp_isymt p = built b /\ sp_isymt q = built b /\ istring p = Ok s /\ istring q = Ok s /\ sp_ilabels p <> sp_ilabels q.
Proof.
  set (b := BAdd (BAdd (BAdd BNew [97]%N) [98]%N) [97; 32; 98]%N).
  exists b, (SPath (FP [1; 2] [] 1) (built b) (built b)), (SPath (FP [3] [] 1) (built b) (built b)), [97; 32; 98]%N.
  repeat match goal with |- _ /\ _ => split end; try (vm_compute; reflexivity). discriminate.
Qed.
Print Assumptions C64_space_refuted.
