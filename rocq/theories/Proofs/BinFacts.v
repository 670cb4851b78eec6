(** Round-trip and locality facts for the binary FST formats. *)
From Coq Require Import List Arith NArith ZArith Bool String Ascii Lia.
From Verif Require Import Base.Util Base.Semiring Base.Machine
  Model.Props Model.VectorFst Model.ComputeProps Model.BiMap Model.Codec Model.SymbolTable Model.BinFst
  Proofs.BiMapFacts Proofs.CodecFacts Proofs.SymtFacts Proofs.DelStates.
Import ListNotations.
Local Open Scope N_scope.
Notation length := List.length.

Ltac rtb p := eapply (rt_bind p); cbv beta.
Ltac rt0 p := eapply (rt_bind0 p); cbv beta.
Ltac lb p := eapply (local_bind p); [|intros ?; cbv beta].

Lemma bstring_sbytes s : bstring (sbytes s) = s.
Proof.
  unfold bstring, sbytes. rewrite map_map, (map_ext _ (fun a => a)); [|apply ascii_N_embedding].
  rewrite map_id. apply string_of_list_ascii_of_string.
Qed.
Lemma sbytes_inj s t : sbytes s = sbytes t -> s = t.
Proof. intros H. rewrite <- (bstring_sbytes s), H. apply bstring_sbytes. Qed.

Lemma add_symbols_table l : forall t, tok t -> NoDup (id_to_tuple t ++ l) ->
  add_symbols t l = table_of (id_to_tuple t ++ l).
Proof.
  induction l as [|s l IH]; intros t T ND; unfold add_symbols; cbn [fold_left].
  - rewrite app_nil_r. apply T.
  - destruct (add_symbol_tok t s T) as (i & _ & T' & _ & C).
    assert (NI : ~ In s (id_to_tuple t)).
    { apply NoDup_remove_2 in ND. rewrite in_app_iff in ND. tauto. }
    destruct C as [[C _]|(_ & C & _)]; [tauto|].
    unfold add_symbols in IH. rewrite IH; auto; rewrite C, <- app_assoc; auto.
Qed.

(** The symbol tables that fit a file. *)
Definition symtab_ok (l : symtab) : Prop :=
  NoDup l /\ Forall (fun s => bin_symbol (sbytes s)) l /\ N.of_nat (length l) <= 4294967296.

Lemma to_symt_ok l : NoDup l -> tok (to_symt l) /\ id_to_tuple (to_symt l) = map sbytes l.
Proof.
  intros ND. assert (ND' : NoDup (map sbytes l)).
  { apply FinFun.Injective_map_NoDup; auto. exact sbytes_inj. }
  unfold to_symt. rewrite add_symbols_table; auto; [|apply tok_empty].
  split; [apply tok_table; exact ND'|reflexivity].
Qed.

Definition osymtab_ok (o : option symtab) : Prop := match o with Some l => symtab_ok l | None => True end.
Definition is_some {A} (o : option A) : bool := match o with Some _ => true | None => false end.

Lemma rt_opt_symt o : osymtab_ok o -> rt (parse_opt_symt (is_some o)) (write_opt_symt o) o.
Proof.
  destruct o as [l|]; simpl; intros H; [|apply rt_ret].
  destruct H as (ND & F & LE). destruct (to_symt_ok l ND) as [T E].
  unfold parse_opt_symt. rt0 parse_bin_symt.
  - apply rt_symt; auto; rewrite E; [|now rewrite map_length]. apply Forall_map. exact F.
  - unfold of_symt, symt_symbols. rewrite E, map_map, (map_ext _ (fun a => a)), map_id; [apply rt_ret|].
    apply bstring_sbytes.
Qed.
Lemma local_opt_symt b : local (parse_opt_symt b).
Proof.
  unfold parse_opt_symt. apply local_if; [|apply local_ret].
  lb parse_bin_symt; [apply local_symt|apply local_ret].
Qed.

Record header_ok (mv : Z) (ty tt : bytes) (h : header) : Prop := {
  hk_type : h_type h = ty; hk_tr : h_tr_type h = tt;
  hk_bt : bin_symbol ty; hk_btt : bin_symbol tt;
  hk_v : (mv <= h_version h < 2147483648)%Z /\ (- 2147483648 <= h_version h)%Z;
  hk_f : h_flags h < 8;
  hk_p : h_props h < 18446744073709551616;
  hk_s : (- 9223372036854775808 <= h_start h < 9223372036854775808)%Z;
  hk_n : (- 9223372036854775808 <= h_num_states h < 9223372036854775808)%Z;
  hk_t : (- 9223372036854775808 <= h_num_trs h < 9223372036854775808)%Z;
  hk_i : osymtab_ok (h_isymt h); hk_o : osymtab_ok (h_osymt h);
  hk_fi : N.testbit (h_flags h) 0 = is_some (h_isymt h);
  hk_fo : N.testbit (h_flags h) 1 = is_some (h_osymt h)
}.

Lemma rt_header mv ty tt h : header_ok mv ty tt h -> rt (parse_header mv ty tt) (write_header h) h.
Proof.
  intros [H1 H2 [B1 B1'] [B2 B2'] [V1 V2] F P S N T I O FI FO]. unfold parse_header, write_header.
  rtb (verify parse_bin_i32 (Z.eqb FST_MAGIC)).
  { apply rt_verify; [apply rt_i32; unfold FST_MAGIC; lia|reflexivity]. }
  rtb (verify parse_string (bytes_eqb ty)).
  { apply rt_verify; [apply rt_string; rewrite H1; auto|]. rewrite H1. now destruct (bytes_eqb_spec ty ty). }
  rtb (verify parse_string (bytes_eqb tt)).
  { apply rt_verify; [apply rt_string; rewrite H2; auto|]. rewrite H2. now destruct (bytes_eqb_spec tt tt). }
  rtb (verify parse_bin_i32 (Z.leb mv)).
  { apply rt_verify; [apply rt_i32; lia|]. apply Z.leb_le. lia. }
  rtb (verify parse_bin_u32 (fun v => v <? 8)).
  { apply rt_verify; [apply rt_u32; lia|]. apply N.ltb_lt. auto. }
  rtb parse_bin_u64; [apply rt_u64; auto|].
  rtb parse_bin_i64; [apply rt_i64; auto|].
  rtb parse_bin_i64; [apply rt_i64; auto|].
  rtb parse_bin_i64; [apply rt_i64; auto|].
  rtb (parse_opt_symt (N.testbit (h_flags h) 0)); [rewrite FI; apply rt_opt_symt; auto|].
  rt0 (parse_opt_symt (N.testbit (h_flags h) 1)); [rewrite FO; apply rt_opt_symt; auto|].
  destruct h. simpl in *. apply rt_ret.
Qed.

Lemma local_header mv ty tt : local (parse_header mv ty tt).
Proof.
  unfold parse_header.
  lb (verify parse_bin_i32 (Z.eqb FST_MAGIC)); [apply local_verify, local_i|].
  lb (verify parse_string (bytes_eqb ty)); [apply local_verify, local_string|].
  lb (verify parse_string (bytes_eqb tt)); [apply local_verify, local_string|].
  lb (verify parse_bin_i32 (Z.leb mv)); [apply local_verify, local_i|].
  lb (verify parse_bin_u32 (fun v => v <? 8)); [apply local_verify, local_u|].
  lb parse_bin_u64; [apply local_u|].
  lb parse_bin_i64; [apply local_i|].
  lb parse_bin_i64; [apply local_i|].
  lb parse_bin_i64; [apply local_i|].
  lb (parse_opt_symt (N.testbit a3 0)); [apply local_opt_symt|].
  lb (parse_opt_symt (N.testbit a3 1)); [apply local_opt_symt|].
  apply local_ret.
Qed.

Lemma start_roundtrip o : (forall s, o = Some s -> N.of_nat s < 4294967296) ->
  parse_start_state (start_i64 o) = o.
Proof.
  intros H. unfold parse_start_state, start_i64. destruct o as [s|]; auto. specialize (H s eq_refl).
  rewrite as_i64_small by lia. destruct (Z.eqb_spec (Z.of_N (N.of_nat s)) (-1)); [lia|].
  rewrite as_u32_small by lia. f_equal. lia.
Qed.
Lemma start_range o : (- 9223372036854775808 <= start_i64 o < 9223372036854775808)%Z.
Proof. destruct o; simpl; [apply as_i64_range|lia]. Qed.

Lemma flags_ok is os : flags_of is os < 8 /\ N.testbit (flags_of is os) 0 = is_some is /\
  N.testbit (flags_of is os) 1 = is_some os.
Proof. destruct is, os; repeat split. Qed.

Lemma props_back p st : N.land st all_properties = 0 -> N.land p all_properties = p ->
  N.land (N.lor p st) all_properties = p.
Proof. intros H E. rewrite N.land_lor_distr_l, E, H. apply N.lor_0_r. Qed.
Lemma props_range p st : st < 4 -> N.land p all_properties = p -> N.lor p st < 18446744073709551616.
Proof.
  intros S E.
  assert (X : forall a b, a < 2 ^ 64 -> b < 2 ^ 64 -> N.lor a b < 2 ^ 64).
  { intros a b A B. destruct (N.eq_dec (N.lor a b) 0) as [->|NZ]; [reflexivity|].
    apply N.log2_lt_pow2; [lia|]. rewrite N.log2_lor.
    apply N.max_lub_lt; (destruct (N.eq_dec a 0) as [->|]; [|]); (destruct (N.eq_dec b 0) as [->|]; [|]);
      try reflexivity; apply N.log2_lt_pow2; lia. }
  change 18446744073709551616 with (2 ^ 64). apply X; [|change (2 ^ 64) with 18446744073709551616; lia].
  rewrite <- E. assert (all_properties < 2 ^ 64) by reflexivity.
  destruct (N.eq_dec (N.land p all_properties) 0) as [->|NZ]; [reflexivity|].
  apply N.log2_lt_pow2; [lia|]. eapply N.le_lt_trans; [apply N.log2_land|].
  eapply N.le_lt_trans; [apply N.le_min_r|]. apply N.log2_lt_pow2; [reflexivity|auto].
Qed.

Section BF.
  Context {K : SR} (C : wcodec K).
  (** What is asked of a weight codec: every weight reads back, whatever follows it; the reader
      looks only at what it consumes; and the type name is a short string. *)
  Record wcodec_ok : Prop := {
    wk_rt : forall w r, wc_parse C (wc_write C w ++ r) = Ok (w, r);
    wk_local : local (wc_parse C);
    wk_type : bin_symbol (wc_type C)
  }.
  Context (W : wcodec_ok).
  Implicit Types (f : vfst K).

  Lemma tr_type_ok : bin_symbol (tr_type C).
  Proof. unfold tr_type. destruct (bytes_eqb _ _); [|apply W]. split; reflexivity. Qed.

  Definition tr_fits (t : tr K) : Prop :=
    N.of_nat (il t) < 4294967296 /\ N.of_nat (ol t) < 4294967296 /\ N.of_nat (ns t) < 4294967296.

  Lemma rt_tr t : tr_fits t -> rt (parse_tr C) (write_tr C t) t.
  Proof.
    intros (A & B & D). unfold parse_tr, write_tr.
    rtb parse_bin_i32; [apply rt_i32, as_i32_range|].
    rtb parse_bin_i32; [apply rt_i32, as_i32_range|].
    rtb (wc_parse C); [intros r; apply (wk_rt W)|].
    rt0 parse_bin_i32; [apply rt_i32, as_i32_range|].
    rewrite !as_i32_u32, !Nnat.Nat2N.id by auto. destruct t. apply rt_ret.
  Qed.
  Lemma local_tr : local (parse_tr C).
  Proof.
    unfold parse_tr. lb parse_bin_i32; [apply local_i|]. lb parse_bin_i32; [apply local_i|].
    lb (wc_parse C); [apply W|]. lb parse_bin_i32; [apply local_i|]. apply local_ret.
  Qed.
  Lemma eats_tr : eats (parse_tr C).
  Proof.
    unfold parse_tr. eapply (eats_bind_l parse_bin_i32); [apply eats_i; lia|]. intros a. cbv beta.
    lb parse_bin_i32; [apply local_i|].
    lb (wc_parse C); [apply W|]. lb parse_bin_i32; [apply local_i|]. apply local_ret.
  Qed.
  Lemma write_u_ne k v : write_u (S k) v <> [].
  Proof. discriminate. Qed.
  Lemma write_tr_ne t : write_tr C t <> [].
  Proof. discriminate. Qed.

  Lemma rt_trs l n : Forall tr_fits l -> n = N.of_nat (length l) ->
    rt (pcount (parse_tr C) n) (flat_map (write_tr C) l) l.
  Proof.
    intros F ->. rewrite flat_map_concat. apply rt_count; auto.
    - induction F; simpl; constructor; auto. apply rt_tr; auto.
    - apply Forall_map, Forall_forall. intros t _. apply write_tr_ne.
  Qed.

  Definition vstate_fits (st : vstate K) : Prop :=
    Forall tr_fits (vtrs st) /\ N.of_nat (length (vtrs st)) < 9223372036854775808.

  (** A zero final weight is how the file says "not final". *)
  Definition norm_fin (o : option K) : option K :=
    match o with Some w => if keqb w kzero then None else Some w | None => None end.
  Definition norm_state (st : vstate K) : vstate K := VS (norm_fin (vfin st)) (vtrs st) (vnie st) (vnoe st).
  Definition norm_vfst f : vfst K :=
    VF (map norm_state (vstates f)) (vstart f) (visymt f) (vosymt f) (vprops f).

  Lemma norm_fin_parse (L : @keqb K kzero kzero = true) o :
    parse_final_weight (match o with Some w => w | None => kzero end) = norm_fin o.
  Proof. unfold parse_final_weight, norm_fin. destruct o; auto. now rewrite L. Qed.

  Context (L : @keqb K kzero kzero = true).

  Lemma rt_vstate st : vstate_fits st -> cnt_ok st ->
    rt (parse_vstate C) (write_vstate C st) (norm_state st).
  Proof.
    intros [F N] [C1 C2]. unfold parse_vstate, write_vstate.
    rtb (wc_parse C); [intros r; apply (wk_rt W)|].
    rtb parse_bin_i64; [apply rt_i64, as_i64_range|].
    rt0 (pcount (parse_tr C) (as_usize (as_i64 (N.of_nat (length (vtrs st)))))).
    - apply rt_trs; auto. rewrite as_i64_small, as_usize_small by lia. lia.
    - rewrite (norm_fin_parse L). unfold norm_state. rewrite C1, C2. apply rt_ret.
  Qed.
  Lemma local_vstate : local (parse_vstate C).
  Proof.
    unfold parse_vstate. lb (wc_parse C); [apply W|]. lb parse_bin_i64; [apply local_i|].
    lb (pcount (parse_tr C) (as_usize a0)); [apply local_count; [apply local_tr|apply eats_tr]|].
    apply local_ret.
  Qed.
  Lemma eats_vstate : eats (parse_vstate C).
  Proof.
    unfold parse_vstate. eapply (eats_bind_r (wc_parse C)); [apply W|]. intros a. cbv beta.
    eapply (eats_bind_l parse_bin_i64); [apply eats_i; lia|]. intros b. cbv beta.
    lb (pcount (parse_tr C) (as_usize b)); [apply local_count; [apply local_tr|apply eats_tr]|].
    apply local_ret.
  Qed.
  Lemma write_vstate_ne st : write_vstate C st <> [].
  Proof.
    unfold write_vstate. intros H. apply app_eq_nil in H as [_ H]. discriminate.
  Qed.

  Record fits f : Prop := {
    ft_states : Forall vstate_fits (vstates f);
    ft_num : N.of_nat (num_states f) < 9223372036854775808;
    ft_start : forall s, vstart f = Some s -> N.of_nat s < 4294967296;
    ft_isymt : osymtab_ok (visymt f);
    ft_osymt : osymtab_ok (vosymt f);
    ft_props : N.land (vprops f) all_properties = vprops f
  }.

  Lemma rt_vector f : fits f -> Forall cnt_ok (vstates f) ->
    rt (parse_vector C) (store_vector C f) (norm_vfst f).
  Proof.
    intros [F N S I O P] CN. unfold parse_vector, store_vector.
    destruct (flags_ok (visymt f) (vosymt f)) as (F1 & F2 & F3).
    rtb (parse_header 2 vector_type (tr_type C)).
    { apply rt_header. split; cbn [h_type h_tr_type h_version h_flags h_props h_start h_num_states h_num_trs h_isymt h_osymt]; auto.
      - split; reflexivity.
      - apply tr_type_ok.
      - lia.
      - apply props_range; auto. reflexivity.
      - apply start_range.
      - apply as_i64_range.
      - apply as_i64_range. }
    cbn [h_type h_tr_type h_version h_flags h_props h_start h_num_states h_num_trs h_isymt h_osymt].
    rt0 (pcount (parse_vstate C) (as_usize (as_i64 (N.of_nat (num_states f))))).
    { rewrite flat_map_concat. apply rt_count with (l := map norm_state (vstates f)).
      - clear N. induction (vstates f) as [|st l IH]; simpl; constructor.
        + apply rt_vstate; [exact (Forall_inv F)|exact (Forall_inv CN)].
        + apply IH; [exact (Forall_inv_tail F)|exact (Forall_inv_tail CN)].
      - apply Forall_map, Forall_forall. intros t _. apply write_vstate_ne.
      - rewrite map_length. rewrite as_i64_small, as_usize_small by lia. unfold num_states. lia. }
    rewrite start_roundtrip by auto. rewrite props_back; auto. apply rt_ret.
  Qed.
  Lemma local_vector : local (parse_vector C).
  Proof.
    unfold parse_vector. lb (parse_header 2 vector_type (tr_type C)); [apply local_header|].
    lb (pcount (parse_vstate C) (as_usize (h_num_states a))); [apply local_count; [apply local_vstate|apply eats_vstate]|].
    apply local_ret.
  Qed.

  (** Const FSTs. *)
  Definition cstate_fits (st : cstate K) : Prop :=
    N.of_nat (cpos st) < 2147483648 /\ N.of_nat (cntrs st) < 2147483648 /\
    N.of_nat (cnie st) < 2147483648 /\ N.of_nat (cnoe st) < 2147483648.
  Definition norm_cstate (st : cstate K) : cstate K :=
    CState (norm_fin (cfin st)) (cpos st) (cntrs st) (cnie st) (cnoe st).

  Lemma i32_usize n : N.of_nat n < 2147483648 -> N.to_nat (as_usize (as_i32 (N.of_nat n))) = n.
  Proof. intros H. rewrite as_i32_small, as_usize_small by lia. lia. Qed.

  Lemma rt_cstate st : cstate_fits st -> rt (parse_cstate C) (write_cstate C st) (norm_cstate st).
  Proof.
    intros (A & B & D & E). unfold parse_cstate, write_cstate.
    rtb (wc_parse C); [intros r; apply (wk_rt W)|].
    rtb parse_bin_i32; [apply rt_i32, as_i32_range|].
    rtb parse_bin_i32; [apply rt_i32, as_i32_range|].
    rtb parse_bin_i32; [apply rt_i32, as_i32_range|].
    rt0 parse_bin_i32; [apply rt_i32, as_i32_range|].
    rewrite !i32_usize by auto. rewrite (norm_fin_parse L). apply rt_ret.
  Qed.
  Lemma local_cstate : local (parse_cstate C).
  Proof.
    unfold parse_cstate. lb (wc_parse C); [apply W|]. repeat (lb parse_bin_i32; [apply local_i|]). apply local_ret.
  Qed.
  Lemma eats_cstate : eats (parse_cstate C).
  Proof.
    unfold parse_cstate. eapply (eats_bind_r (wc_parse C)); [apply W|]. intros a. cbv beta.
    eapply (eats_bind_l parse_bin_i32); [apply eats_i; lia|]. intros b. cbv beta.
    repeat (lb parse_bin_i32; [apply local_i|]). apply local_ret.
  Qed.
  Lemma write_cstate_ne st : write_cstate C st <> [].
  Proof. unfold write_cstate. intros H. apply app_eq_nil in H as [_ H]. discriminate. Qed.

  Record cfits (c : cfst K) : Prop := {
    cf_states : Forall cstate_fits (cstates c);
    cf_num : N.of_nat (length (cstates c)) < 9223372036854775808;
    cf_trs : Forall tr_fits (ctrs c);
    cf_ntrs : N.of_nat (length (ctrs c)) < 9223372036854775808;
    cf_start : forall s, cstart c = Some s -> N.of_nat s < 4294967296;
    cf_isymt : osymtab_ok (cisymt c);
    cf_osymt : osymtab_ok (cosymt c);
    cf_props : N.land (cprops c) all_properties = cprops c
  }.
  Definition norm_cfst (c : cfst K) : cfst K :=
    CF (map norm_cstate (cstates c)) (ctrs c) (cstart c) (cisymt c) (cosymt c) (cprops c).

  (** The two loaders without the alignment that only version 1 files have. *)
  Definition const_body (h : header) : parser (cfst K) := fun i =>
    cs & i <~ pcount (parse_cstate C) (as_usize (h_num_states h)) i ;;
    ts & i <~ pcount (parse_tr C) (as_usize (h_num_trs h)) i ;;
    Ok (CF cs ts (parse_start_state (h_start h)) (h_isymt h) (h_osymt h) (N.land (h_props h) all_properties), i).
  Definition cvec_body (h : header) : parser (vfst K) := fun i =>
    cs & i <~ pcount (parse_cstate C) (as_usize (h_num_states h)) i ;;
    vs & i <~ parse_const_trs C cs i ;;
    Ok (VF vs (parse_start_state (h_start h)) (h_isymt h) (h_osymt h) (N.land (h_props h) all_properties), i).

  Lemma local_const_body h : local (const_body h).
  Proof.
    unfold const_body. lb (pcount (parse_cstate C) (as_usize (h_num_states h))); [apply local_count; [apply local_cstate|apply eats_cstate]|].
    lb (pcount (parse_tr C) (as_usize (h_num_trs h))); [apply local_count; [apply local_tr|apply eats_tr]|]. apply local_ret.
  Qed.
  Lemma local_const_trs l : local (parse_const_trs C l).
  Proof.
    induction l as [|c l IH]; [apply local_ret|]. cbn [parse_const_trs].
    lb (pcount (parse_tr C) (N.of_nat (cntrs c))); [apply local_count; [apply local_tr|apply eats_tr]|].
    lb (parse_const_trs C l); [exact IH|]. apply local_ret.
  Qed.
  Lemma local_cvec_body h : local (cvec_body h).
  Proof.
    unfold cvec_body. lb (pcount (parse_cstate C) (as_usize (h_num_states h))); [apply local_count; [apply local_cstate|apply eats_cstate]|].
    lb (parse_const_trs C a); [apply local_const_trs|]. apply local_ret.
  Qed.

  Lemma parse_const_v2 i : (forall h r, parse_header 1 const_type (tr_type C) i = Ok (h, r) -> h_version h <> 1%Z) ->
    parse_const C i = (h & i <~ parse_header 1 const_type (tr_type C) i ;; const_body h i) /\
    parse_const_as_vector C i = (h & i <~ parse_header 1 const_type (tr_type C) i ;; cvec_body h i).
  Proof.
    intros H. unfold parse_const, parse_const_as_vector, const_body, cvec_body. cbv zeta.
    destruct (parse_header 1 const_type (tr_type C) i) as [[h r]| |]; auto. cbn [pbind].
    specialize (H h r eq_refl). apply Z.eqb_neq in H. rewrite H.
    change (align (length i) false (h_num_states h) r) with (Ok r). cbn [rbind].
    destruct (pcount (parse_cstate C) (as_usize (h_num_states h)) r) as [[cs r']| |]; auto. 
  Qed.

  Definition const_header (c : cfst K) : header :=
    HD const_type (tr_type C) 2 (flags_of (cisymt c) (cosymt c))
      (N.lor (cprops c) const_static) (start_i64 (cstart c))
      (as_i64 (N.of_nat (length (cstates c)))) (as_i64 (N.of_nat (length (ctrs c))))
      (cisymt c) (cosymt c).
  Lemma rt_const_header c : cfits c -> rt (parse_header 1 const_type (tr_type C)) (write_header (const_header c)) (const_header c).
  Proof.
    intros [F N T M S I O P]. unfold const_header.
    destruct (flags_ok (cisymt c) (cosymt c)) as (F1 & F2 & F3).
    apply rt_header. split; cbn [h_type h_tr_type h_version h_flags h_props h_start h_num_states h_num_trs h_isymt h_osymt]; auto.
    - split; reflexivity.
    - apply tr_type_ok.
    - lia.
    - apply props_range; auto. reflexivity.
    - apply start_range.
    - apply as_i64_range.
    - apply as_i64_range.
  Qed.

  Lemma rt_const_body c : cfits c ->
    rt (const_body (const_header c)) (flat_map (write_cstate C) (cstates c) ++ flat_map (write_tr C) (ctrs c)) (norm_cfst c).
  Proof.
    intros [F N T M S I O P]. unfold const_body, const_header.
    cbn [h_type h_tr_type h_version h_flags h_props h_start h_num_states h_num_trs h_isymt h_osymt].
    rtb (pcount (parse_cstate C) (as_usize (as_i64 (N.of_nat (length (cstates c)))))).
    { rewrite flat_map_concat. apply rt_count with (l := map norm_cstate (cstates c)).
      - clear N. induction F; simpl; constructor; auto. apply rt_cstate; auto.
      - apply Forall_map, Forall_forall. intros t _. apply write_cstate_ne.
      - rewrite map_length. rewrite as_i64_small, as_usize_small by lia. lia. }
    rt0 (pcount (parse_tr C) (as_usize (as_i64 (N.of_nat (length (ctrs c)))))).
    { apply rt_trs; auto. rewrite as_i64_small, as_usize_small by lia. lia. }
    rewrite start_roundtrip by auto. rewrite props_back; auto. apply rt_ret.
  Qed.

  Lemma rt_const c : cfits c -> rt (parse_const C) (store_const C c) (norm_cfst c).
  Proof.
    intros F r. unfold store_const. rewrite <- app_assoc.
    pose proof (rt_const_header c F ((flat_map (write_cstate C) (cstates c) ++ flat_map (write_tr C) (ctrs c)) ++ r)) as H.
    fold (const_header c). 
    destruct (parse_const_v2 (write_header (const_header c) ++ (flat_map (write_cstate C) (cstates c) ++ flat_map (write_tr C) (ctrs c)) ++ r)) as [E _].
    { intros h r' X. rewrite H in X. injection X as <- _. discriminate. }
    rewrite E, H. cbn [pbind]. apply rt_const_body; auto.
  Qed.

  (** The states of a const FST as laid out by the conversion. *)
  Lemma rt_const_trs (l : list (vstate K)) : forall pos,
    Forall vstate_fits l ->
    rt (parse_const_trs C (map norm_cstate (fst (lay_out pos l)))) (flat_map (write_tr C) (snd (lay_out pos l))) (map norm_state l).
  Proof.
    induction l as [|s l IH]; intros pos F; [apply rt_ret|]. cbn [lay_out].
    specialize (IH (pos + length (vtrs s))%nat (Forall_inv_tail F)).
    destruct (lay_out (pos + length (vtrs s)) l) as [cs ts]. cbn [fst snd map parse_const_trs] in *.
    rewrite flat_map_app. rtb (pcount (parse_tr C) (N.of_nat (length (vtrs s)))).
    { apply rt_trs; auto. apply (Forall_inv F). }
    rt0 (parse_const_trs C (map norm_cstate cs)); [exact IH|]. apply rt_ret.
  Qed.

  Lemma lay_out_trs (l : list (vstate K)) : forall pos, snd (lay_out pos l) = flat_map vtrs l.
  Proof.
    induction l as [|s l IH]; intros pos; auto. cbn [lay_out]. specialize (IH (pos + length (vtrs s))%nat).
    destruct (lay_out (pos + length (vtrs s)) l). simpl in *. congruence.
  Qed.
  Lemma lay_out_length (l : list (vstate K)) : forall pos, length (fst (lay_out pos l)) = length l.
  Proof.
    induction l as [|s l IH]; intros pos; auto. cbn [lay_out]. specialize (IH (pos + length (vtrs s))%nat).
    destruct (lay_out (pos + length (vtrs s)) l). simpl in *. congruence.
  Qed.
  Lemma lay_out_nth (l : list (vstate K)) : forall pos s st, nth_error l s = Some st ->
    nth_error (fst (lay_out pos l)) s =
      Some (CState (vfin st) (pos + length (flat_map vtrs (firstn s l))) (length (vtrs st)) (vnie st) (vnoe st)).
  Proof.
    induction l as [|v l IH]; intros pos [|s] st H; try discriminate; cbn [lay_out].
    - injection H as ->. destruct (lay_out (pos + length (vtrs st)) l). simpl. now rewrite Nat.add_0_r.
    - specialize (IH (pos + length (vtrs v))%nat s st H).
      destruct (lay_out (pos + length (vtrs v)) l). cbn [fst nth_error firstn flat_map] in *. rewrite IH, app_length.
      now rewrite Nat.add_assoc.
  Qed.

  Lemma local_const c : cfits c ->
    (forall n, (n < length (store_const C c))%nat -> parse_const C (firstn n (store_const C c)) = Err) /\
    ((exists a, parse_const_as_vector C (store_const C c) = Ok (a, [])) ->
     forall n, (n < length (store_const C c))%nat -> parse_const_as_vector C (firstn n (store_const C c)) = Err).
  Proof.
    intros F.
    assert (V : forall n h r, parse_header 1 const_type (tr_type C) (firstn n (store_const C c)) = Ok (h, r) -> h_version h <> 1%Z).
    { intros n h r H. destruct (proj1 (local_header 1 const_type (tr_type C)) _ _ _ H) as (p & E & X).
      specialize (X (r ++ skipn n (store_const C c))). rewrite app_assoc, <- E, firstn_skipn in X.
      unfold store_const in X. fold (const_header c) in X. rewrite rt_const_header in X by auto.
      injection X as <- _. discriminate. }
    assert (V0 : forall h r, parse_header 1 const_type (tr_type C) (store_const C c) = Ok (h, r) -> h_version h <> 1%Z).
    { intros h r. specialize (V (length (store_const C c)) h r). now rewrite firstn_all in V. }
    split.
    - intros n N. destruct (parse_const_v2 _ (V n)) as [-> _].
      apply (local_prefix (fun i => pbind (parse_header 1 const_type (tr_type C) i) const_body) (store_const C c) (norm_cfst c)); auto.
      + lb (parse_header 1 const_type (tr_type C)); [apply local_header|]. apply local_const_body.
      + transitivity (parse_const C (store_const C c)); [symmetry; apply parse_const_v2; exact V0|].
        replace (store_const C c) with (store_const C c ++ []) by apply app_nil_r. apply rt_const; auto.
    - intros [a A] n N. destruct (parse_const_v2 _ (V n)) as [_ ->].
      apply (local_prefix (fun i => pbind (parse_header 1 const_type (tr_type C) i) cvec_body) (store_const C c) a); auto.
      + lb (parse_header 1 const_type (tr_type C)); [apply local_header|]. apply local_cvec_body.
      + transitivity (parse_const_as_vector C (store_const C c)); [symmetry; apply parse_const_v2; exact V0|auto].
  Qed.

  Lemma rt_const_vector c (l : list (vstate K)) : cfits c -> Forall vstate_fits l -> cstates c = fst (lay_out 0 l) -> ctrs c = snd (lay_out 0 l) ->
    rt (parse_const_as_vector C) (store_const C c)
       (VF (map norm_state l) (cstart c) (cisymt c) (cosymt c) (cprops c)).
  Proof.
    intros F FL E1 E2 r. unfold store_const. rewrite <- app_assoc.
    pose proof (rt_const_header c F ((flat_map (write_cstate C) (cstates c) ++ flat_map (write_tr C) (ctrs c)) ++ r)) as H.
    fold (const_header c).
    destruct (parse_const_v2 (write_header (const_header c) ++ (flat_map (write_cstate C) (cstates c) ++ flat_map (write_tr C) (ctrs c)) ++ r)) as [_ E].
    { intros h r' X. rewrite H in X. injection X as <- _. discriminate. }
    rewrite E, H. cbn [pbind]. clear E H. revert r.
    change (rt (cvec_body (const_header c)) (flat_map (write_cstate C) (cstates c) ++ flat_map (write_tr C) (ctrs c))
       (VF (map norm_state l) (cstart c) (cisymt c) (cosymt c) (cprops c))).
    destruct F as [F N T M S I O P]. unfold cvec_body, const_header.
    cbn [h_type h_tr_type h_version h_flags h_props h_start h_num_states h_num_trs h_isymt h_osymt].
    rtb (pcount (parse_cstate C) (as_usize (as_i64 (N.of_nat (length (cstates c)))))).
    { rewrite flat_map_concat. apply rt_count with (l := map norm_cstate (cstates c)).
      - clear N E1. induction F; simpl; constructor; auto. apply rt_cstate; auto.
      - apply Forall_map, Forall_forall. intros t _. apply write_cstate_ne.
      - rewrite map_length. rewrite as_i64_small, as_usize_small by lia. lia. }
    rt0 (parse_const_trs C (map norm_cstate (cstates c))).
    { rewrite E1, E2. apply rt_const_trs; auto. }
    rewrite start_roundtrip by auto. rewrite props_back; auto. apply rt_ret.
  Qed.
End BF.
