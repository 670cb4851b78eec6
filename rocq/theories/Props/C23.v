(** C23: binary FST files read back as the machine they were written from. *)
From Coq Require Import List Arith NArith ZArith Bool String Lia.
From Verif Require Import Base.Util Base.Semiring Base.Machine Base.Instances
  Model.Props Model.VectorFst Model.ComputeProps Model.BiMap Model.Codec Model.SymbolTable Model.BinFst Model.History
  Proofs.CodecFacts Proofs.SymtFacts Proofs.DelStates Proofs.TrOpsFacts Proofs.HistoryFacts Proofs.BinFacts.
Import ListNotations.
Notation length := List.length.

Section C23.
  Context {K : SR} (L : lsr_laws K).
  Implicit Types (f : vfst K).

  (** A symbol table whose symbols are distinct, valid UTF-8 and below 2^31 bytes. *)
  Definition table_fits (l : symtab) : Prop :=
    NoDup l /\ (N.of_nat (length l) <= 2 ^ 32)%N /\
    (forall s, In s l -> utf8_ok (sbytes s) = true /\ (N.of_nat (length (sbytes s)) < 2 ^ 31)%N).

  (** Labels and states are [u32], lengths are below 2^63, stored property bits are declared
      ones: true of every machine the program can hold. *)
  Record storable f : Prop := {
    sb_trs : forall s t, In t (trs_of f s) ->
      (N.of_nat (il t) < 2 ^ 32 /\ N.of_nat (ol t) < 2 ^ 32 /\ N.of_nat (ns t) < 2 ^ 32)%N;
    sb_start : forall s, vstart f = Some s -> (N.of_nat s < 2 ^ 32)%N;
    sb_states : (N.of_nat (num_states f) < 2 ^ 63)%N;
    sb_ntrs : forall s, (N.of_nat (length (trs_of f s)) < 2 ^ 63)%N;
    sb_isymt : forall l, visymt f = Some l -> table_fits l;
    sb_osymt : forall l, vosymt f = Some l -> table_fits l;
    sb_props : N.land (vprops f) all_properties = vprops f
  }.

  Lemma table_fits_ok o : (forall l, o = Some l -> table_fits l) -> osymtab_ok o.
  Proof.
    intros H. destruct o as [l|]; simpl; auto. destruct (H l eq_refl) as (A & B & C).
    split; auto. split; auto. apply Forall_forall. intros s I. apply C; auto.
  Qed.
  Lemma storable_fits f : storable f -> fits f.
  Proof.
    intros [A B C D E F G]. split; auto using table_fits_ok.
    apply Forall_forall. intros st I. apply In_nth_error in I as [s I].
    assert (X : trs_of f s = vtrs st) by (unfold trs_of; now rewrite I). split.
    - apply Forall_forall. intros t T. apply (A s). now rewrite X.
    - rewrite <- X. apply D.
  Qed.

  (** For every machine made by any sequence of calls and every weight codec that reads back
      what it writes: loading what was stored, whatever follows it, gives the machine itself,
      with final weights equal to zero read as "not final"; and no proper prefix is accepted. *)
  Theorem C23_roundtrip (C : wcodec K) (calls : list (op K)) f :
    wcodec_ok C -> run vnew calls = Ok f -> storable f ->
    exists g, (forall rest, load_vector C (store_vector C f ++ rest) = Ok g) /\
      num_states g = num_states f /\ vstart g = vstart f /\
      (forall s, trs_of g s = trs_of f s) /\
      (forall s, fin_of g s = match fin_of f s with
                              | Some w => if keqb w kzero then None else Some w
                              | None => None
                              end) /\
      (forall s, num_input_epsilons g s = num_input_epsilons f s /\
                 num_output_epsilons g s = num_output_epsilons f s) /\
      visymt g = visymt f /\ vosymt g = vosymt f /\ vprops g = vprops f /\
      (forall n s x y, wt (mach g) n s x y = wt (mach f) n s x y) /\
      ((forall s, fin_of f s <> Some kzero) -> g = f) /\
      (forall n, n < length (store_vector C f) -> load_vector C (firstn n (store_vector C f)) = Err).
  Proof.
    intros W R S. apply storable_fits in S.
    assert (CN : cnt f) by (eapply run_cnt; eauto; constructor).
    assert (KE : @keqb K kzero kzero = true) by (apply (keqb_spec K L); auto).
    pose proof (rt_vector C W KE f S CN) as RT.
    exists (norm_vfst f).
    assert (T : forall s, trs_of (norm_vfst f) s = trs_of f s).
    { intros s. unfold trs_of. simpl. rewrite nth_error_map. now destruct (nth_error (vstates f) s). }
    assert (F : forall s, fin_of (norm_vfst f) s = norm_fin (fin_of f s)).
    { intros s. unfold fin_of. simpl. rewrite nth_error_map. now destruct (nth_error (vstates f) s). }
    split; [intros rest; unfold load_vector; now rewrite RT|].
    split; [apply map_length|]. split; [reflexivity|]. split; [exact T|]. split; [exact F|].
    split.
    { intros s. unfold num_input_epsilons, num_output_epsilons, get_state. simpl. rewrite nth_error_map.
      now destruct (nth_error (vstates f) s). }
    split; [reflexivity|]. split; [reflexivity|]. split; [reflexivity|].
    split.
    { intros n s x y. apply wt_ext; [exact T|]. intros q. change (mfin (mach (norm_vfst f)) q) with (fin_of (norm_vfst f) q).
      rewrite F. change (mfin (mach f) q) with (fin_of f q). destruct (fin_of f q) as [w|]; auto. simpl.
      destruct (keqb w kzero) eqn:E; auto. apply (keqb_spec K L) in E. now subst. }
    split.
    { intros H. unfold norm_vfst. destruct f as [l st is os p]. simpl. f_equal.
      rewrite (map_ext_in _ (fun x => x)); [apply map_id|]. intros v I. unfold norm_state.
      assert (X : norm_fin (vfin v) = vfin v).
      { apply In_nth_error in I as [s I]. specialize (H s). unfold fin_of in H. simpl in H. rewrite I in H.
        destruct (vfin v) as [w|]; auto. simpl. destruct (keqb w kzero) eqn:E; auto. apply (keqb_spec K L) in E. congruence. }
      rewrite X. now destruct v. }
    intros n N. unfold load_vector.
    rewrite (local_prefix (parse_vector C) (store_vector C f) (norm_vfst f) n); auto.
    - apply local_vector; auto.
    - replace (store_vector C f) with (store_vector C f ++ []) by apply app_nil_r. apply RT.
  Qed.
End C23.
Print Assumptions C23_roundtrip.

(** A codec for the example semiring: a tag byte and a decimal number. *)
Definition nat_codec : wcodec tropN :=
  {| wc_type := sbytes "tropical";
     wc_write := fun w => match w with None => [0%N] | Some n => 1%N :: dec (N.of_nat n) ++ [255%N] end;
     wc_parse := fun i =>
       match i with
       | 0%N :: r => Ok (None, r)
       | 1%N :: r => match take_while is_digit r with
                     | (ds, b :: r') => Ok (Some (N.to_nat (dec_val ds)), r')
                     | _ => Err
                     end
       | _ => Err
       end |}.

Lemma take_while_split p u : fst (take_while p u) ++ snd (take_while p u) = u.
Proof. induction u; simpl; auto. destruct (p a); auto. destruct (take_while p u). simpl in *. congruence. Qed.
Lemma take_while_fst p u : Forall (fun b => p b = true) (fst (take_while p u)) /\
  (forall b v, snd (take_while p u) = b :: v -> p b = false).
Proof.
  induction u as [|a u [IH1 IH2]]; simpl; [split; [constructor|discriminate]|]. destruct (p a) eqn:E.
  - destruct (take_while p u) as [ds v]. simpl in *. split; auto.
  - simpl. split; [constructor|]. intros b v [= <- _]. auto.
Qed.

Lemma nat_codec_ok : wcodec_ok nat_codec.
Proof.
  split.
  - intros [n|] r; [|reflexivity]. cbn [wc_write wc_parse nat_codec].
    change ((1%N :: dec (N.of_nat n) ++ [255%N]) ++ r) with (1%N :: (dec (N.of_nat n) ++ [255%N]) ++ r).
    cbv beta iota. rewrite <- app_assoc.
    rewrite take_while_all; [|apply dec_digits|intros ? ? [= <- _]; reflexivity]. cbn [app].
    rewrite dec_val_dec, Nnat.Nat2N.id. reflexivity.
  - split.
    + intros i w r. cbn [wc_parse nat_codec]. destruct i as [|[|[p|p|]] i]; try discriminate.
      * intros [= <- <-]. exists [0%N]. split; reflexivity.
      * pose proof (take_while_split is_digit i) as E. pose proof (take_while_fst is_digit i) as [A B].
        destruct (take_while is_digit i) as [ds [|b r']]; [discriminate|]. simpl in *.
        intros [= <- <-]. exists (1%N :: ds ++ [b]). split.
        { rewrite <- E. simpl. now rewrite <- app_assoc. }
        intros r''. change ((1%N :: ds ++ [b]) ++ r'') with (1%N :: (ds ++ [b]) ++ r''). cbv beta iota.
        rewrite <- app_assoc, take_while_all; [reflexivity|auto|intros ? ? [= <- _]; eauto].
    + intros i r. cbn [wc_parse nat_codec]. destruct i as [|[|[p|p|]] i]; try discriminate.
      destruct (take_while is_digit i) as [ds [|b r']]; discriminate.
  - split; reflexivity.
Qed.

(** A machine with tables, both epsilons, a cycle and a zero final weight. *)
Example C23_witness :
  exists f : vfst tropN,
    run vnew [OAddStates 3; OSetStart 1; OSetFinal 2 (Some 5); OSetFinal 0 None; OAddTr 1 (Tr 0 7 (Some 3) 2);
              OAddTr 2 (Tr 1 0 (Some 0) 1); OAddTr 2 (Tr 0 0 None 2)] = Ok f /\
    let h := VF (vstates f) (vstart f) (Some ["<eps>"%string; "a"%string]) None (vprops f) in
    storable h /\ fin_of h 0 = Some None /\
    exists g, load_vector nat_codec (store_vector nat_codec h ++ [1; 2; 3]%N) = Ok g /\ fin_of g 0 = None /\
      trs_of g 2 = [Tr 1 0 (Some 0) 1; Tr 0 0 None 2] /\ visymt g = Some ["<eps>"%string; "a"%string].
Proof.
  eexists. split; [vm_compute; reflexivity|]. cbv zeta. split.
  - split; cbn [vstart visymt vosymt vstates num_states].
    + intros s t. destruct s as [|[|[|s]]]; cbn; try tauto.
      * intros [<-|[]]; cbn; lia.
      * intros [<-|[<-|[]]]; cbn; lia.
      * destruct s; simpl; tauto.
    + intros s [= <-]. cbn. lia.
    + cbn. lia.
    + intros s. destruct s as [|[|[|s]]]; cbn; try lia. destruct s; cbn; lia.
    + intros l [= <-]. split; [|split].
      * repeat constructor; simpl; intuition discriminate.
      * vm_compute. discriminate.
      * intros s [<-|[<-|[]]]; split; reflexivity.
    + discriminate.
    + reflexivity.
  - split; [reflexivity|]. eexists. split; [vm_compute; reflexivity|]. vm_compute. auto.
Qed.
