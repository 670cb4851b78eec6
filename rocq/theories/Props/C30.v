(** C30: encoding labels and/or weights, then decoding with the table, restores the relation. *)
From Coq Require Import List Arith NArith ZArith Bool Lia.
From Verif Require Import Base.Util Base.Semiring Base.Machine Base.PathSum Base.PropSpec Base.Instances
  Model.Props Model.VectorFst Model.History Model.Rational Model.ShortestPath Model.BiMap Model.TrMap Model.Encode
  Proofs.PropsFacts Proofs.VectorFacts Proofs.DelStates Proofs.VectorProps Proofs.TrOpsFacts Proofs.HistoryFacts
  Proofs.OpFacts Proofs.RationalFacts Proofs.BiMapFacts Proofs.TrMapFacts Props.C14 Props.C31.
Import ListNotations.
Local Open Scope K_scope.

Lemma mapl_unit_all {A B} (h : unit -> A -> res (unit * B)) l : forall x, mapl h tt l = Ok x -> forall a, In a l -> exists v, h tt a = Ok (tt, v).
Proof.
  induction l as [|a0 l IH]; intros x E a []; cbn [mapl] in E.
  - subst. destruct (h tt a) as [[[] v]| |]; eauto; discriminate.
  - destruct (h tt a0) as [[[] v]| |]; try discriminate. destruct (mapl h tt l) as [y| |] eqn:El; try discriminate. eapply IH; eauto.
Qed.

Section C30.
  Context {K : SR} (L : lsr_laws K).
  Implicit Types (f g : vfst K) (t : tr K) (w : K) (T : @etable K).

  Definition ttuple (e : etype) t : etuple := tuple_of e (il t) (ol t) (wgt t).

  (** [t'] is [t] with its labels and weight packed into a code of the table. *)
  Definition coded (e : etype) T t t' : Prop :=
    exists i, nth_error (id_to_tuple T) i = Some (ttuple e t) /\
      t' = Tr (S i) (if elabels e then S i else ol t) (if eweights e then 1 else wgt t) (ns t).

  (** The transitions to be encoded at a state: its own and, when weights are encoded, its final
      weight as an epsilon transition to the new state [N]. *)
  Definition spelled (e : etype) f (s : nat) : list (tr K) :=
    trs_of f s ++ (if eweights e then match fin_of f s with Some w => [Tr O O w (num_states f)] | None => [] end else []).

  Lemma et_eqbP (a b : etuple) : reflect (a = b) (et_eqb (K := K) a b).
  Proof.
    destruct a as [[i o] w], b as [[i' o'] w']. unfold et_eqb. cbn [fst snd].
    destruct (Nat.eqb_spec i i'), (Nat.eqb_spec o o'), (keqbP L w w'); cbn [andb]; constructor; congruence.
  Qed.

  Definition grows T T' : Prop := exists r, id_to_tuple T' = id_to_tuple T ++ r.
  Lemma grows_refl T : grows T T. Proof. exists []. rewrite app_nil_r. auto. Qed.
  Lemma grows_trans T1 T2 T3 : grows T1 T2 -> grows T2 T3 -> grows T1 T3.
  Proof. intros [a A] [b B]. exists (a ++ b). rewrite B, A, app_assoc. auto. Qed.
  Lemma grows_nth T T' i x : grows T T' -> nth_error (id_to_tuple T) i = Some x -> nth_error (id_to_tuple T') i = Some x.
  Proof. intros [r ->] H. rewrite nth_error_app1; auto. apply nth_error_Some. congruence. Qed.
  Lemma coded_grows e T T' t t' : grows T T' -> coded e T t t' -> coded e T' t t'.
  Proof. intros G (i & A & B). exists i. split; auto. eapply grows_nth; eauto. Qed.
  Lemma Forall2_coded e T T' l l' : grows T T' -> Forall2 (coded e T) l l' -> Forall2 (coded e T') l l'.
  Proof. intros G. induction 1; constructor; auto. eapply coded_grows; eauto. Qed.

  Lemma enc_ok T u : bm_ok et_eqb T -> exists T' i, enc T u = (T', S i) /\ bm_ok et_eqb T' /\ grows T T' /\ nth_error (id_to_tuple T') i = Some u.
  Proof.
    intros B. unfold enc. destruct (get_id_or_insert et_eqb T u) as [T' i] eqn:E.
    destruct (find_id_ok et_eqb et_eqbP T u T' i B E) as (B' & N & D). exists T', i. split; auto. split; auto. split; auto.
    destruct D as [[_ ->]|(_ & D & _)]; [apply grows_refl|exists [u]; auto].
  Qed.

  Lemma enc_trs e l : forall T, bm_ok et_eqb T ->
    exists T' l', mapl (m_tr (encode_mapper e)) T l = Ok (T', l') /\ bm_ok et_eqb T' /\ grows T T' /\ Forall2 (coded e T') l l'.
  Proof.
    induction l as [|t l IH]; intros T B; cbn [mapl].
    - exists T, []. split; auto. split; auto. split; [apply grows_refl|constructor].
    - cbn [m_tr encode_mapper]. destruct (enc_ok T (tuple_of e (il t) (ol t) (wgt t)) B) as (T1 & i & E & B1 & G1 & N1). rewrite E.
      destruct (IH T1 B1) as (T2 & l' & E2 & B2 & G2 & F2). cbn [m_tr encode_mapper] in E2. rewrite E2. eexists. eexists. split; [reflexivity|].
      split; auto. split; [eapply grows_trans; eauto|]. constructor; auto. exists i. split; auto. eapply grows_nth; eauto.
  Qed.

  Definition fin_coded e T (N : nat) (c : option K) (v : option (ftr K)) : Prop :=
    match c, v with
    | None, None => True
    | Some w, Some t => if eweights e then labelled t = true /\ coded e T (Tr O O w N) (to_super t N) else t = FT O O w
    | _, _ => False
    end.
  Lemma fin_grows e T T' N c v : grows T T' -> fin_coded e T N c v -> fin_coded e T' N c v.
  Proof.
    intros G. unfold fin_coded. destruct c, v; auto. destruct (eweights e); auto. intros [A B]. split; auto. eapply coded_grows; eauto.
  Qed.

  Lemma enc_visit e N (c : list (tr K) * option K) : forall T, bm_ok et_eqb T ->
    exists T' v, visit (encode_mapper e) T c = Ok (T', v) /\ bm_ok et_eqb T' /\ grows T T' /\
      Forall2 (coded e T') (fst c) (fst v) /\ fin_coded e T' N (snd c) (snd v).
  Proof.
    intros T B. unfold visit. destruct (enc_trs e (fst c) T B) as (T1 & l & E & B1 & G1 & F1). rewrite E.
    destruct (snd c) as [w|]; [|exists T1, (l, None); split; auto; split; auto; split; auto; split; [auto|exact I]].
    cbn [m_fin encode_mapper fil fol fwt]. destruct (eweights e) eqn:W.
    - destruct (enc_ok T1 (tuple_of e O O w) B1) as (T2 & i & E2 & B2 & G2 & N2). rewrite E2. eexists. eexists. split; [reflexivity|].
      split; auto. split; [eapply grows_trans; eauto|]. split; [eapply Forall2_coded; eauto|]. cbn [snd]. unfold fin_coded. rewrite W.
      split; [reflexivity|]. exists i. split; auto. unfold to_super. cbn [fil fol fwt]. rewrite W. auto.
    - eexists. eexists. split; [reflexivity|]. split; auto. split; auto. split; auto. cbn [snd]. unfold fin_coded. rewrite W. auto.
  Qed.

  Lemma enc_visits e N cs : forall T, bm_ok et_eqb T ->
    exists T' out, mapl (visit (encode_mapper e)) T cs = Ok (T', out) /\ bm_ok et_eqb T' /\ grows T T' /\
      Forall2 (fun c v => Forall2 (coded e T') (fst c) (fst v) /\ fin_coded e T' N (snd c) (snd v)) cs out.
  Proof.
    induction cs as [|c cs IH]; intros T B; cbn [mapl].
    - exists T, []. split; auto. split; auto. split; [apply grows_refl|constructor].
    - destruct (enc_visit e N c T B) as (T1 & v & E & B1 & G1 & F1 & H1). rewrite E.
      destruct (IH T1 B1) as (T2 & out & E2 & B2 & G2 & F2). rewrite E2. eexists. eexists. split; [reflexivity|]. split; auto.
      split; [eapply grows_trans; eauto|]. constructor; auto. split; [eapply Forall2_coded; eauto|eapply fin_grows; eauto].
  Qed.

  Lemma Forall2_nth {A B} (R : A -> B -> Prop) l l' i a : Forall2 R l l' -> nth_error l i = Some a -> exists b, nth_error l' i = Some b /\ R a b.
  Proof.
    intros F. revert i. induction F as [|x y l l' Hxy F IH]; intros [|i] H; try discriminate; cbn in *; eauto.
    injection H as <-. eauto.
  Qed.

  (** Every transition (and final weight, when weights are encoded) is replaced by its code;
      the table lists every tuple once. *)
  Theorem C30_encode (e : etype) f : cnt f -> vstart f <> None ->
    exists g T, encode f e = Ok (g, T) /\ NoDup (id_to_tuple T) /\ cnt g /\
      vstart g = vstart f /\ num_states g = (num_states f + if eweights e then 1 else 0)%nat /\
      (forall s, (s < num_states f)%nat ->
         Forall2 (coded e T) (spelled e f s) (trs_of g s) /\ fin_of g s = if eweights e then None else fin_of f s) /\
      (eweights e = true -> trs_of g (num_states f) = [] /\ fin_of g (num_states f) = Some 1).
  Proof.
    intros C V. unfold encode. set (N := num_states f).
    destruct (enc_visits e N (content f) bm_new (bm_new_ok et_eqb)) as (T & out & E & B & G & F).
    pose proof (C31_tr_map (encode_mapper e) f bm_new C V) as X. cbv zeta in X. rewrite E in X.
    assert (NTH : forall s, (s < N)%nat -> exists v, nth_error out s = Some v /\ Forall2 (coded e T) (trs_of f s) (fst v) /\ fin_coded e T N (fin_of f s) (snd v)).
    { intros s Hs. destruct (Forall2_nth _ _ _ _ _ F (content_nth f s Hs)) as (v & A & D). exists v. split; auto. }
    destruct (eweights e) eqn:W.
    - assert (EA : m_action (encode_mapper (K := K) e) = MapRequireSuperfinal) by (cbn [m_action encode_mapper]; rewrite W; auto).
      rewrite EA in X. cbn [is_no is_require is_allow andb orb] in X. destruct (m_fin (encode_mapper e) T (FT O O (@kone K))) as [[T' t]| |] eqn:EF.
      2,3: exfalso; revert EF; cbn [m_fin encode_mapper]; rewrite W; destruct (enc T _); discriminate.
      destruct X as (g & X1 & X2 & X3 & _ & _ & X6 & X7 & X8 & _). exists g, T'. split; auto.
      assert (GT : bm_ok et_eqb T' /\ grows T T').
      { cbn [m_fin encode_mapper fil fol fwt] in EF. rewrite W in EF. destruct (enc_ok T (tuple_of e O O 1) B) as (T2 & i & E2 & B2 & G2 & _).
        rewrite E2 in EF. injection EF as <- <-. auto. }
      destruct GT as [B' G']. split; [eapply bm_nodup; eauto|]. split; auto. split; auto. split; auto. split.
      + intros s Hs. destruct (NTH s Hs) as (v & A & D1 & D2). specialize (X7 s v A). fold N in X7. unfold cont, placed in X7.
        replace (s =? N)%nat with false in X7 by (symmetry; apply Nat.eqb_neq; lia).
        unfold spelled. rewrite W. unfold fin_coded in D2. destruct (fin_of f s) as [w|], (snd v) as [t0|]; try contradiction.
        * rewrite W in D2. destruct D2 as [D2 D3]. rewrite D2 in X7. cbn [orb] in X7. injection X7 as -> ->. split; auto.
          apply Forall2_app; [eapply Forall2_coded; eauto|]. constructor; auto. eapply coded_grows; eauto.
        * injection X7 as -> ->. rewrite app_nil_r. split; auto. eapply Forall2_coded; eauto.
      + intros _. specialize (X8 eq_refl). unfold cont in X8. fold N in X8. injection X8 as -> ->. auto.
    - assert (EA : m_action (encode_mapper (K := K) e) = MapNoSuperfinal) by (cbn [m_action encode_mapper]; rewrite W; auto).
      rewrite EA in X. cbn [is_no is_require is_allow andb orb] in X.
      assert (NL : existsb final_labelled out = false).
      { apply not_true_is_false. intros H. apply existsb_exists in H as (v & Hv & Lb). apply In_nth_error in Hv as [s Hs].
        assert (s < N)%nat. { assert (s < length out)%nat by (apply nth_error_Some; congruence). apply mapl_length in E. rewrite content_length in E. fold N in E. lia. }
        destruct (NTH s H) as (v' & A & _ & D). assert (v' = v) by congruence. subst v'. unfold fin_coded in D. unfold final_labelled in Lb.
        destruct (snd v) as [t0|]; [|discriminate]. destruct (fin_of f s); [|contradiction]. rewrite W in D. subst t0. discriminate. }
      rewrite NL in X. destruct X as (g & X1 & X2 & X3 & _ & _ & X6 & X7 & _ & _). exists g, T. split; auto.
      split; [eapply bm_nodup; eauto|]. split; auto. split; auto. split; auto. split; [|discriminate].
      intros s Hs. destruct (NTH s Hs) as (v & A & D1 & D2). specialize (X7 s v A). unfold cont, placed in X7. unfold spelled. rewrite W, app_nil_r.
      unfold fin_coded in D2. destruct (fin_of f s) as [w|], (snd v) as [t0|]; try contradiction.
      + rewrite W in D2. subst t0. injection X7 as -> ->. auto.
      + injection X7 as -> ->. auto.
  Qed.

  (** Two codes agree exactly when the encoded parts agree. *)
  Theorem C30_codes e T t t' u u' : NoDup (id_to_tuple T) -> coded e T t t' -> coded e T u u' ->
    (il t' = il u' <-> il t = il u /\ (elabels e = true -> ol t = ol u) /\ (eweights e = true -> wgt t = wgt u)).
  Proof.
    intros ND (i & A & ->) (j & B & ->). cbn [il].
    assert (X : ttuple e t = ttuple e u <-> il t = il u /\ (elabels e = true -> ol t = ol u) /\ (eweights e = true -> wgt t = wgt u)).
    { unfold ttuple, tuple_of. destruct (elabels e), (eweights e); split;
      [intros H; inversion H; auto|intros (-> & P & Q); rewrite ?(P eq_refl), ?(Q eq_refl); auto|
       intros H; inversion H; split; auto; split; auto; discriminate|intros (-> & P & Q); rewrite (P eq_refl); auto|
       intros H; inversion H; split; auto; split; auto; discriminate|intros (-> & P & Q); rewrite (Q eq_refl); auto|
       intros H; inversion H; split; auto; split; discriminate|intros (-> & _); auto]. }
    rewrite <- X. split.
    - intros [= <-]. congruence.
    - intros H. f_equal. apply (proj1 (NoDup_nth_error _) ND); [apply nth_error_Some; congruence|congruence].
  Qed.

  (** ** Decoding *)
  Definition decoded e T t : tr K :=
    match dec T (il t) with
    | Ok (Some (i, o, w)) => Tr i (if elabels e then o else ol t) (if eweights e then w else wgt t) (ns t)
    | _ => t
    end.
  Lemma decode_coded e T t t' : coded e T t t' -> m_tr (decode_mapper e T) tt t' = Ok (tt, decoded e T t') /\ decoded e T t' = t.
  Proof.
    intros (i & A & ->). unfold decoded. cbn [m_tr decode_mapper il ol wgt ns]. unfold dec. cbn [rbind]. rewrite A. unfold ttuple, tuple_of.
    split; auto. destruct t, (elabels e), (eweights e); auto.
  Qed.
  Lemma Forall2_decode e T l l' : Forall2 (coded e T) l l' -> map (decoded e T) l' = l.
  Proof. induction 1; cbn; auto. f_equal; auto. eapply decode_coded; eauto. Qed.
  Lemma Forall2_In_r {A B} (R : A -> B -> Prop) l l' b : Forall2 R l l' -> In b l' -> exists a, In a l /\ R a b.
  Proof. induction 1; intros []; [subst; exists x; split; auto; left; auto|]. destruct IHForall2 as (a & ? & ?); auto. exists a. split; auto. right; auto. Qed.

  (** What the machine is just before the final epsilons are removed. *)
  Lemma decode_content e f g T : num_states g = (num_states f + if eweights e then 1 else 0)%nat -> cnt g -> vstart g <> None ->
    (forall s, (s < num_states f)%nat -> Forall2 (coded e T) (spelled e f s) (trs_of g s) /\ fin_of g s = if eweights e then None else fin_of f s) ->
    (eweights e = true -> trs_of g (num_states f) = [] /\ fin_of g (num_states f) = Some 1) ->
    exists h, tr_map (decode_mapper e T) g tt = Ok (h, tt) /\ cnt h /\ num_states h = num_states g /\ vstart h = vstart g /\
      (forall s, (s < num_states f)%nat -> trs_of h s = spelled e f s /\ fin_of h s = if eweights e then None else fin_of f s) /\
      (forall s, (num_states f <= s)%nat -> trs_of h s = []) /\
      (eweights e = true -> fin_of h (num_states f) = Some 1) /\ (forall s, (num_states g <= s)%nat -> fin_of h s = None).
  Proof.
    intros N C V H1 H2.
    assert (SUP : forall s, (num_states f <= s)%nat -> trs_of g s = []).
    { intros s Hs. destruct (eweights e) eqn:W; [|apply beyond; lia]. destruct (Nat.eq_dec s (num_states f)) as [->|]; [apply H2; auto|apply beyond; lia]. }
    destruct (C31_pure_mapper (decode_mapper e T) (decoded e T) (fun w => w) g C V) as (h & E & (M1 & M2 & M3 & _ & _ & M6) & _).
    { split; auto. split; auto. intros s t Ht. destruct (lt_dec s (num_states f)) as [Hs|Hs].
      - destruct (H1 s Hs) as [F _]. destruct (Forall2_In_r _ _ _ _ F Ht) as (u & _ & U). eapply decode_coded; eauto.
      - rewrite SUP in Ht by lia. destruct Ht. }
    exists h. split; auto. split; auto. split; auto. split; auto. split; [|split; [|split]].
    - intros s Hs. destruct (M6 s) as [-> ->]. destruct (H1 s Hs) as [F ->]. rewrite (Forall2_decode _ _ _ _ F). destruct (eweights e); auto. destruct (fin_of f s); auto.
    - intros s Hs. destruct (M6 s) as [-> _]. rewrite SUP; auto.
    - intros W. destruct (M6 (num_states f)) as [_ ->]. destruct (H2 W) as [_ ->]. auto.
    - intros s Hs. apply beyond. lia.
  Qed.

  (** With weights encoded (alone or with labels): the round trip keeps the relation, path length
      by path length, in every semiring; no state of the result is useless. *)
  Theorem C30_weights_round_trip (e : etype) f : eweights e = true -> cnt f -> closed f -> vstart f <> None ->
    exists g T h, encode f e = Ok (g, T) /\ decode g e T = Ok h /\
      (forall k x y, rel (mach h) k x y = rel (mach f) k x y) /\
      (forall s, (s < num_states h)%nat -> accessible (mach h) s /\ coaccessible (mach h) s).
  Proof.
    intros W C CL V. destruct (C30_encode e f C V) as (g & T & E & _ & Cg & Vg & Ng & H1 & H2).
    exists g, T. unfold decode. destruct (decode_content e f g T Ng Cg ltac:(congruence) H1 H2) as (d & Ed & Cd & Nd & Vd & D1 & D2 & D3 & D4).
    rewrite Ed. cbn [rbind fst]. set (N := num_states f) in *. specialize (D3 W). rewrite W in *.
    pose proof CL as [C1 C2].
    assert (FN : forall s, s <> N -> fin_of d s = None).
    { intros s Hs. destruct (lt_dec s N); [apply D1; auto|]. apply D4. lia. }
    assert (SP : forall s t, In t (trs_of d s) -> (s < N)%nat /\ (In t (trs_of f s) /\ (ns t < N)%nat \/ exists w, fin_of f s = Some w /\ t = Tr O O w N)).
    { intros s t Ht. destruct (lt_dec s N) as [Hs|Hs]; [|rewrite D2 in Ht by lia; destruct Ht]. split; auto.
      destruct (D1 s Hs) as [X _]. rewrite X in Ht. unfold spelled in Ht. rewrite W in Ht. apply in_app_or in Ht as [Ht|Ht].
      - left. split; auto. apply (C1 s t Ht).
      - destruct (fin_of f s) as [w|]; [|destruct Ht]. destruct Ht as [<-|[]]. right. exists w; auto. }
    assert (CD : closed d).
    { split.
      - intros s t Ht. rewrite Nd, Ng. destruct (SP s t Ht) as [_ [[_ Hn]|(w & _ & ->)]]; cbn [ns]; lia.
      - intros s Hs. rewrite Nd, Ng. rewrite Vd, Vg in Hs. apply C2 in Hs. fold N in Hs. lia. }
    destruct (C14_rm_final_epsilon_local L d) as (h & Eh & _ & R & U); auto.
    { intros s t Ht _ _. destruct (Nat.eq_dec (ns t) N) as [->|Hn].
      - rewrite D3. cbn [fw]. rewrite (ktimes_1_l K L), (ktimes_1_r K L). auto.
      - rewrite FN by auto. cbn [fw]. rewrite (ktimes_0_l K L), (ktimes_0_r K L). auto. }
    { intros s t b Ht _ _ _. destruct (SP s t Ht) as [Hs _]. rewrite FN by lia. auto. }
    exists h. split; auto. split; auto. split; auto. intros k x y.
    destruct (vstart f) as [s0|] eqn:Es; [|congruence]. assert (Hs0 : (s0 < N)%nat) by (apply C2; auto).
    destruct (R s0) as (EE & HE & HR); [congruence|]. rewrite HR.
    assert (EN : EE N = true).
    { apply HE. split; [congruence|]. rewrite D2 by auto. intros t []. }
    (* paths that end otherwise weigh nothing *)
    assert (Z : forall n s x y, (s < N)%nat -> wtp (fun p => negb (ends EE p)) (mach d) n s x y = 0).
    { induction n as [|n IH]; intros s x' y' Hs.
      - rewrite (wtp_O L). cbn [mach mfin]. rewrite FN by lia. cbn [fw]. destruct (_ && _); auto.
      - rewrite (wtp_S L). apply (ksum_map_zero L). intros t Ht. cbn [mach mtrs] in Ht.
        destruct (strip (il t) x') as [x2|]; auto. destruct (strip (ol t) y') as [y2|]; auto.
        destruct (SP s t Ht) as [_ [[_ Hn]|(w & _ & ->)]].
        + destruct n as [|n].
          * rewrite (wtp_O L). cbn [mach mfin]. rewrite FN by lia. cbn [fw]. destruct (_ && _); apply (ktimes_0_r K L).
          * rewrite (wtp_ext _ (fun p => negb (ends EE p))); [rewrite IH by auto; apply (ktimes_0_r K L)|].
            intros p Hp. destruct p; [discriminate|]. auto.
        + cbn [ns]. destruct n as [|n].
          * rewrite (wtp_O L). cbn [ends ns il ol]. rewrite EN. cbn [Nat.eqb andb negb]. apply (ktimes_0_r K L).
          * rewrite (wtp_S L). cbn [mach mtrs]. rewrite D2 by auto. cbn [map ksum]. apply (ktimes_0_r K L). }
    rewrite Z, (kplus_0_l K L) by auto.
    pose proof (wtp_split L (ends EE) (mach d) (S k) s0 x y) as SPL. rewrite Z, (kplus_0_r L) in SPL by auto. rewrite <- SPL.
    assert (M : forall k s x y, (s < N)%nat -> wt (mach d) (S k) s x y = wt (mach f) k s x y).
    { clear k x y SPL. induction k as [|k IH]; intros s x y Hs.
      - cbn [wt mach mtrs mfin]. destruct (D1 s Hs) as [-> _]. unfold spelled. rewrite W, map_app, (ksum_app L).
        rewrite (ksum_map_zero L).
        + rewrite (kplus_0_l K L). destruct (fin_of f s) as [w|]; cbn [map ksum fw].
          * cbn [il ol strip Nat.eqb wgt ns]. fold N. rewrite D3, (kplus_0_r L). cbn [fw]. destruct (isnil x && isnil y); [apply (ktimes_1_r K L)|apply (ktimes_0_r K L)].
          * destruct (isnil x && isnil y); auto.
        + intros t Ht. destruct (strip (il t) x); auto. destruct (strip (ol t) y); auto. specialize (C1 s t Ht). fold N in C1. rewrite FN by lia. cbn [fw].
          destruct (_ && _); apply (ktimes_0_r K L).
      - change (wt (mach d) (S (S k)) s x y) with (ksum (map (fun t => match strip (il t) x, strip (ol t) y with Some x', Some y' => wgt t * wt (mach d) (S k) (ns t) x' y' | _, _ => 0 end) (trs_of d s))).
        change (wt (mach f) (S k) s x y) with (ksum (map (fun t => match strip (il t) x, strip (ol t) y with Some x', Some y' => wgt t * wt (mach f) k (ns t) x' y' | _, _ => 0 end) (trs_of f s))).
        destruct (D1 s Hs) as [-> _]. unfold spelled. rewrite W, map_app, (ksum_app L).
        replace (ksum (map _ (match fin_of f s with Some w => _ | None => _ end))) with (@kzero K).
        + rewrite (kplus_0_r L). apply ksum_map_ext. intros t Ht. destruct (strip (il t) x); auto. destruct (strip (ol t) y); auto. rewrite IH; auto. apply (C1 s t Ht).
        + destruct (fin_of f s) as [w|]; auto. cbn [map ksum il ol strip Nat.eqb wgt ns]. fold N. cbn [wt mach mtrs]. rewrite D2 by auto. cbn [map ksum].
          rewrite (ktimes_0_r K L), (kplus_0_r L). auto. }
    rewrite M by auto. unfold rel. cbn [mach mstart]. rewrite Es. auto.
  Qed.

  (** With labels alone: the decoded machine is [f] again, to which decode then applies
      rm_final_epsilon, whose effect is that of C14: an epsilon transition into a dead end is
      folded into the final weight.  Summed over all paths of fewer than [n] transitions the two
      relations differ only by the paths of exactly [n] transitions that end in such an epsilon. *)
  Theorem C30_labels_round_trip f : commutative_times K -> (forall a b : K, a + b = 0 -> a = 0) ->
    cnt f -> closed f -> forall s0, vstart f = Some s0 ->
    exists g T h E, encode f EncodeLabels = Ok (g, T) /\ decode g EncodeLabels T = Ok h /\
      (forall s, E s = true <-> dead_end f s) /\
      (forall k x y, rel (mach h) k x y = wtp (fun p => negb (ends E p)) (mach f) k s0 x y + wtp (ends E) (mach f) (S k) s0 x y) /\
      (forall n x y, ksum (map (fun k => rel (mach h) k x y) (seq 0 n)) =
                     ksum (map (fun k => rel (mach f) k x y) (seq 0 n)) + wtp (ends E) (mach f) n s0 x y) /\
      (forall s, (s < num_states h)%nat -> accessible (mach h) s /\ coaccessible (mach h) s).
  Proof.
    intros comm zsf C CL s0 V. destruct (C30_encode EncodeLabels f C ltac:(congruence)) as (g & T & E & _ & Cg & Vg & Ng & H1 & H2).
    destruct (decode_content EncodeLabels f g T Ng Cg ltac:(congruence) H1 H2) as (d & Ed & Cd & Nd & Vd & D1 & D2 & D3 & D4).
    cbn [eweights] in *. rewrite Nat.add_0_r in Ng.
    assert (MD : mach d = mach f).
    { assert (VS : vstates d = vstates f).
      { apply vext; auto; [congruence|]. intros s. destruct (lt_dec s (num_states f)) as [Hs|Hs].
        - destruct (D1 s Hs) as [-> ->]. unfold spelled. cbn [eweights]. rewrite app_nil_r. auto.
        - rewrite D2, D4 by lia. destruct (beyond f s ltac:(lia)) as [-> ->]. auto. }
      assert (VV : vstart d = vstart f) by congruence. destruct d, f. cbn in VS, VV. subst. reflexivity. }
    assert (CD : closed d).
    { destruct CL as [C1 C2]. split; [intros s t Ht; change (trs_of d s) with (mtrs (mach d) s) in Ht; rewrite MD in Ht; rewrite Nd, Ng; apply (C1 s t Ht)|].
      intros s Hs. rewrite Nd, Ng. apply C2. congruence. }
    destruct (C14_rm_final_epsilon_local L d) as (h & Eh & _ & R & U); auto.
    { intros s t _ _ _. apply comm. } { intros s t b _ _ _. apply zsf. }
    destruct (R s0) as (EE & HE & HR); [congruence|]. rewrite MD in HR.
    exists g, T, h, EE. split; auto. split; [unfold decode; rewrite Ed; exact Eh|]. split.
    { intros s. rewrite HE. unfold dead_end. change (fin_of d s) with (mfin (mach d) s). change (trs_of d s) with (mtrs (mach d) s). rewrite MD. tauto. }
    split; auto. split; auto. intros n x y. induction n as [|n IH].
    - cbn [seq map ksum]. rewrite (wtp_O L). cbn [ends andb]. symmetry. apply (kplus_0_r L).
    - rewrite seq_S, !map_app, !(ksum_app L), IH. cbn [map ksum Nat.add]. rewrite HR, !(kplus_0_r L).
      assert (RF : rel (mach f) n x y = wtp (ends EE) (mach f) n s0 x y + wtp (fun p => negb (ends EE p)) (mach f) n s0 x y).
      { unfold rel. cbn [mach mstart]. rewrite V. apply (wtp_split L). }
      rewrite RF, !(kplus_assoc K L). auto.
  Qed.

  (** Without a start state nothing is encoded and the result has no states. *)
  Theorem C30_no_start e f : cnt f -> closed f -> vstart f = None ->
    encode f e = Ok (f, bm_new) /\ exists h, decode f e bm_new = Ok h /\ num_states h = O.
  Proof.
    intros C CL V. split; [apply (C31_no_start (encode_mapper e) f bm_new V)|]. unfold decode.
    rewrite (C31_no_start (decode_mapper e bm_new) f tt V). cbn [rbind fst].
    assert (X : exists h, rm_final_epsilon f = Ok h /\ (vstart f = None -> num_states h = O)); [|destruct X as (h & A & B); exists h; auto].
    pose proof CL as [C1 C2]. unfold rm_final_epsilon.
    assert (EV : exists v, Visitors.visit_scc f Dfs.any_filter = Ok v) by (unfold Visitors.visit_scc; rewrite V; eexists; reflexivity).
    destruct EV as (v & ->). cbn [rbind]. set (D := dead_end_finals f (Visitors.co (Visitors.sv_core v))).
    destruct (rm_all_ok L D (seq 0 (num_states f)) f) as (h & E & EF & CLh); auto.
    { intros s Hs. apply in_seq in Hs. lia. }
    { intros d Hd. unfold D, dead_end_finals in Hd. apply filter_In in Hd as [_ Hd]. destruct (fin_of f d); [congruence|discriminate]. }
    rewrite E. cbn [rbind]. pose proof EF as (Fn & Fs & _ & _ & Fc).
    destruct (connect_rel L h (Fc C) CLh) as (g' & Eg & Rg & Ug). exists g'. split; auto. intros _.
    destruct (Nat.eq_dec (num_states g') O); auto. exfalso. destruct (Ug O) as [(s & Hs & _) _]; [lia|].
    destruct (ConnectFacts.connect_eq h CLh (Fc C)) as (d & g & Ec & Ed & S & _ & _). rewrite Ec in Eg. inversion Eg as [Eg']. rewrite <- Eg' in Hs.
    cbn in Hs. destruct S as (_ & _ & S & _). rewrite Fs, V in S. congruence.
  Qed.

  (** Decoding only succeeds when every input label is a code of the table. *)
  Theorem C30_decode_labels e T f g : cnt f -> vstart f <> None -> decode f e T = Ok g ->
    forall s t, In t (trs_of f s) -> (1 <= il t <= length (id_to_tuple T))%nat.
  Proof.
    intros C V E s t Ht. unfold decode in E. destruct (tr_map (decode_mapper e T) f tt) as [[h []]| |] eqn:ET; try discriminate. clear E.
    pose proof (C31_tr_map (decode_mapper e T) f tt C V) as X. cbv zeta in X.
    destruct (mapl (visit (decode_mapper e T)) tt (content f)) as [x| |] eqn:EM; [|exfalso; apply X; eauto|exfalso; apply X; eauto].
    assert (Hs : (s < num_states f)%nat).
    { destruct (lt_dec s (num_states f)); auto. destruct (beyond f s ltac:(lia)) as [B _]. rewrite B in Ht. destruct Ht. }
    destruct (mapl_unit_all _ _ _ EM (cont f s)) as [v Hv]. { unfold content. apply in_map, in_seq. lia. }
    unfold visit, cont in Hv. cbn [fst snd] in Hv. destruct (mapl (m_tr (decode_mapper e T)) tt (trs_of f s)) as [y| |] eqn:EL; try discriminate.
    destruct (mapl_unit_all _ _ _ EL t Ht) as [u Hu]. cbn [m_tr decode_mapper] in Hu. unfold dec in Hu.
    destruct (il t) as [|i]; cbn [rbind] in Hu; [discriminate|]. destruct (nth_error (id_to_tuple T) i) eqn:EN; [|discriminate].
    assert (i < length (id_to_tuple T))%nat by (apply nth_error_Some; congruence). lia.
  Qed.
End C30.

(** In a ring, sums that cancel are kept wrongly by the removal of final epsilons, so the label
    round trip changes the relation (total weight of the empty string 0 before, 1 after). *)
Theorem C30_labels_cancel_refuted : exists (f : vfst zSR) g T h, cnt f /\ closed f /\ encode f EncodeLabels = Ok (g, T) /\ decode g EncodeLabels T = Ok h /\
  (forall n, (2 <= n)%nat -> ksum (map (fun k => rel (mach f) k [] []) (seq 0 n)) = (0%Z : zSR)) /\
  (forall n, (2 <= n)%nat -> ksum (map (fun k => rel (mach h) k [] []) (seq 0 n)) = (1%Z : zSR)).
Proof.
  exists (VF [VS (Some (1%Z : zSR)) [@Tr zSR O O (-1)%Z 1] 1 1; VS (Some (1%Z : zSR)) [] 0 0] (Some O) None None 0%N).
  eexists. eexists. eexists. split; [repeat constructor|]. split.
  { split; [|cbn; intros s H; inversion H; vm_compute; lia]. intros s t. destruct s as [|[|s]]; cbn; [intros [<-|[]]; vm_compute; lia|tauto|]. destruct s; simpl; tauto. }
  split; [vm_compute; reflexivity|]. split; [vm_compute; reflexivity|].
  assert (SUM : forall (m : machine zSR) v, (rel m 0 [] [] + rel m 1 [] [])%Z = v -> (forall k, rel m (S (S k)) [] [] = 0%Z) ->
     forall n, (2 <= n)%nat -> ksum (map (fun k => rel m k [] []) (seq 0 n)) = (v : zSR)).
  { intros m v H1 H2 n Hn. destruct n as [|[|n]]; try lia. change (seq 0 (S (S n))) with (O :: 1%nat :: seq 2 n). cbn [map ksum].
    assert (Z : forall k j, ksum (map (fun k => rel m k [] []) (seq (2 + j) k)) = (0%Z : zSR)).
    { induction k as [|k IH]; intros j; auto. cbn [seq map ksum]. pose proof (H2 j) as X. pose proof (IH (S j)) as Y. cbn [Nat.add] in *. rewrite X. rewrite Y. auto. }
    specialize (Z n O). change (2 + 0)%nat with 2%nat in Z. rewrite Z. change (rel m 0 [] [] + (rel m 1 [] [] + 0) = v)%Z. rewrite Z.add_0_r. auto. }
  split; apply SUM; try (vm_compute; reflexivity).
Qed.

(** A case with all three kinds of encoding. *)
Definition ex_enc : vfst natSR :=
  VF [VS None [@Tr natSR 1 2 3%nat 1; @Tr natSR 1 2 3%nat 0; @Tr natSR 1 2 4%nat 1; @Tr natSR 0 2 3%nat 1] 1 0; VS (Some (5%nat : natSR)) [] 0 0] (Some O) None None 0%N.
Example C30_case : cnt ex_enc /\ closed ex_enc /\
  (exists g T, encode ex_enc EncodeWeightsAndLabels = Ok (g, T) /\
    vstates g = [VS None [@Tr natSR 1 1 1%nat 1; @Tr natSR 1 1 1%nat 0; @Tr natSR 2 2 1%nat 1; @Tr natSR 3 3 1%nat 1] 0 0; VS None [@Tr natSR 4 4 1%nat 2] 0 0; VS (Some (1%nat : natSR)) [] 0 0] /\
    id_to_tuple T = [(1, 2, 3); (1, 2, 4); (0, 2, 3); (0, 0, 5); (0, 0, 1)]%nat /\
    exists h, decode g EncodeWeightsAndLabels T = Ok h /\ vstates h = vstates ex_enc) /\
  (exists g T, encode ex_enc EncodeWeights = Ok (g, T) /\ id_to_tuple T = [(1, 0, 3); (1, 0, 4); (0, 0, 3); (0, 0, 5); (0, 0, 1)]%nat /\
    exists h, decode g EncodeWeights T = Ok h /\ vstates h = vstates ex_enc) /\
  (exists g T, encode ex_enc EncodeLabels = Ok (g, T) /\ id_to_tuple T = [(1, 2, 1); (0, 2, 1)]%nat /\
    exists h, decode g EncodeLabels T = Ok h /\ vstates h = vstates ex_enc).
Proof.
  split; [repeat constructor|]. split.
  { split; [|cbn; intros s H; inversion H; vm_compute; lia]. intros s t. destruct s as [|[|s]]; cbn; try tauto; [|destruct s; simpl; tauto].
    intros H; repeat destruct H as [<-|H]; try destruct H; vm_compute; lia. }
  split; [|split]; eexists; eexists; (split; [vm_compute; reflexivity|]); repeat (split; [vm_compute; reflexivity|]); eexists; split; vm_compute; reflexivity.
Qed.

Print Assumptions C30_encode.
Print Assumptions C30_codes.
Print Assumptions C30_weights_round_trip.
Print Assumptions C30_labels_round_trip.
Print Assumptions C30_no_start.
Print Assumptions C30_decode_labels.
Print Assumptions C30_labels_cancel_refuted.
