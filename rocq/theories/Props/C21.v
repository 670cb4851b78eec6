(** C21: lazy machines answer the same whatever the query history. *)
From Coq Require Import List Arith NArith Bool Lia.
From Verif Require Import Base.Util Base.Semiring Base.Machine Base.Instances
  Model.Props Model.VectorFst Model.BiMap Model.Lazy
  Proofs.VectorFacts Proofs.TrOpsFacts Proofs.BiMapFacts Proofs.LazyFacts Proofs.TableFacts.
Import ListNotations.

(** ** Queries *)
Inductive query := QStart | QTrs (i : nat) | QFinal (i : nat) | QNumTrs (i : nat) | QNumIeps (i : nat) | QNumOeps (i : nat).
Inductive answer (K : SR) := AStart (s : option nat) | ATrs (l : list (tr K)) | AFinal (w : option K) | ANum (n : nat) | AErr.
Arguments AStart {K}. Arguments ATrs {K}. Arguments AFinal {K}. Arguments ANum {K}. Arguments AErr {K}.

Section Ask.
  Context {K : SR} {O C : Type} (op : fst_op K O) (X : fst_cache K C).
  Definition lift {A} (z : O * C) (r : res (A * (O * C))) (inj : A -> answer K) : res (answer K * (O * C)) :=
    match r with Ok (a, z') => Ok (inj a, z') | Err => Ok (AErr, z) | Panic => Panic end.
  Definition count_answer (z : O * C) (r : res nat) : res (answer K * (O * C)) :=
    Ok (match r with Ok n => ANum n | _ => AErr end, z).
  (** One query: an error is an answer, a panic is not. *)
  Definition ask1 (z : O * C) (q : query) : res (answer K * (O * C)) :=
    match q with
    | QStart => lift z (l_start op X z) AStart
    | QTrs i => lift z (l_get_trs op X i z) ATrs
    | QFinal i => lift z (l_final_weight op X i z) AFinal
    | QNumTrs i => count_answer z (l_num_trs X i z)
    | QNumIeps i => count_answer z (l_num_ieps X i z)
    | QNumOeps i => count_answer z (l_num_oeps X i z)
    end.
  Fixpoint ask (z : O * C) (qs : list query) : res (list (answer K) * (O * C)) :=
    match qs with
    | [] => Ok ([], z)
    | q :: qs =>
        r <-- ask1 z q ;;
        r' <-- ask (snd r) qs ;;
        Ok (fst r :: fst r', snd r')
    end.
End Ask.

(** The caches provided: two base caches and a one-entry cache in front of any of them. *)
Inductive provided {K : SR} : forall C, fst_cache K C -> C -> (C -> Prop) -> Prop :=
| pr_vec : provided _ vec_cache_ops vec_cache_new vec_inv
| pr_map : provided _ map_cache_ops map_cache_new map_inv
| pr_first C X c inv : provided C X c inv -> provided _ (first_cache_ops X) (F1 C c None None) (first_inv X inv).

Lemma provided_laws {K : SR} C (X : fst_cache K C) c inv : provided C X c inv -> cache_laws X inv /\ cache_empty X inv c.
Proof.
  induction 1 as [| |C X c inv H [A B]].
  - split; [apply vec_cache_laws|apply vec_cache_empty].
  - split; [apply map_cache_laws|apply map_cache_empty].
  - split; [apply first_cache_laws; auto|apply first_cache_empty; auto].
Qed.

(** ** Operations without state *)
Section Pure.
  Context {K : SR} (st : res (option nat)) (ts : nat -> res (list (tr K))) (fs : nat -> res (option K)) (props : N).
  Definition pure_op : fst_op K unit :=
    FO (fun u => s <-- st ;; Ok (s, u)) (fun i u => l <-- ts i ;; Ok (l, u)) (fun i u => w <-- fs i ;; Ok (w, u)) props.

  (** The value of the operation. The counts are those of the transitions, once asked for. *)
  Definition asked (i : nat) (pre : list query) : bool :=
    existsb (fun q => match q with QTrs j => Nat.eqb i j | _ => false end) pre.
  Definition counted (f : list (tr K) -> nat) (i : nat) (pre : list query) : answer K :=
    if asked i pre then match ts i with Ok l => ANum (f l) | _ => AErr end else AErr.
  Definition value (pre : list query) (q : query) : answer K :=
    match q with
    | QStart => match st with Ok s => AStart s | _ => AErr end
    | QTrs i => match ts i with Ok l => ATrs l | _ => AErr end
    | QFinal i => match fs i with Ok w => AFinal w | _ => AErr end
    | QNumTrs i => counted (@length _) i pre
    | QNumIeps i => counted (count ieps) i pre
    | QNumOeps i => counted (count oeps) i pre
    end.
  (** Queries on which the code does not panic. *)
  Definition safe (q : query) : Prop :=
    match q with QStart => exists s, st = Ok s | QTrs i => ts i <> Panic | QFinal i => fs i <> Panic | _ => True end.

  Context {C : Type} (X : fst_cache K C) (c0 : C) (inv : C -> Prop) (P : provided C X c0 inv).

  (** What the cache holds after the queries [pre]. *)
  Definition remembers (pre : list query) (c : C) : Prop :=
    inv c /\
    (forall s, c_get_start X c = Some s -> st = Ok s) /\
    (forall i, c_get_trs X i c = if asked i pre then match ts i with Ok l => Some l | _ => None end else None) /\
    (forall i w, c_get_final X i c = Some w -> fs i = Ok w).

  Lemma asked_snoc i pre q : asked i (pre ++ [q]) = asked i pre || asked i [q].
  Proof. unfold asked. apply existsb_app. Qed.

  Lemma asked_same pre q : (forall i, q <> QTrs i) -> forall i, asked i (pre ++ [q]) = asked i pre.
  Proof.
    intros H i. rewrite asked_snoc. cbn. destruct q; rewrite ?orb_false_r; auto. exfalso. apply (H i0). auto.
  Qed.

  Lemma ask1_pure pre c q : remembers pre c -> safe q -> exists c',
    ask1 pure_op X (tt, c) q = Ok (value pre q, (tt, c')) /\ remembers (pre ++ [q]) c'.
  Proof.
    destruct (provided_laws _ _ _ _ P) as [L _]. intros (I & S & T & F) Sq.
    assert (Keep : (forall i, q <> QTrs i) -> remembers (pre ++ [q]) c).
    { intros N. split; auto. split; auto. split; auto. intros i. rewrite asked_same by auto. auto. }
    assert (Num : forall g i, (match q with QTrs _ => False | _ => True end) ->
      match of_option (option_map g (c_get_trs X i c)) with Ok n => ANum n | _ => AErr end = counted g i pre).
    { intros g i _. rewrite T. unfold counted. destruct (asked i pre); auto. destruct (ts i); auto. }
    destruct q as [|i|i|i|i|i]; cbn [ask1 value].
    - unfold l_start. cbn [fst snd]. destruct (c_get_start X c) as [s|] eqn:E.
      + exists c. rewrite (S s eq_refl). cbn. split; auto. apply Keep. discriminate.
      + destruct Sq as [s Es]. cbn [compute_start pure_op]. rewrite Es. cbn. eexists. split; [reflexivity|].
        split; [apply (inv_start _ _ L); auto|]. split; [|split].
        * intros s'. rewrite (start_start _ _ L) by auto. congruence.
        * intros i. rewrite (trs_start _ _ L), asked_same by (auto; discriminate). auto.
        * intros i w. rewrite (fin_start _ _ L) by auto. auto.
    - unfold l_get_trs. cbn [fst snd]. destruct (c_get_trs X i c) as [l|] eqn:E.
      + exists c. rewrite T in E. destruct (asked i pre) eqn:A; [|discriminate]. destruct (ts i) eqn:Et; try discriminate.
        injection E as ->. cbn. split; auto. split; auto. split; auto. split; auto. intros j. rewrite asked_snoc, T.
        destruct (asked j pre) eqn:Aj; auto. cbn. destruct (Nat.eqb_spec j i) as [->|]; auto. congruence.
      + cbn [compute_trs pure_op]. cbn in Sq. destruct (ts i) as [l| |] eqn:Et; [| |congruence]; cbn.
        * eexists. split; [reflexivity|]. split; [apply (inv_trs _ _ L); auto|]. split; [|split].
          -- intros s. rewrite (start_trs _ _ L) by auto. auto.
          -- intros j. rewrite (trs_trs _ _ L), asked_snoc by auto. cbn. rewrite (Nat.eqb_sym j i).
             destruct (Nat.eqb_spec i j) as [->|]; cbn; rewrite ?orb_false_r, ?orb_true_r; auto. rewrite Et. auto.
          -- intros j w. rewrite (fin_trs _ _ L) by auto. auto.
        * exists c. split; auto. split; auto. split; auto. split; auto. intros j. rewrite asked_snoc, T.
          destruct (asked j pre) eqn:Aj; auto. cbn. destruct (Nat.eqb_spec j i) as [->|]; auto. rewrite Et. auto.
    - unfold l_final_weight. cbn [fst snd]. destruct (c_get_final X i c) as [w|] eqn:E.
      + exists c. rewrite (F _ _ E). cbn. split; auto. apply Keep. discriminate.
      + cbn [compute_final_weight pure_op]. cbn in Sq. destruct (fs i) as [w| |] eqn:Ef; [| |congruence]; cbn.
        * eexists. split; [reflexivity|]. split; [apply (inv_fin _ _ L); auto|]. split; [|split].
          -- intros s. rewrite (start_fin _ _ L) by auto. auto.
          -- intros j. rewrite (trs_fin _ _ L), asked_same by (auto; discriminate). auto.
          -- intros j w'. rewrite (fin_fin _ _ L) by auto. destruct (Nat.eqb_spec i j) as [<-|]; auto. congruence.
        * exists c. split; auto. apply Keep. discriminate.
    - exists c. unfold count_answer, l_num_trs. cbn [snd]. rewrite (cnt_trs _ _ L), (Num (@length _)) by auto.
      split; auto. apply Keep. discriminate.
    - exists c. unfold count_answer, l_num_ieps. cbn [snd]. rewrite (cnt_ieps _ _ L), (Num (count ieps)) by auto.
      split; auto. apply Keep. discriminate.
    - exists c. unfold count_answer, l_num_oeps. cbn [snd]. rewrite (cnt_oeps _ _ L), (Num (count oeps)) by auto.
      split; auto. apply Keep. discriminate.
  Qed.

  Lemma remembers_new : remembers [] c0.
  Proof.
    destruct (provided_laws _ _ _ _ P) as [_ (A & B & D & E)]. split; auto. split; [|split].
    - intros s. rewrite B. discriminate.
    - intros i. rewrite D. auto.
    - intros i w. rewrite E. discriminate.
  Qed.

  Lemma ask_pure qs : forall pre c, remembers pre c -> Forall safe qs -> exists ans c',
    ask pure_op X (tt, c) qs = Ok (ans, (tt, c')) /\ remembers (pre ++ qs) c' /\ length ans = length qs /\
    forall k q, nth_error qs k = Some q -> nth_error ans k = Some (value (pre ++ firstn k qs) q).
  Proof.
    induction qs as [|q qs IH]; intros pre c R S.
    - exists [], c. rewrite app_nil_r. repeat split; auto; try apply R. intros k q. destruct k; discriminate.
    - inversion S as [|? ? S1 S2]; subst. destruct (ask1_pure pre c q R S1) as (c1 & E1 & R1).
      destruct (IH _ _ R1 S2) as (ans & c2 & E2 & R2 & Len & V). exists (value pre q :: ans), c2.
      cbn [ask]. rewrite E1. cbn [rbind fst snd]. rewrite E2. cbn [rbind fst snd]. rewrite <- app_assoc in R2.
      split; auto. split; auto. split; [simpl; congruence|]. intros [|k] q'; cbn [nth_error firstn].
      + intros [= <-]. rewrite app_nil_r. auto.
      + intros H. rewrite (V k q' H), <- app_assoc. auto.
  Qed.

  (** Any history of queries, with any provided cache: every answer is the value of the operation;
      the counts are right once the transitions were asked for and an error before. *)
  Theorem C21_answers qs : Forall safe qs -> exists ans z,
    ask pure_op X (tt, c0) qs = Ok (ans, z) /\ length ans = length qs /\
    forall k q, nth_error qs k = Some q -> nth_error ans k = Some (value (firstn k qs) q).
  Proof.
    intros S. destruct (ask_pure qs [] c0 remembers_new S) as (ans & c & E & _ & Len & V). exists ans, (tt, c). auto.
  Qed.

  Lemma pure_spec : op_spec pure_op (fun _ => True) (fun _ _ => True) (fun _ s => st = Ok s)
    (fun _ i l => ts i = Ok l) (fun _ i w => fs i = Ok w).
  Proof.
    split; auto.
    - intros o s o' _. cbn. destruct st; try discriminate. cbn. intros [= <- <-]. auto.
    - intros i o l o' _. cbn. destruct (ts i); try discriminate. cbn. intros [= <- <-]. auto.
    - intros i o l o' _. cbn. destruct (fs i); try discriminate. cbn. intros [= <- <-]. auto.
  Qed.

  Lemma zok_remembers pre c : remembers pre c ->
    zok X inv (fun _ => True) (fun _ s => st = Ok s) (fun _ i l => ts i = Ok l) (fun _ i w => fs i = Ok w) (tt, c).
  Proof.
    intros (I & S & T & F). split; [exact Logic.I|]. cbn [fst snd]. split; [|split; [|split]]; auto.
    intros i l. rewrite T. destruct (asked i pre); [|discriminate]. destruct (ts i); congruence.
  Qed.

  (** [compute], at any point of any history, builds the machine of the operation restricted to the
      states reachable from its start; unreachable numbers are states without transitions, and the
      last number is reachable. *)
  Theorem C21_compute qs ans z : Forall safe qs -> ask pure_op X (tt, c0) qs = Ok (ans, z) ->
    forall fuel isym osym g z', compute pure_op X fuel isym osym z = Some (Ok (g, z')) ->
      closed g /\ st = Ok (vstart g) /\
      (vstart g = None -> num_states g = 0) /\
      (forall q, accessible (mach g) q -> ts q = Ok (trs_of g q) /\ fs q = Ok (fin_of g q)) /\
      (forall q, ~ accessible (mach g) q -> trs_of g q = [] /\ fin_of g q = None) /\
      (vstart g <> None -> visymt g = isym /\ vosymt g = osym /\ vprops g = props /\ accessible (mach g) (pred (num_states g))).
  Proof.
    intros S E fuel i o g z' G. destruct (ask_pure qs [] c0 remembers_new S) as (ans' & c & E' & R & _).
    rewrite E' in E. injection E as <- <-. apply zok_remembers in R.
    destruct (provided_laws _ _ _ _ P) as [L _].
    destruct (compute_ok pure_op X inv _ _ _ _ _ L pure_spec fuel i o _ g z' R G) as (_ & _ & (Cg & Dg & B) & Sy).
    split; auto. destruct (vstart g) as [s|] eqn:Es.
    - destruct B as (_ & B1 & B2 & B3). split; auto. split; [discriminate|]. split; [auto|]. split; [exact B3|exact Sy].
    - destruct B as (B1 & B2). split; auto. split; [unfold num_states; rewrite B1; auto|].
      split; [intros q (s & A & _); cbn in A; congruence|]. split; [|congruence].
      intros q _. unfold trs_of, fin_of. rewrite B1. destruct q; auto.
  Qed.

  (** It terminates when the reachable states are numbered below [B]: one step per state suffices. *)
  Theorem C21_compute_terminates B (V : nat -> Prop) :
    (exists s, st = Ok s) -> (forall s, st = Ok (Some s) -> V s) ->
    (forall i, V i -> i < B /\ (exists w, fs i = Ok w) /\ exists l, ts i = Ok l /\ forall t, In t l -> V (ns t)) ->
    forall qs ans z, Forall safe qs -> ask pure_op X (tt, c0) qs = Ok (ans, z) ->
    forall fuel isym osym, B <= fuel -> exists g z', compute pure_op X fuel isym osym z = Some (Ok (g, z')).
  Proof.
    intros [s0 S0] VS VT qs ans z S E fuel i o Hf.
    destruct (ask_pure qs [] c0 remembers_new S) as (ans' & c & E' & R & _).
    rewrite E' in E. injection E as <- <-. apply zok_remembers in R.
    destruct (provided_laws _ _ _ _ P) as [L _].
    assert (LV : op_live pure_op (fun _ => True) (fun _ s => st = Ok s) (fun _ i l => ts i = Ok l) (fun _ _ => True) (fun _ => V)).
    { split; auto.
      - intros u j l t Hj E1 Ht. destruct (VT j Hj) as (_ & _ & l' & El & V'). apply V'. congruence.
      - intros u _. cbn. rewrite S0. cbn. eauto.
      - intros j u _ Hj. destruct (VT j Hj) as (_ & _ & l & El & _). cbn. rewrite El. cbn. eauto.
      - intros j u _ Hj. destruct (VT j Hj) as (_ & (w & Ew) & _). cbn. rewrite Ew. cbn. eauto. }
    destruct (compute_total pure_op X inv _ _ _ _ _ L pure_spec (fun _ => V) LV B (fun _ j _ Hj => proj1 (VT j Hj)) fuel i o _ R Hf)
      as [[g z'] G]. eauto.
  Qed.
End Pure.
Print Assumptions C21_answers.
Print Assumptions C21_compute.
Print Assumptions C21_compute_terminates.

(** ** Operations that number their states as they are met *)
Section Stateful.
  Context {K : SR} {O C : Type} (op : fst_op K O) (X : fst_cache K C) (inv : C -> Prop) (I : O -> Prop) (le : O -> O -> Prop)
    (okS : O -> option nat -> Prop) (okT : O -> nat -> list (tr K) -> Prop) (okF : O -> nat -> option K -> Prop).
  Context (LX : cache_laws X inv) (LO : op_spec op I le okS okT okF).
  Notation good := (zok X inv I okS okT okF).

  Definition held (z : O * C) (q : query) (a : answer K) : Prop :=
    match q, a with
    | QStart, AStart s => c_get_start X (snd z) = Some s
    | QTrs i, ATrs l => c_get_trs X i (snd z) = Some l
    | QFinal i, AFinal w => c_get_final X i (snd z) = Some w
    | QNumTrs i, ANum n => exists l, c_get_trs X i (snd z) = Some l /\ n = length l
    | QNumIeps i, ANum n => exists l, c_get_trs X i (snd z) = Some l /\ n = count ieps l
    | QNumOeps i, ANum n => exists l, c_get_trs X i (snd z) = Some l /\ n = count oeps l
    | _, _ => False
    end.
  Lemma held_later z z' q a : later X le z z' -> held z q a -> held z' q a.
  Proof.
    intros (_ & A & B & D). destruct q, a; cbn; auto; intros (l & E & H); exists l; auto.
  Qed.

  Lemma ask1_ok z q a z' : good z -> ask1 op X z q = Ok (a, z') ->
    good z' /\ later X le z z' /\ (a = AErr \/ held z' q a).
  Proof.
    intros Z. pose proof Z as (_ & Iv & _).
    destruct q as [|i|i|i|i|i]; cbn [ask1].
    - destruct (l_start op X z) as [[s z1]| |] eqn:E; cbn; try discriminate; intros [= <- <-].
      + destruct (l_start_ok _ _ _ _ _ _ _ _ LX LO _ _ _ Z E) as (A & B & _ & D). auto.
      + split; auto. split; [apply (later_refl _ _ _ _ _ _ _ LO)|auto].
    - destruct (l_get_trs op X i z) as [[s z1]| |] eqn:E; cbn; try discriminate; intros [= <- <-].
      + destruct (l_get_trs_ok _ _ _ _ _ _ _ _ LX LO _ _ _ _ Z E) as (A & B & _ & D). auto.
      + split; auto. split; [apply (later_refl _ _ _ _ _ _ _ LO)|auto].
    - destruct (l_final_weight op X i z) as [[s z1]| |] eqn:E; cbn; try discriminate; intros [= <- <-].
      + destruct (l_final_ok _ _ _ _ _ _ _ _ LX LO _ _ _ _ Z E) as (A & B & _ & D). auto.
      + split; auto. split; [apply (later_refl _ _ _ _ _ _ _ LO)|auto].
    - unfold count_answer, l_num_trs. rewrite (cnt_trs _ _ LX) by auto. intros [= <- <-].
      split; auto. split; [apply (later_refl _ _ _ _ _ _ _ LO)|]. cbn. destruct (c_get_trs X i (snd z)) eqn:E; cbn; eauto.
    - unfold count_answer, l_num_ieps. rewrite (cnt_ieps _ _ LX) by auto. intros [= <- <-].
      split; auto. split; [apply (later_refl _ _ _ _ _ _ _ LO)|]. cbn. destruct (c_get_trs X i (snd z)) eqn:E; cbn; eauto.
    - unfold count_answer, l_num_oeps. rewrite (cnt_oeps _ _ LX) by auto. intros [= <- <-].
      split; auto. split; [apply (later_refl _ _ _ _ _ _ _ LO)|]. cbn. destruct (c_get_trs X i (snd z)) eqn:E; cbn; eauto.
  Qed.

  Lemma ask1_held z q a : inv (snd z) -> held z q a -> ask1 op X z q = Ok (a, z).
  Proof.
    intros Iv. destruct q, a; cbn [held ask1]; try tauto.
    - intros H. unfold l_start. rewrite H. auto.
    - intros H. unfold l_get_trs. rewrite H. auto.
    - intros H. unfold l_final_weight. rewrite H. auto.
    - intros (l & H & ->). unfold count_answer, l_num_trs. rewrite (cnt_trs _ _ LX), H by auto. auto.
    - intros (l & H & ->). unfold count_answer, l_num_ieps. rewrite (cnt_ieps _ _ LX), H by auto. auto.
    - intros (l & H & ->). unfold count_answer, l_num_oeps. rewrite (cnt_oeps _ _ LX), H by auto. auto.
  Qed.

  Lemma ask_ok qs : forall z ans z', good z -> ask op X z qs = Ok (ans, z') ->
    good z' /\ later X le z z' /\ length ans = length qs /\
    (forall k q a, nth_error qs k = Some q -> nth_error ans k = Some a -> a = AErr \/ held z' q a) /\
    (forall k q a, held z q a -> nth_error qs k = Some q -> nth_error ans k = Some a) /\
    (forall j k q a, j <= k -> nth_error qs j = Some q -> nth_error qs k = Some q ->
       nth_error ans j = Some a -> a <> AErr -> nth_error ans k = Some a).
  Proof.
    induction qs as [|q qs IH]; intros z ans z' Z E; cbn [ask] in E.
    - injection E as <- <-. split; auto. split; [apply (later_refl _ _ _ _ _ _ _ LO)|]. split; auto.
      repeat split; intros; try (destruct k; discriminate).
    - destruct (ask1 op X z q) as [[a0 z1]| |] eqn:E1; try discriminate. cbn [rbind fst snd] in E.
      destruct (ask op X z1 qs) as [[ans2 z2]| |] eqn:E2; try discriminate. cbn [rbind fst snd] in E. injection E as <- <-.
      destruct (ask1_ok _ _ _ _ Z E1) as (Z1 & L1 & H1).
      destruct (IH _ _ _ Z1 E2) as (Z2 & L2 & Len & H2 & H3 & H4).
      split; auto. split; [eapply (later_trans _ _ _ _ _ _ _ LO); eauto|]. split; [simpl; congruence|]. split; [|split].
      + intros [|k] q' a; cbn [nth_error]; eauto. intros [= <-] [= <-].
        destruct H1 as [H1|H1]; auto. right. eapply held_later; eauto.
      + intros [|k] q' a H; cbn [nth_error].
        * intros [= <-]. rewrite (ask1_held z q a) in E1 by (auto; apply Z). congruence.
        * apply H3. eapply held_later; eauto.
      + intros [|j] [|k] q' a Hjk; cbn [nth_error]; try lia; try congruence.
        * intros [= ->] Hk [= ->] Na. destruct H1 as [H1|H1]; [congruence|]. eauto.
        * intros Qj Qk Aj Na. apply (H4 j k q' a); auto. lia.
  Qed.
End Stateful.

(** A table-driven operation (composition, factoring, replacement, ...) with any provided cache: an
    answer is repeated for ever, all answers are those of the tuples numbered so far, and
    [compute], after any history, denotes the machine of the tuples. *)
Section Table.
  Context {K : SR} {T : Type} (eqb : T -> T -> bool) (eqb_spec : forall a b, reflect (a = b) (eqb a b)).
  Context (tstart : res (option T)) (ttrs : T -> res (list (ttr K T))) (tfin : T -> res (option K)) (props : N).
  Context {C : Type} (X : fst_cache K C) (c0 : C) (inv : C -> Prop) (P : provided C X c0 inv).
  Notation top := (table_op eqb tstart ttrs tfin props).

  Theorem C21_table_history qs ans z : ask top X (bm_new, c0) qs = Ok (ans, z) ->
    (forall j k q a, j <= k -> nth_error qs j = Some q -> nth_error qs k = Some q ->
       nth_error ans j = Some a -> a <> AErr -> nth_error ans k = Some a) /\
    (forall k, nth_error qs k = Some QStart -> forall s, nth_error ans k = Some (AStart s) -> tS tstart (fst z) s) /\
    (forall k i, nth_error qs k = Some (QTrs i) -> forall l, nth_error ans k = Some (ATrs l) -> tT ttrs (fst z) i l) /\
    (forall k i, nth_error qs k = Some (QFinal i) -> forall w, nth_error ans k = Some (AFinal w) -> tF tfin (fst z) i w) /\
    NoDup (id_to_tuple (fst z)) /\
    forall fuel isym osym g z', compute top X fuel isym osym z = Some (Ok (g, z')) ->
      forall n x y, rel (mach g) n x y = grel ttrs tfin tstart n x y.
  Proof.
    intros E. destruct (provided_laws _ _ _ _ P) as [L Em].
    pose proof (table_spec eqb eqb_spec tstart ttrs tfin props (fun _ => True) (fun _ _ => Logic.I) (fun _ _ _ _ _ _ => Logic.I)) as SP.
    assert (Z : zok X inv (tI eqb (fun _ => True)) (tS tstart) (tT ttrs) (tF tfin) (bm_new, c0)) by (apply zok_empty; auto using tI_new).
    destruct (ask_ok top X inv _ _ _ _ _ L SP qs _ _ _ Z E) as (Z' & _ & _ & H2 & _ & H4).
    pose proof Z' as (ZI & _ & ZS & ZT & ZF).
    split; [exact H4|]. split; [|split; [|split; [|split]]].
    - intros k Hq s Ha. destruct (H2 _ _ _ Hq Ha) as [H|H]; [discriminate|]. apply ZS. exact H.
    - intros k i Hq l Ha. destruct (H2 _ _ _ Hq Ha) as [H|H]; [discriminate|]. apply ZT. exact H.
    - intros k i Hq w Ha. destruct (H2 _ _ _ Hq Ha) as [H|H]; [discriminate|]. apply ZF. exact H.
    - eapply bm_nodup; apply ZI.
    - intros fuel i o g z' G n x y.
      destruct (compute_ok top X inv _ _ _ _ _ L SP fuel i o _ g z' Z' G) as (_ & _ & B & _).
      apply (built_rel _ _ _ z' g B).
  Qed.
End Table.
Print Assumptions C21_table_history.

(** ** Counting before expanding fails *)
Definition c21_op : fst_op natSR unit :=
  pure_op (Ok (Some 1)) (fun i => match i with 1 => Ok [Tr 0 4 2 3; Tr 5 0 1 1] | 3 => Ok [] | _ => Err end)
    (fun i => match i with 3 => Ok (Some 7) | 1 => Ok None | _ => Err end) 0%N.

(** A state with two transitions for which [num_trs] is an error, until the transitions are asked for. *)
Theorem C21_num_trs_refuted : exists z,
  ask c21_op vec_cache_ops (tt, vec_cache_new) [QStart; QNumTrs 1; QTrs 1; QNumTrs 1] =
    Ok ([AStart (Some 1); AErr; ATrs [Tr 0 4 2 3; Tr 5 0 1 1]; ANum 2], z).
Proof. eexists. vm_compute. reflexivity. Qed.
Print Assumptions C21_num_trs_refuted.

Example C21_witness :
  provided (K := natSR) _ (first_cache_ops map_cache_ops) (F1 _ map_cache_new None None) (first_inv map_cache_ops map_inv) /\
  (exists ans z g z', ask c21_op (first_cache_ops map_cache_ops) (tt, F1 _ map_cache_new None None)
     [QTrs 1; QNumIeps 1; QTrs 2; QFinal 3; QTrs 1; QStart] = Ok (ans, z) /\
   ans = [ATrs [Tr 0 4 2 3; Tr 5 0 1 1]; ANum 1; AErr; AFinal (Some 7); ATrs [Tr 0 4 2 3; Tr 5 0 1 1]; AStart (Some 1)] /\
   compute c21_op (first_cache_ops map_cache_ops) 10 None None z = Some (Ok (g, z')) /\
   num_states g = 4 /\ vstart g = Some 1 /\ trs_of g 1 = [Tr 0 4 2 3; Tr 5 0 1 1] /\ fin_of g 3 = Some 7 /\ trs_of g 0 = []).
Proof.
  split; [apply pr_first, pr_map|]. do 4 eexists. repeat (split; [vm_compute; reflexivity|]). vm_compute; reflexivity.
Qed.
