(** Lazy machines: caches are transparent and [compute] builds what the operation describes. *)
From Coq Require Import List Arith NArith Bool Lia.
From Verif Require Import Base.Util Base.Semiring Base.Machine Model.Props Model.VectorFst Model.BiMap Model.Lazy.
From Verif Require Import Proofs.VectorFacts Proofs.TrOpsFacts Proofs.OpFacts Proofs.BiMapFacts.
Import ListNotations.

(** ** Caches *)
Section Laws.
  Context {K : SR} {C : Type} (X : fst_cache K C) (inv : C -> Prop).

  Record cache_laws : Prop := {
    inv_start : forall s c, inv c -> inv (c_insert_start X s c);
    inv_trs : forall i l c, inv c -> inv (c_insert_trs X i l c);
    inv_fin : forall i w c, inv c -> inv (c_insert_final X i w c);
    start_start : forall s c, inv c -> c_get_start X (c_insert_start X s c) = Some s;
    start_trs : forall i l c, inv c -> c_get_start X (c_insert_trs X i l c) = c_get_start X c;
    start_fin : forall i w c, inv c -> c_get_start X (c_insert_final X i w c) = c_get_start X c;
    trs_start : forall j s c, inv c -> c_get_trs X j (c_insert_start X s c) = c_get_trs X j c;
    trs_trs : forall j i l c, inv c -> c_get_trs X j (c_insert_trs X i l c) = if i =? j then Some l else c_get_trs X j c;
    trs_fin : forall j i w c, inv c -> c_get_trs X j (c_insert_final X i w c) = c_get_trs X j c;
    fin_start : forall j s c, inv c -> c_get_final X j (c_insert_start X s c) = c_get_final X j c;
    fin_trs : forall j i l c, inv c -> c_get_final X j (c_insert_trs X i l c) = c_get_final X j c;
    fin_fin : forall j i w c, inv c -> c_get_final X j (c_insert_final X i w c) = if i =? j then Some w else c_get_final X j c;
    cnt_trs : forall j c, inv c -> c_num_trs X j c = option_map (@length _) (c_get_trs X j c);
    cnt_ieps : forall j c, inv c -> c_num_ieps X j c = option_map (count ieps) (c_get_trs X j c);
    cnt_oeps : forall j c, inv c -> c_num_oeps X j c = option_map (count oeps) (c_get_trs X j c)
  }.
  (** An empty cache. *)
  Definition cache_empty (c : C) : Prop :=
    inv c /\ c_get_start X c = None /\ (forall i, c_get_trs X i c = None) /\ (forall i, c_get_final X i c = None).
End Laws.

Section CacheFacts.
  Context {K : SR}.

  Lemma fetch_put {A} (l : list (option A)) i j a : fetch (put l i a) j = if i =? j then Some a else fetch l j.
  Proof.
    unfold fetch, put, grow_to. destruct (Nat.leb_spec (length l) i) as [H|H].
    - rewrite nth_error_upd, app_length, repeat_length.
      destruct (Nat.eqb_spec i j) as [<-|N]; simpl.
      + replace (i <? _) with true; auto. symmetry. apply Nat.ltb_lt. lia.
      + destruct (lt_dec j (length l)) as [L|L].
        * rewrite nth_error_app1 by auto. auto.
        * rewrite (proj2 (nth_error_None l j)) by lia. rewrite nth_error_app2 by lia.
          destruct (lt_dec (j - length l) (i + 1 - length l)).
          -- rewrite nth_error_repeat; auto.
          -- rewrite (proj2 (nth_error_None _ _)); auto. rewrite repeat_length. lia.
    - rewrite nth_error_upd. destruct (Nat.eqb_spec i j) as [<-|N]; simpl; auto.
      replace (i <? length l) with true; auto. symmetry. apply Nat.ltb_lt. auto.
  Qed.

  Lemma lookup_insert {A} (l : list (nat * A)) i j a : lookup (insert l i a) j = if i =? j then Some a else lookup l j.
  Proof.
    simpl. destruct (Nat.eqb_spec i j) as [E|N]; auto.
    induction l as [|[k b] l IH]; simpl; auto.
    destruct (Nat.eqb_spec k i) as [->|M]; simpl.
    - rewrite IH. destruct (Nat.eqb_spec i j); congruence.
    - rewrite IH. auto.
  Qed.

  (** The counters stored with the transitions are those of the transitions. *)
  Definition ct_ok (e : cache_trs K) : Prop := ct_nie e = count ieps (ct_trs e) /\ ct_noe e = count oeps (ct_trs e).
  Definition vec_inv (c : vec_cache K) : Prop := forall i e, fetch (fst (vc_trs c)) i = Some e -> ct_ok e.
  Definition map_inv (c : map_cache K) : Prop := forall i e, lookup (fst (mc_trs c)) i = Some e -> ct_ok e.

  Lemma vec_cache_laws : cache_laws (@vec_cache_ops K) vec_inv.
  Proof.
    split; cbn; auto; intros; rewrite ?fetch_put; auto.
    - intros j e. cbn. rewrite fetch_put. destruct (i =? j); [intros [= <-]; split; auto|apply H].
    - destruct (_ =? _); reflexivity.
    - destruct (fetch _ _); auto.
    - destruct (fetch _ _) eqn:E; auto. simpl. f_equal. apply H in E. apply E.
    - destruct (fetch _ _) eqn:E; auto. simpl. f_equal. apply H in E. apply E.
  Qed.
  Lemma vec_cache_empty : cache_empty (@vec_cache_ops K) vec_inv vec_cache_new.
  Proof.
    assert (E : forall A i, @fetch A [] i = None) by (intros A [|i]; auto).
    repeat split; cbn; auto; intros; rewrite ?E; auto; rewrite E in *; discriminate.
  Qed.

  Lemma map_cache_laws : cache_laws (@map_cache_ops K) map_inv.
  Proof.
    split; cbn [c_get_start c_insert_start c_get_trs c_insert_trs c_get_final c_insert_final c_num_trs c_num_ieps c_num_oeps
                map_cache_ops mc_trs mc_fin mc_start fst snd count_trs]; auto; intros; rewrite ?lookup_insert; auto.
    - intros j e. cbn [mc_trs fst]. rewrite lookup_insert. destruct (i =? j); [intros [= <-]; split; auto|apply H].
    - destruct (_ =? _); reflexivity.
    - destruct (lookup _ _); auto.
    - destruct (lookup _ _) eqn:E; auto. simpl. f_equal. apply H in E. apply E.
    - destruct (lookup _ _) eqn:E; auto. simpl. f_equal. apply H in E. apply E.
  Qed.
  Lemma map_cache_empty : cache_empty (@map_cache_ops K) map_inv map_cache_new.
  Proof. repeat split; cbn; auto; intros; discriminate. Qed.

  (** The last answer kept in front agrees with the cache behind it. *)
  Definition first_inv {C} (X : fst_cache K C) (inv : C -> Prop) (c : first_cache K C) : Prop :=
    inv (fc_cache C c) /\
    (forall i l, fc_trs C c = Some (i, l) -> c_get_trs X i (fc_cache C c) = Some l) /\
    (forall i w, fc_fin C c = Some (i, w) -> c_get_final X i (fc_cache C c) = Some w).

  Lemma first_trs {C} (X : fst_cache K C) inv c j : first_inv X inv c ->
    c_get_trs (first_cache_ops X) j c = c_get_trs X j (fc_cache C c).
  Proof.
    intros (_ & H & _). cbn. unfold first_get. destruct (fc_trs C c) as [[i l]|]; auto.
    destruct (Nat.eqb_spec i j) as [<-|]; auto. symmetry. auto.
  Qed.
  Lemma first_fin {C} (X : fst_cache K C) inv c j : first_inv X inv c ->
    c_get_final (first_cache_ops X) j c = c_get_final X j (fc_cache C c).
  Proof.
    intros (_ & _ & H). cbn. unfold first_get. destruct (fc_fin C c) as [[i l]|]; auto.
    destruct (Nat.eqb_spec i j) as [<-|]; auto. symmetry. auto.
  Qed.

  Lemma first_cache_laws {C} (X : fst_cache K C) inv : cache_laws X inv -> cache_laws (first_cache_ops X) (first_inv X inv).
  Proof.
    intros L.
    assert (S1 : forall s c, first_inv X inv c -> first_inv X inv (c_insert_start (first_cache_ops X) s c)).
    { intros s c (A & B & D). split; [|split]; cbn.
      - apply (inv_start _ _ L); auto.
      - intros. rewrite (trs_start _ _ L); auto.
      - intros. rewrite (fin_start _ _ L); auto. }
    assert (S2 : forall i l c, first_inv X inv c -> first_inv X inv (c_insert_trs (first_cache_ops X) i l c)).
    { intros i l c (A & B & D). split; [|split]; cbn.
      - apply (inv_trs _ _ L); auto.
      - intros j l' [= <- <-]. rewrite (trs_trs _ _ L), Nat.eqb_refl; auto.
      - intros. rewrite (fin_trs _ _ L); auto. }
    assert (S3 : forall i l c, first_inv X inv c -> first_inv X inv (c_insert_final (first_cache_ops X) i l c)).
    { intros i l c (A & B & D). split; [|split]; cbn.
      - apply (inv_fin _ _ L); auto.
      - intros. rewrite (trs_fin _ _ L); auto.
      - intros j l' [= <- <-]. rewrite (fin_fin _ _ L), Nat.eqb_refl; auto. }
    split; auto; intros; pose proof H as (A & _ & _).
    - apply (start_start _ _ L); auto.
    - apply (start_trs _ _ L); auto.
    - apply (start_fin _ _ L); auto.
    - rewrite !(first_trs X inv); auto. apply (trs_start _ _ L); auto.
    - rewrite !(first_trs X inv); auto. apply (trs_trs _ _ L); auto.
    - rewrite !(first_trs X inv); auto. apply (trs_fin _ _ L); auto.
    - rewrite !(first_fin X inv); auto. apply (fin_start _ _ L); auto.
    - rewrite !(first_fin X inv); auto. apply (fin_trs _ _ L); auto.
    - rewrite !(first_fin X inv); auto. apply (fin_fin _ _ L); auto.
    - rewrite (first_trs X inv); auto. apply (cnt_trs _ _ L); auto.
    - rewrite (first_trs X inv); auto. apply (cnt_ieps _ _ L); auto.
    - rewrite (first_trs X inv); auto. apply (cnt_oeps _ _ L); auto.
  Qed.
  Lemma first_cache_empty {C} (X : fst_cache K C) inv c : cache_empty X inv c ->
    cache_empty (first_cache_ops X) (first_inv X inv) (F1 C c None None).
  Proof.
    intros (A & B & D & E). split; [|split; [|split]]; cbn; auto.
    split; [|split]; cbn; auto; discriminate.
  Qed.
End CacheFacts.

(** ** Operations *)
Section Op.
  Context {K : SR} {O C : Type} (op : fst_op K O) (X : fst_cache K C) (inv : C -> Prop).

  (** What the answers of an operation mean, relative to its private state, which only grows. *)
  Record op_spec (I : O -> Prop) (le : O -> O -> Prop) (okS : O -> option nat -> Prop)
      (okT : O -> nat -> list (tr K) -> Prop) (okF : O -> nat -> option K -> Prop) : Prop := {
    le_refl : forall o, le o o;
    le_trans : forall a b c, le a b -> le b c -> le a c;
    okS_mono : forall a b s, le a b -> okS a s -> okS b s;
    okT_mono : forall a b i l, le a b -> okT a i l -> okT b i l;
    okF_mono : forall a b i w, le a b -> okF a i w -> okF b i w;
    op_start : forall o s o', I o -> compute_start op o = Ok (s, o') -> I o' /\ le o o' /\ okS o' s;
    op_trs : forall i o l o', I o -> compute_trs op i o = Ok (l, o') -> I o' /\ le o o' /\ okT o' i l;
    op_fin : forall i o w o', I o -> compute_final_weight op i o = Ok (w, o') -> I o' /\ le o o' /\ okF o' i w
  }.
  (** The states that may be asked for, and that asking for them succeeds. *)
  Record op_live (I : O -> Prop) (okS : O -> option nat -> Prop) (okT : O -> nat -> list (tr K) -> Prop)
      (le : O -> O -> Prop) (V : O -> nat -> Prop) : Prop := {
    V_mono : forall a b i, le a b -> V a i -> V b i;
    V_start : forall o s, okS o (Some s) -> V o s;
    V_trs : forall o i l t, V o i -> okT o i l -> In t l -> V o (ns t);
    live_start : forall o, I o -> exists r, compute_start op o = Ok r;
    live_trs : forall i o, I o -> V o i -> exists r, compute_trs op i o = Ok r;
    live_fin : forall i o, I o -> V o i -> exists r, compute_final_weight op i o = Ok r
  }.

  Context (I : O -> Prop) (le : O -> O -> Prop) (okS : O -> option nat -> Prop)
    (okT : O -> nat -> list (tr K) -> Prop) (okF : O -> nat -> option K -> Prop).
  Context (LX : cache_laws X inv) (LO : op_spec I le okS okT okF).

  (** The state of a lazy machine after any queries: everything cached is an answer. *)
  Definition zok (z : O * C) : Prop :=
    I (fst z) /\ inv (snd z) /\
    (forall s, c_get_start X (snd z) = Some s -> okS (fst z) s) /\
    (forall i l, c_get_trs X i (snd z) = Some l -> okT (fst z) i l) /\
    (forall i w, c_get_final X i (snd z) = Some w -> okF (fst z) i w).

  (** Later states remember every answer given. *)
  Definition later (z z' : O * C) : Prop :=
    le (fst z) (fst z') /\
    (forall s, c_get_start X (snd z) = Some s -> c_get_start X (snd z') = Some s) /\
    (forall i l, c_get_trs X i (snd z) = Some l -> c_get_trs X i (snd z') = Some l) /\
    (forall i w, c_get_final X i (snd z) = Some w -> c_get_final X i (snd z') = Some w).

  Lemma later_refl z : later z z.
  Proof. split; [apply (le_refl _ _ _ _ _ LO)|]. auto. Qed.
  Lemma later_trans a b c : later a b -> later b c -> later a c.
  Proof.
    intros (A1 & A2 & A3 & A4) (B1 & B2 & B3 & B4). split; [eapply (le_trans _ _ _ _ _ LO); eauto|]. auto 6.
  Qed.

  Lemma zok_empty o c : I o -> cache_empty X inv c -> zok (o, c).
  Proof.
    intros H (A & B & D & E). split; [|split; [|split; [|split]]]; cbn; auto; intros.
    - congruence.
    - rewrite D in *. discriminate.
    - rewrite E in *. discriminate.
  Qed.

  Lemma l_start_ok z s z' : zok z -> l_start op X z = Ok (s, z') ->
    zok z' /\ later z z' /\ okS (fst z') s /\ c_get_start X (snd z') = Some s.
  Proof.
    intros Z. unfold l_start. destruct (c_get_start X (snd z)) as [s0|] eqn:E.
    - intros [= <- <-]. split; auto. split; [apply later_refl|]. destruct Z as (_ & _ & Z & _). auto.
    - destruct Z as (A & B & D & E1 & F).
      destruct (compute_start op (fst z)) as [[s1 o]| |] eqn:G; try discriminate. intros [= <- <-].
      destruct (op_start _ _ _ _ _ LO _ _ _ A G) as (A' & L & S). cbn [fst snd].
      split; [|split; [|split]]; cbn; auto.
      + split; [|split; [|split; [|split]]]; cbn; auto; intros.
        * apply (inv_start _ _ LX); auto.
        * rewrite (start_start _ _ LX) in H by auto. congruence.
        * rewrite (trs_start _ _ LX) in H by auto. eapply (okT_mono _ _ _ _ _ LO); eauto.
        * rewrite (fin_start _ _ LX) in H by auto. eapply (okF_mono _ _ _ _ _ LO); eauto.
      + split; [|split; [|split]]; cbn; auto; intros.
        * congruence.
        * rewrite (trs_start _ _ LX); auto.
        * rewrite (fin_start _ _ LX); auto.
      + apply (start_start _ _ LX); auto.
  Qed.

  Lemma l_get_trs_ok i z l z' : zok z -> l_get_trs op X i z = Ok (l, z') ->
    zok z' /\ later z z' /\ okT (fst z') i l /\ c_get_trs X i (snd z') = Some l.
  Proof.
    intros Z. unfold l_get_trs. destruct (c_get_trs X i (snd z)) as [l0|] eqn:E.
    - intros [= <- <-]. split; auto. split; [apply later_refl|]. destruct Z as (_ & _ & _ & Z & _). auto.
    - destruct Z as (A & B & D & E1 & F).
      destruct (compute_trs op i (fst z)) as [[l1 o]| |] eqn:G; try discriminate. intros [= <- <-].
      destruct (op_trs _ _ _ _ _ LO _ _ _ _ A G) as (A' & L & S). cbn [fst snd].
      split; [|split; [|split]]; cbn; auto.
      + split; [|split; [|split; [|split]]]; cbn; auto; intros.
        * apply (inv_trs _ _ LX); auto.
        * rewrite (start_trs _ _ LX) in H by auto. eapply (okS_mono _ _ _ _ _ LO); eauto.
        * rewrite (trs_trs _ _ LX) in H by auto. destruct (Nat.eqb_spec i i0) as [<-|]; [congruence|].
          eapply (okT_mono _ _ _ _ _ LO); eauto.
        * rewrite (fin_trs _ _ LX) in H by auto. eapply (okF_mono _ _ _ _ _ LO); eauto.
      + split; [|split; [|split]]; cbn; auto; intros.
        * rewrite (start_trs _ _ LX); auto.
        * rewrite (trs_trs _ _ LX); auto. destruct (Nat.eqb_spec i i0) as [<-|]; [congruence|auto].
        * rewrite (fin_trs _ _ LX); auto.
      + rewrite (trs_trs _ _ LX), Nat.eqb_refl; auto.
  Qed.

  Lemma l_final_ok i z w z' : zok z -> l_final_weight op X i z = Ok (w, z') ->
    zok z' /\ later z z' /\ okF (fst z') i w /\ c_get_final X i (snd z') = Some w.
  Proof.
    intros Z. unfold l_final_weight. destruct (c_get_final X i (snd z)) as [l0|] eqn:E.
    - intros [= <- <-]. split; auto. split; [apply later_refl|]. destruct Z as (_ & _ & _ & _ & Z). auto.
    - destruct Z as (A & B & D & E1 & F).
      destruct (compute_final_weight op i (fst z)) as [[l1 o]| |] eqn:G; try discriminate. intros [= <- <-].
      destruct (op_fin _ _ _ _ _ LO _ _ _ _ A G) as (A' & L & S). cbn [fst snd].
      split; [|split; [|split]]; cbn; auto.
      + split; [|split; [|split; [|split]]]; cbn; auto; intros.
        * apply (inv_fin _ _ LX); auto.
        * rewrite (start_fin _ _ LX) in H by auto. eapply (okS_mono _ _ _ _ _ LO); eauto.
        * rewrite (trs_fin _ _ LX) in H by auto. eapply (okT_mono _ _ _ _ _ LO); eauto.
        * rewrite (fin_fin _ _ LX) in H by auto. destruct (Nat.eqb_spec i i0) as [<-|]; [congruence|].
          eapply (okF_mono _ _ _ _ _ LO); eauto.
      + split; [|split; [|split]]; cbn; auto; intros.
        * rewrite (start_fin _ _ LX); auto.
        * rewrite (trs_fin _ _ LX); auto.
        * rewrite (fin_fin _ _ LX); auto. destruct (Nat.eqb_spec i i0) as [<-|]; [congruence|auto].
      + rewrite (fin_fin _ _ LX), Nat.eqb_refl; auto.
  Qed.

  (** ** compute *)
  Notation isv vis q := (nth q vis false).

  Lemma see_fold (l : list (tr K)) : forall queue vis (g : vfst K) queue' vis' (g' : vfst K),
    fold_left see l (queue, vis, g) = (queue', vis', g') -> length vis = num_states g ->
    (forall q, In q queue -> isv vis q = true) -> NoDup queue ->
    length vis' = num_states g' /\ num_states g <= num_states g' /\ NoDup queue' /\
    (forall q, In q queue' -> isv vis' q = true) /\
    (forall q, isv vis q = true -> isv vis' q = true) /\
    (forall q, In q queue -> In q queue') /\
    (forall q, isv vis' q = true -> isv vis q = true \/ (In q queue' /\ exists t, In t l /\ ns t = q)) /\
    (forall q, In q queue' -> isv vis q = true -> In q queue) /\
    (forall t, In t l -> isv vis' (ns t) = true) /\
    vstart g' = vstart g /\ visymt g' = visymt g /\ vosymt g' = vosymt g /\ (cnt g -> cnt g') /\
    (forall q, trs_of g' q = trs_of g q) /\ (forall q, fin_of g' q = fin_of g q).
  Proof.
    induction l as [|t l IH]; intros queue vis g queue' vis' g' E HL HQ ND.
    - injection E as <- <- <-. repeat split; auto.
    - cbn [fold_left] in E. unfold see at 2 in E.
      set (vis1 := if length vis <=? ns t then vis ++ repeat false (ns t + 1 - length vis) else vis) in *.
      set (vis2 := if isv vis1 (ns t) then vis1 else upd vis1 (ns t) true) in *.
      set (queue2 := if isv vis1 (ns t) then queue else queue ++ [ns t]) in *.
      set (g2 := if num_states g <=? ns t then add_states g (ns t - num_states g + 1) else g) in *.
      assert (V1 : forall q, isv vis1 q = isv vis q).
      { intros q. unfold vis1. destruct (length vis <=? ns t); auto.
        destruct (lt_dec q (length vis)).
        - rewrite app_nth1; auto.
        - rewrite app_nth2 by lia. rewrite (nth_overflow vis) by lia.
          destruct (lt_dec (q - length vis) (ns t + 1 - length vis)).
          + apply nth_repeat.
          + apply nth_overflow. rewrite repeat_length. lia. }
      assert (L1 : ns t < length vis1).
      { unfold vis1. destruct (Nat.leb_spec (length vis) (ns t)); auto. rewrite app_length, repeat_length. lia. }
      assert (V2 : forall q, isv vis2 q = (ns t =? q) || isv vis q).
      { intros q. unfold vis2. destruct (isv vis1 (ns t)) eqn:F.
        - rewrite V1. destruct (Nat.eqb_spec (ns t) q) as [<-|]; auto. rewrite <- V1. auto.
        - rewrite nth_upd, V1. destruct (Nat.eqb_spec (ns t) q) as [<-|]; auto.
          simpl. apply Nat.ltb_lt in L1. rewrite L1. auto. }
      assert (G2 : num_states g2 = Nat.max (num_states g) (ns t + 1) /\ vstart g2 = vstart g /\ visymt g2 = visymt g /\
                   vosymt g2 = vosymt g /\ (cnt g -> cnt g2) /\
                   (forall q, trs_of g2 q = trs_of g q) /\ (forall q, fin_of g2 q = fin_of g q)).
      { unfold g2. destruct (Nat.leb_spec (num_states g) (ns t)).
        - destruct (add_states_eff g (ns t - num_states g + 1)) as (A & B). rewrite A. split; [lia|]. exact B.
        - repeat split; auto. lia. }
      destruct G2 as (N2 & S2 & I2 & O2 & C2 & T2 & F2).
      assert (L2 : length vis2 = num_states g2).
      { rewrite N2, <- HL. unfold vis2. destruct (isv vis1 (ns t)); rewrite ?upd_length; unfold vis1;
          destruct (Nat.leb_spec (length vis) (ns t)); rewrite ?app_length, ?repeat_length; lia. }
      assert (Q2 : forall q, In q queue2 <-> In q queue \/ (q = ns t /\ isv vis q = false)).
      { intros q. unfold queue2. rewrite V1. destruct (isv vis (ns t)) eqn:F.
        - split; auto. intros [?|[-> ?]]; auto. congruence.
        - rewrite in_app_iff. simpl. split; [intros [?|[<-|[]]]; auto|intros [?|[-> ?]]; auto]. }
      assert (N : NoDup queue2).
      { unfold queue2. rewrite V1. destruct (isv vis (ns t)) eqn:F; auto.
        apply NoDup_app_snoc; auto. intros H. apply HQ in H. congruence. }
      destruct (IH _ _ _ _ _ _ E L2) as (A1 & A2 & A3 & A4 & A5 & A6 & A7 & A8 & A9 & A10 & A11 & A12 & A13 & A14 & A15); auto.
      { intros q H. rewrite V2. apply Q2 in H as [H|[-> H]]; [rewrite HQ, orb_true_r; auto|rewrite Nat.eqb_refl; auto]. }
      split; auto. split; [lia|]. split; auto. split; auto.
      split; [intros q H; apply A5; rewrite V2, H, orb_true_r; auto|].
      split; [intros q H; apply A6, Q2; auto|].
      split.
      { intros q H. apply A7 in H as [H|[H (u & Hu & Eu)]]; [|right; split; auto; exists u; simpl; auto].
        rewrite V2 in H. destruct (isv vis q) eqn:F; auto. right.
        destruct (Nat.eqb_spec (ns t) q) as [<-|]; [|discriminate]. split; [|exists t; simpl; auto].
        apply A6, Q2. auto. }
      split.
      { intros q H1 H2. assert (In q queue2) as H3 by (apply A8; auto; rewrite V2, H2, orb_true_r; auto).
        apply Q2 in H3 as [?|[-> ?]]; auto. congruence. }
      split.
      { intros u [<-|H]; auto. apply A5. rewrite V2, Nat.eqb_refl. auto. }
      repeat split; try congruence; auto; intros; rewrite ?A14, ?A15; auto.
  Qed.

  Definition binv (s0 : nat) (queue : list nat) (vis : list bool) (g : vfst K) (z : O * C) : Prop :=
    zok z /\ cnt g /\ vstart g = Some s0 /\ visymt g = None /\ vosymt g = None /\ length vis = num_states g /\ NoDup queue /\
    (forall q, In q queue -> isv vis q = true) /\ isv vis s0 = true /\
    (forall q, isv vis q = true -> reach (mach g) s0 q) /\
    (forall q, isv vis q = true -> ~ In q queue ->
       okT (fst z) q (trs_of g q) /\ okF (fst z) q (fin_of g q) /\ forall t, In t (trs_of g q) -> isv vis (ns t) = true) /\
    (forall q, isv vis q = false \/ In q queue -> trs_of g q = [] /\ fin_of g q = None).

  Lemma isv_lt vis q : isv vis q = true -> q < length vis.
  Proof. intros H. destruct (lt_dec q (length vis)); auto. rewrite nth_overflow in H by lia. discriminate. Qed.

  Lemma set_trs_eff (f : vfst K) s l : s < num_states f -> exists g, set_trs f s l = Ok g /\ eff f g /\
    (forall q, trs_of g q = if q =? s then l else trs_of f q) /\ (forall q, fin_of g q = fin_of f q).
  Proof.
    intros H. destruct (nth_state f s H) as (st & E & E1 & E2). unfold set_trs. rewrite E. eexists. split; [reflexivity|].
    split; [|split].
    - apply eff_upd. intros _. split; reflexivity.
    - intros q. rewrite trs_of_upd by auto. auto.
    - intros q. rewrite fin_of_upd by auto. simpl. rewrite <- E2. apply if_same.
  Qed.

  Lemma reach_sub (m m' : machine K) a b : (forall q t, In t (mtrs m q) -> In t (mtrs m' q)) -> reach m a b -> reach m' a b.
  Proof. intros H R. induction R; [apply reach_refl|]. eapply reach_step; eauto. Qed.

  Lemma reach_snoc (m : machine K) a b t : reach m a b -> In t (mtrs m b) -> reach m a (ns t).
  Proof. intros R H. eapply reach_trans; eauto. eapply reach_step; eauto. apply reach_refl. Qed.

  (** One step of the loop. *)
  Definition step1 (s : nat) (queue : list nat) (vis : list bool) (g : vfst K) (z : O * C)
    : res (list nat * list bool * vfst K * (O * C)) :=
    r <-- l_get_trs op X s z ;;
    let '(queue, vis, g) := fold_left see (fst r) (queue, vis, g) in
    g <-- set_trs g s (fst r) ;;
    w <-- l_final_weight op X s (snd r) ;;
    g <-- (match fst w with Some w => set_final g s w | None => Ok g end) ;;
    Ok (queue, vis, g, snd w).

  Lemma bfs_step fuel s queue vis g z : bfs op X (S fuel) (s :: queue) vis g z =
    match step1 s queue vis g z with
    | Ok (queue, vis, g, z) => bfs op X fuel queue vis g z
    | Err => Some Err
    | Panic => Some Panic
    end.
  Proof.
    cbn [bfs]. unfold step1. destruct (l_get_trs op X s z) as [[l z1]| |]; auto. cbn [rbind fst snd].
    destruct (fold_left see l (queue, vis, g)) as [[queue1 vis1] g1].
    destruct (set_trs g1 s l) as [g2| |]; auto. cbn [rbind].
    destruct (l_final_weight op X s z1) as [[[w|] z2]| |]; auto. cbn [rbind fst snd].
    destruct (set_final g2 s w); auto.
  Qed.

  Lemma step1_ok s0 s queue vis g z queue' vis' g' z' : binv s0 (s :: queue) vis g z ->
    step1 s queue vis g z = Ok (queue', vis', g', z') ->
    binv s0 queue' vis' g' z' /\ later z z' /\ (forall q, isv vis q = true -> isv vis' q = true) /\ ~ In s queue'.
  Proof.
    intros (Z & CN & ST & IS & OS & LV & ND & HQ & H0 & HR & HD & HN). unfold step1.
    destruct (l_get_trs op X s z) as [[l z1]| |] eqn:E1; try discriminate. cbn [rbind fst snd].
    destruct (fold_left see l (queue, vis, g)) as [[queue1 vis1] g1] eqn:E2.
    destruct (l_get_trs_ok _ _ _ _ Z E1) as (Z1 & LT1 & OK1 & GT1).
    inversion ND as [|? ? NS ND']; subst.
    destruct (see_fold _ _ _ _ _ _ _ E2 LV) as (A1 & A2 & A3 & A4 & A5 & A6 & A7 & A8 & A9 & A10 & A11 & A12 & A13 & A14 & A15); auto.
    { intros q H. apply HQ. simpl. auto. }
    assert (Vs : isv vis s = true) by (apply HQ; simpl; auto).
    assert (Ls : s < num_states g1) by (apply isv_lt in Vs; lia).
    destruct (set_trs_eff g1 s l Ls) as (g2 & E3 & EF2 & T2 & F2). rewrite E3. cbn [rbind].
    destruct (l_final_weight op X s z1) as [[w z2]| |] eqn:E4; try discriminate. cbn [rbind fst snd].
    destruct (l_final_ok _ _ _ _ Z1 E4) as (Z2 & LT2 & OK2 & GF2).
    destruct EF2 as (N2 & S2 & I2 & O2 & C2).
    assert (G : exists g3, (match w with Some w => set_final g2 s w | None => Ok g2 end) = Ok g3 /\ eff g2 g3 /\
       (forall q, trs_of g3 q = trs_of g2 q) /\ (forall q, fin_of g3 q = if q =? s then w else fin_of g2 q)).
    { destruct w as [w|].
      - apply set_final_eff. lia.
      - exists g2. split; auto. split; [apply eff_refl|]. split; auto.
        intros q. destruct (Nat.eqb_spec q s) as [->|]; auto. rewrite F2, A15. apply HN. simpl. auto. }
    destruct G as (g3 & E5 & (N3 & S3 & I3 & O3 & C3) & T3 & F3). rewrite E5. cbn [rbind].
    intros [= <- <- <- <-].
    assert (NS' : ~ In s queue1) by (intros H; apply NS, A8; auto).
    assert (T : forall q, trs_of g3 q = if q =? s then l else trs_of g q).
    { intros q. rewrite T3, T2, A14. auto. }
    assert (F : forall q, fin_of g3 q = if q =? s then w else fin_of g q).
    { intros q. rewrite F3, F2, A15. auto. }
    assert (SUB : forall q t, In t (mtrs (mach g) q) -> In t (mtrs (mach g3) q)).
    { intros q t H. cbn in *. rewrite T. destruct (Nat.eqb_spec q s) as [->|]; auto.
      destruct (HN s) as [HT _]; [simpl; auto|]. rewrite HT in H. destruct H. }
    assert (RCH : forall q, isv vis q = true -> reach (mach g3) s0 q).
    { intros q H. apply (reach_sub (mach g)); auto. }
    split; [|split; [eapply later_trans; eauto|split; auto]].
    split; [exact Z2|]. split; [apply C3, C2, A13, CN|]. split; [congruence|]. split; [congruence|]. split; [congruence|].
    split; [congruence|]. split; [auto|]. split; [auto|]. split; [auto|].
    assert (OLD : forall q, isv vis1 q = true -> ~ In q queue1 -> q <> s -> isv vis q = true /\ ~ In q (s :: queue)).
    { intros q H N M. apply A7 in H as [H|[H _]]; [|tauto]. split; auto. intros [<-|Hq]; auto. }
    assert (NEW : forall q, isv vis1 q = false \/ In q queue1 -> q <> s /\ (isv vis q = false \/ In q (s :: queue))).
    { intros q H. split.
      - intros ->. destruct H as [H|H]; [|tauto]. apply A5 in Vs. congruence.
      - destruct (isv vis q) eqn:E; auto. right. right. destruct H as [H|H]; auto. apply A5 in E. congruence. }
    destruct LT1 as (LE1 & _). destruct LT2 as (LE2 & _).
    split; [|split].
    - intros q H. apply A7 in H as [H|[H (t & Ht & <-)]]; auto.
      apply reach_snoc with s; auto. cbn. rewrite T, Nat.eqb_refl. auto.
    - intros q H N. rewrite T, F. destruct (Nat.eqb_spec q s) as [->|M].
      + split; [eapply (okT_mono _ _ _ _ _ LO); eauto|]. auto.
      + destruct (OLD q H N M) as [H1 H2]. destruct (HD q H1 H2) as (P1 & P2 & P3).
        split; [|split; auto].
        * eapply (okT_mono _ _ _ _ _ LO); [|eauto]. eapply (le_trans _ _ _ _ _ LO); eauto.
        * eapply (okF_mono _ _ _ _ _ LO); [|eauto]. eapply (le_trans _ _ _ _ _ LO); eauto.
    - intros q H. destruct (NEW q H) as [M H1]. rewrite T, F. destruct (Nat.eqb_spec q s); [tauto|]. auto.
  Qed.

  Lemma bfs_ok s0 fuel : forall queue vis g z g' z', binv s0 queue vis g z ->
    bfs op X fuel queue vis g z = Some (Ok (g', z')) -> exists vis', binv s0 [] vis' g' z' /\ later z z'.
  Proof.
    induction fuel as [|fuel IH]; intros [|s queue] vis g z g' z' B E.
    - injection E as <- <-. exists vis. split; auto. apply later_refl.
    - discriminate.
    - injection E as <- <-. exists vis. split; auto. apply later_refl.
    - rewrite bfs_step in E. destruct (step1 s queue vis g z) as [[[[q1 v1] g1] z1]| |] eqn:E1; try discriminate.
      destruct (step1_ok _ _ _ _ _ _ _ _ _ _ B E1) as (B1 & L1 & _).
      destruct (IH _ _ _ _ _ _ B1 E) as (vis' & B2 & L2). exists vis'. split; auto. eapply later_trans; eauto.
  Qed.

  (** The last state is one that was seen. *)
  Definition blast (vis : list bool) (g : vfst K) : Prop :=
    length vis = num_states g /\ 0 < num_states g /\ isv vis (pred (num_states g)) = true.
  Lemma see_blast l : forall queue vis g, blast vis g -> blast (snd (fst (fold_left see l (queue, vis, g)))) (snd (fold_left see l (queue, vis, g))).
  Proof.
    induction l as [|t l IH]; intros queue vis g (A & B & HV); cbn [fold_left]; [split; auto|].
    cbn [see]. apply IH. rewrite A. destruct (Nat.leb_spec (num_states g) (ns t)) as [Hl|Hl].
    - destruct (add_states_eff g (ns t - num_states g + 1)) as (N & _). unfold blast. rewrite N.
      replace (pred (num_states g + (ns t - num_states g + 1))) with (ns t) by lia.
      split; [|split; [lia|]].
      + destruct (nth (ns t) _ false); rewrite ?upd_length, app_length, repeat_length; lia.
      + set (v := vis ++ _). assert (LV : ns t < length v) by (unfold v; rewrite app_length, repeat_length; lia).
        case_eq (nth (ns t) v false); intros E; [exact E|]. rewrite nth_upd, Nat.eqb_refl.
        replace (ns t <? length v) with true; auto. symmetry. apply Nat.ltb_lt. auto.
    - unfold blast. split; [|split; [auto|]].
      + destruct (nth (ns t) vis false); rewrite ?upd_length; auto.
      + destruct (nth (ns t) vis false) eqn:E; auto. rewrite nth_upd.
        destruct ((ns t =? pred (num_states g)) && _); auto.
  Qed.
  Lemma step1_blast s queue vis g z queue' vis' g' z' : blast vis g -> step1 s queue vis g z = Ok (queue', vis', g', z') -> blast vis' g'.
  Proof.
    intros B. unfold step1. destruct (l_get_trs op X s z) as [[l z1]| |]; try discriminate. cbn [rbind fst snd].
    pose proof (see_blast l queue vis g B) as B1. destruct (fold_left see l (queue, vis, g)) as [[queue1 vis1] g1]. cbn [fst snd] in B1.
    destruct (set_trs g1 s l) as [g2| |] eqn:E2; try discriminate. cbn [rbind].
    assert (N2 : num_states g2 = num_states g1).
    { destruct (lt_dec s (num_states g1)) as [H|H].
      - destruct (set_trs_eff g1 s l H) as (g2' & E & (N & _) & _). rewrite E2 in E. injection E as ->. auto.
      - unfold set_trs in E2. replace (nth_error (vstates g1) s) with (@None (vstate K)) in E2; [discriminate|].
        symmetry. apply nth_error_None. unfold num_states in H. lia. }
    destruct (l_final_weight op X s z1) as [[w z2]| |]; try discriminate. cbn [rbind fst snd].
    destruct w as [w|].
    - destruct (set_final g2 s w) as [g3| |] eqn:E3; try discriminate. cbn [rbind]. intros [= <- <- <- <-].
      assert (N3 : num_states g3 = num_states g2).
      { destruct (lt_dec s (num_states g2)) as [H|H].
        - destruct (set_final_eff g2 s w H) as (g3' & E & (N & _) & _). rewrite E3 in E. injection E as ->. auto.
        - unfold set_final in E3. replace (nth_error (vstates g2) s) with (@None (vstate K)) in E3; [discriminate|].
          symmetry. apply nth_error_None. unfold num_states in H. lia. }
      unfold blast. rewrite N3, N2. auto.
    - cbn [rbind]. intros [= <- <- <- <-]. unfold blast. rewrite N2. auto.
  Qed.
  Lemma bfs_blast s0 fuel : forall queue vis g z g' z', binv s0 queue vis g z -> blast vis g ->
    bfs op X fuel queue vis g z = Some (Ok (g', z')) -> exists vis', binv s0 [] vis' g' z' /\ blast vis' g'.
  Proof.
    induction fuel as [|fuel IH]; intros [|s queue] vis g z g' z' B BL E.
    - injection E as <- <-. eauto.
    - discriminate.
    - injection E as <- <-. eauto.
    - rewrite bfs_step in E. destruct (step1 s queue vis g z) as [[[[q1 v1] g1] z1]| |] eqn:E1; try discriminate.
      destruct (step1_ok _ _ _ _ _ _ _ _ _ _ B E1) as (B1 & L1 & _).
      apply (IH _ _ _ _ _ _ B1 (step1_blast _ _ _ _ _ _ _ _ _ BL E1) E).
  Qed.

  (** What [compute] returns, from any state a lazy machine can be in. *)
  Definition built (g : vfst K) (z : O * C) : Prop :=
    cnt g /\ closed g /\
    match vstart g with
    | None => vstates g = [] /\ okS (fst z) None
    | Some s => s < num_states g /\ okS (fst z) (Some s) /\
        (forall q, accessible (mach g) q -> okT (fst z) q (trs_of g q) /\ okF (fst z) q (fin_of g q)) /\
        (forall q, ~ accessible (mach g) q -> trs_of g q = [] /\ fin_of g q = None)
    end.

  Lemma binv_start s z : zok z -> exists g, set_start (add_states (@vnew K) (s + 1)) s = Ok g /\
    binv s [s] (upd (repeat false (s + 1)) s true) g z.
  Proof.
    intros Z. destruct (add_states_eff (@vnew K) (s + 1)) as (A1 & A2 & A3 & A4 & A5 & A6 & A7).
    change (num_states (@vnew K)) with 0 in A1. simpl in A1.
    destruct (set_start_eff (add_states (@vnew K) (s + 1)) s) as (g & E & B1 & B2 & B3 & B4 & B5 & B6 & B7); [lia|].
    exists g. split; auto.
    assert (VS : forall q, isv (upd (repeat false (s + 1)) s true) q = (s =? q)).
    { intros q. rewrite nth_upd, repeat_length. destruct (Nat.eqb_spec s q) as [<-|].
      - replace (s <? s + 1) with true; auto. symmetry. apply Nat.ltb_lt. lia.
      - simpl. destruct (lt_dec q (s + 1)).
        + apply nth_repeat.
        + apply nth_overflow. rewrite repeat_length. lia. }
    assert (TN : forall q, trs_of (@vnew K) q = []) by (intros [|q]; auto).
    assert (FN : forall q, fin_of (@vnew K) q = None) by (intros [|q]; auto).
    assert (CN : cnt (@vnew K)) by constructor.
    split; auto. split; [auto|]. split; auto. split; [rewrite B3, A3; auto|]. split; [rewrite B4, A4; auto|].
    split; [rewrite upd_length, repeat_length; lia|].
    split; [repeat constructor; simpl; tauto|].
    split; [intros q [<-|[]]; rewrite VS, Nat.eqb_refl; auto|].
    split; [rewrite VS, Nat.eqb_refl; auto|].
    split; [intros q H; rewrite VS in H; apply Nat.eqb_eq in H as <-; apply reach_refl|].
    split; [intros q H N; rewrite VS in H; apply Nat.eqb_eq in H as <-; simpl in N; tauto|].
    intros q _. rewrite B6, B7, A6, A7. auto.
  Qed.

  Lemma binv_blast s g (E : set_start (add_states (@vnew K) (s + 1)) s = Ok g) : blast (upd (repeat false (s + 1)) s true) g.
  Proof.
    destruct (add_states_eff (@vnew K) (s + 1)) as (A1 & _). change (num_states (@vnew K)) with 0 in A1. simpl in A1.
    destruct (set_start_eff (add_states (@vnew K) (s + 1)) s) as (g' & E' & B1 & _); [lia|].
    rewrite E in E'. injection E' as <-. unfold blast. rewrite B1, A1, upd_length, repeat_length.
    split; [auto|]. split; [lia|]. replace (pred (s + 1)) with s by lia. rewrite nth_upd, repeat_length, Nat.eqb_refl.
    replace (s <? s + 1) with true; auto. symmetry. apply Nat.ltb_lt. lia.
  Qed.

  Lemma binv_done s vis g z : binv s [] vis g z -> okS (fst z) (Some s) -> forall i o p,
    built (VF (vstates g) (vstart g) i o p) z.
  Proof.
    intros (Z & CN & ST & IS & OS & LV & ND & HQ & H0 & HR & HD & HN) H i o p.
    assert (ACC : forall q, accessible (mach g) q <-> isv vis q = true).
    { intros q. split.
      - intros (s1 & E & R). cbn in E. rewrite ST in E. injection E as <-.
        clear -R H0 HD. induction R; auto. apply IHR. destruct (HD s) as (_ & _ & P); auto.
      - intros V. exists s. split; auto. }
    assert (M : mach (VF (vstates g) (vstart g) i o p) = mach g) by reflexivity.
    split; [exact CN|]. split.
    { split; [|intros q; cbn [vstart]; rewrite ST; intros [= <-]; apply isv_lt in H0; unfold num_states in *; cbn; lia].
      intros q t. change (In t (trs_of g q) -> ns t < num_states g). intros Ht.
      assert (isv vis q = true) as Vq.
      { destruct (isv vis q) eqn:E; auto. destruct (HN q) as [HT _]; auto. rewrite HT in Ht. destruct Ht. }
      destruct (HD q Vq) as (_ & _ & P); auto. specialize (P _ Ht). apply isv_lt in P. lia. }
    cbn [vstart]. rewrite M, ST.
    split; [apply isv_lt in H0; unfold num_states in *; cbn; lia|]. split; auto. split.
    - intros q A. apply ACC in A. destruct (HD q A) as (P1 & P2 & _); auto.
    - intros q A. apply HN. left. destruct (isv vis q) eqn:E; auto. apply ACC in E. tauto.
  Qed.

  Theorem compute_ok fuel i o z g z' : zok z -> compute op X fuel i o z = Some (Ok (g, z')) ->
    zok z' /\ later z z' /\ built g z' /\
    (vstart g <> None -> visymt g = i /\ vosymt g = o /\ vprops g = op_properties op /\ accessible (mach g) (pred (num_states g))).
  Proof.
    intros Z. unfold compute. destruct (l_start op X z) as [[[s|] z1]| |] eqn:E; try discriminate.
    - destruct (l_start_ok _ _ _ Z E) as (Z1 & L1 & S1 & _).
      destruct (binv_start s z1 Z1) as (g0 & E0 & B0). rewrite E0.
      destruct (bfs op X fuel _ _ g0 z1) as [[[g1 z2]| |]|] eqn:E1; try discriminate.
      intros [= <- <-]. destruct (bfs_ok _ _ _ _ _ _ _ _ B0 E1) as (vis' & B1 & L2).
      split; [apply B1|]. split; [eapply later_trans; eauto|]. split.
      + eapply binv_done; eauto. eapply (okS_mono _ _ _ _ _ LO); [apply L2|]. auto.
      + intros _. cbn. destruct B1 as (_ & _ & _ & IS & OS & _). rewrite IS, OS.
        destruct (bfs_blast _ _ _ _ _ _ _ _ B0 (binv_blast _ _ E0) E1) as (v2 & (_ & _ & ST & _ & _ & _ & _ & _ & _ & HR & _) & (_ & _ & BL)).
        assert (A : accessible (mach g1) (pred (num_states g1))) by (exists s; split; [exact ST|apply HR, BL]).
        destruct i, o; auto.
    - intros [= <- <-]. destruct (l_start_ok _ _ _ Z E) as (Z1 & L1 & S1 & _).
      split; auto. split; auto. split; [|intros H; exfalso; apply H; reflexivity].
      split; [constructor|]. split; [|cbn; auto]. split; [intros [|q] t []|discriminate].
  Qed.

  (** Enough fuel, when the ids handed out are bounded. *)
  Context (V : O -> nat -> Prop) (LV : op_live I okS okT le V).

  Lemma l_start_live z : zok z -> exists r, l_start op X z = Ok r.
  Proof.
    intros (A & _). unfold l_start. destruct (c_get_start X (snd z)); eauto.
    destruct (live_start _ _ _ _ _ LV _ A) as [[s o] ->]. eauto.
  Qed.
  Lemma l_trs_live i z : zok z -> V (fst z) i -> exists r, l_get_trs op X i z = Ok r.
  Proof.
    intros (A & _) H. unfold l_get_trs. destruct (c_get_trs X i (snd z)); eauto.
    destruct (live_trs _ _ _ _ _ LV _ _ A H) as [[s o] ->]. cbn. eauto.
  Qed.
  Lemma l_fin_live i z : zok z -> V (fst z) i -> exists r, l_final_weight op X i z = Ok r.
  Proof.
    intros (A & _) H. unfold l_final_weight. destruct (c_get_final X i (snd z)); eauto.
    destruct (live_fin _ _ _ _ _ LV _ _ A H) as [[s o] ->]. cbn. eauto.
  Qed.

  Context (B : nat) (HB : forall o i, I o -> V o i -> i < B).

  Lemma step1_live s0 s queue vis g z : binv s0 (s :: queue) vis g z -> V (fst z) s ->
    exists r, step1 s queue vis g z = Ok r.
  Proof.
    intros (Z & CN & ST & IS & OS & LVi & ND & HQ & H0 & HR & HD & HN) HV. unfold step1.
    destruct (l_trs_live _ _ Z HV) as [[l z1] E1]. rewrite E1. cbn [rbind fst snd].
    destruct (fold_left see l (queue, vis, g)) as [[queue1 vis1] g1] eqn:E2.
    destruct (l_get_trs_ok _ _ _ _ Z E1) as (Z1 & LT1 & OK1 & GT1).
    inversion ND as [|? ? NS ND']; subst.
    destruct (see_fold _ _ _ _ _ _ _ E2 LVi) as (A1 & A2 & _); auto.
    { intros q H. apply HQ. simpl. auto. }
    assert (Vs : isv vis s = true) by (apply HQ; simpl; auto).
    assert (Ls : s < num_states g1) by (apply isv_lt in Vs; lia).
    destruct (set_trs_eff g1 s l Ls) as (g2 & E3 & (N2 & _) & T2 & F2). rewrite E3. cbn [rbind].
    destruct (l_fin_live s z1 Z1) as [[w z2] E4].
    { eapply (V_mono _ _ _ _ _ LV); [apply LT1|]. auto. }
    rewrite E4. cbn [rbind fst snd]. destruct w as [w|]; cbn [rbind]; eauto.
    destruct (set_final_eff g2 s w) as (g3 & E5 & _); [lia|]. rewrite E5. cbn. eauto.
  Qed.

  (** The states already expanded are distinct ids below the bound. *)
  Lemma bfs_total s0 fuel : forall queue vis g z done, binv s0 queue vis g z ->
    NoDup done -> (forall q, In q done -> isv vis q = true /\ ~ In q queue /\ V (fst z) q) ->
    (forall q, In q queue -> V (fst z) q) -> B <= fuel + length done ->
    exists r, bfs op X fuel queue vis g z = Some (Ok r).
  Proof.
    induction fuel as [|fuel IH]; intros [|s queue] vis g z done BI ND HD HQ HF; try (cbn; eauto; fail).
    - exfalso. assert (length (s :: done) <= length (seq 0 B)) as H.
      { apply NoDup_incl_length.
        - constructor; auto. intros H. apply HD in H. simpl in H. tauto.
        - intros q [<-|H]; apply in_seq.
          + split; [lia|]. apply HB with (fst z); [apply BI|]. apply HQ. simpl. auto.
          + split; [lia|]. apply HB with (fst z); [apply BI|]. apply HD. auto. }
      rewrite seq_length in H. simpl in H. lia.
    - rewrite bfs_step. destruct (step1_live _ _ _ _ _ _ BI) as [[[[q1 v1] g1] z1] E]; [apply HQ; simpl; auto|].
      rewrite E. destruct (step1_ok _ _ _ _ _ _ _ _ _ _ BI E) as (B1 & L1 & M1 & N1).
      assert (VM : forall q, V (fst z) q -> V (fst z1) q) by (intros q; apply (V_mono _ _ _ _ _ LV), L1).
      apply (IH _ _ _ _ (s :: done)); auto.
      + constructor; auto. intros H. apply HD in H. simpl in H. tauto.
      + assert (Q : forall q, isv vis q = true -> In q q1 -> In q queue).
        { intros q Hv Hq. unfold step1 in E.
          destruct (l_get_trs op X s z) as [[l z2]| |] eqn:E1; try discriminate. cbn [rbind fst snd] in E.
          destruct (fold_left see l (queue, vis, g)) as [[queue1 vis1] g2] eqn:E2.
          destruct BI as (Z & CN & ST & IS & OS & LVi & NDq & HQi & _).
          inversion NDq; subst.
          destruct (see_fold _ _ _ _ _ _ _ E2 LVi) as (_ & _ & _ & _ & _ & _ & _ & A8 & _); auto.
          { intros q' H'. apply HQi. simpl. auto. }
          destruct (set_trs g2 s l); try discriminate. cbn [rbind] in E.
          destruct (l_final_weight op X s z2) as [[w z3]| |]; try discriminate. cbn [rbind fst snd] in E.
          destruct (match w with Some w0 => set_final a s w0 | None => Ok a end); try discriminate.
          cbn [rbind] in E. injection E as <- _ _ _. auto. }
        intros q [<-|H].
        * split; [|split; auto].
          -- apply M1. apply BI. simpl. auto.
          -- apply VM, HQ. simpl. auto.
        * destruct (HD _ H) as (P1 & P2 & P3). split; auto. split; auto.
          intros Hq. apply P2. right. auto.
      + intros q H. destruct (in_dec Nat.eq_dec q queue) as [i|ni]; [apply VM, HQ; simpl; auto|].
        unfold step1 in E.
        destruct (l_get_trs op X s z) as [[l z2]| |] eqn:E1; try discriminate. cbn [rbind fst snd] in E.
        destruct (fold_left see l (queue, vis, g)) as [[queue1 vis1] g2] eqn:E2.
        pose proof BI as (Z & CN & ST & IS & OS & LVi & NDq & HQi & _).
        inversion NDq; subst.
        destruct (see_fold _ _ _ _ _ _ _ E2 LVi) as (_ & _ & _ & A4 & _ & _ & A7 & A8 & _); auto.
        { intros q' H'. apply HQi. simpl. auto. }
        destruct (l_get_trs_ok _ _ _ _ Z E1) as (Z2 & LT2 & OK2 & _).
        destruct (set_trs g2 s l); try discriminate. cbn [rbind] in E.
        destruct (l_final_weight op X s z2) as [[w z3]| |] eqn:E4; try discriminate. cbn [rbind fst snd] in E.
        destruct (match w with Some w0 => set_final a s w0 | None => Ok a end); try discriminate.
        cbn [rbind] in E. injection E as <- <- <- <-.
        destruct (l_final_ok _ _ _ _ Z2 E4) as (Z3 & LT3 & _).
        destruct (A7 q (A4 q H)) as [Hv|(_ & t & Ht & <-)]; [exfalso; apply ni; auto|].
        eapply (V_mono _ _ _ _ _ LV); [apply LT3|]. eapply (V_trs _ _ _ _ _ LV); [|exact OK2|auto].
        apply (V_mono _ _ _ _ _ LV (fst z)); [apply LT2|]. apply HQ. simpl. auto.
      + simpl. lia.
  Qed.

  Theorem compute_total fuel i o z : zok z -> B <= fuel -> exists r, compute op X fuel i o z = Some (Ok r).
  Proof.
    intros Z HF. unfold compute. destruct (l_start_live z Z) as [[[s|] z1] E]; rewrite E; [|eauto].
    destruct (l_start_ok _ _ _ Z E) as (Z1 & L1 & S1 & _).
    destruct (binv_start s z1 Z1) as (g0 & E0 & B0). rewrite E0.
    destruct (bfs_total s fuel _ _ _ _ [] B0) as [[g1 z2] E1].
    - constructor.
    - intros q [].
    - intros q [<-|[]]. eapply (V_start _ _ _ _ _ LV); eauto.
    - simpl. lia.
    - rewrite E1. eauto.
  Qed.
End Op.
