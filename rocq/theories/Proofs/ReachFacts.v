(** The interval visitor on acyclic machines. *)
From Coq Require Import List Arith NArith ZArith Bool Lia Permutation Sorted.
From Verif Require Import Base.Util Base.Semiring Base.Machine Base.PropSpec Model.Props Model.VectorFst Model.TrOps Model.Dfs Model.Visitors
  Model.IntervalSet Model.Reachable Proofs.VectorFacts Proofs.TrOpsFacts Proofs.DfsFacts Proofs.ConnectFacts Props.C34.
Import ListNotations.

Lemma covered_app l1 l2 x : covered (l1 ++ l2) x <-> covered l1 x \/ covered l2 x.
Proof.
  induction l1 as [|i l1 IH]; simpl.
  - split; auto. intros [(i & [] & _)|?]; auto.
  - rewrite !covered_cons, IH. tauto.
Qed.

(** What a normalised set is. *)
Definition normal (a : iset) (P : nat -> Prop) : Prop :=
  Forall nonempty (ivals a) /\ separated (ivals a) /\ (forall x, covered (ivals a) x <-> P x) /\
  exists n, icount a = Some n /\ counts n P.

Lemma normalize_ok a P : Forall nonempty (ivals a) -> (forall x, covered (ivals a) x <-> P x) ->
  exists b, is_normalize (S (length (ivals a))) a = Ok b /\ normal b P.
Proof.
  intros F HP. unfold is_normalize. pose proof (isort_perm ival_le (ivals a)) as Pm.
  destruct (norm_ok (S (length (ivals a))) (isort ival_le (ivals a)) 0) as (out & n & R & O1 & O2 & O3 & _ & O5).
  { rewrite (Permutation_length Pm). auto. }
  { rewrite Pm. auto. }
  { apply sort_bsorted. }
  rewrite R. cbn [rbind fst snd]. exists (IS out (Some (0 + n))). split; auto.
  split; auto. split; auto. split; cbn [ivals icount].
  - intros x. rewrite O3, (covered_perm _ _ x Pm). auto.
  - exists n. split; auto. destruct O5 as (pts & P1 & P2 & P3). exists pts. split; auto. split; auto.
    intros x. rewrite P2, (covered_perm _ _ x Pm). auto.
Qed.

Lemma normal_ext a (P Q : nat -> Prop) : (forall x, P x <-> Q x) -> normal a P -> normal a Q.
Proof.
  intros E (A & B & C & n & D & pts & F & G & H). split; auto. split; auto. split.
  - intros x. rewrite C. auto.
  - exists n. split; auto. exists pts. split; auto. split; auto. intros x. rewrite G. auto.
Qed.

Lemma normal_member a P x : normal a P -> is_member a x = true <-> P x.
Proof. intros (A & B & C & _). destruct a as [l n]. rewrite member_ok; auto. Qed.

Lemma grow_length {A} (d : A) l s : length (grow d l s) = Nat.max (length l) (S s).
Proof. unfold grow. rewrite app_length, repeat_length. lia. Qed.
Lemma grow_nth {A} (d : A) l s u : nth u (grow d l s) d = nth u l d.
Proof.
  unfold grow. destruct (Nat.lt_ge_cases u (length l)).
  - apply app_nth1; auto.
  - rewrite app_nth2, (nth_overflow l); auto. apply nth_repeat.
Qed.
Lemma nth_upd_eq {A} (l : list A) i x d : i < length l -> nth i (upd l i x) d = x.
Proof. intros H. rewrite nth_upd, Nat.eqb_refl. apply Nat.ltb_lt in H. rewrite H. auto. Qed.
Lemma nth_upd_ne {A} (l : list A) i j x d : i <> j -> nth j (upd l i x) d = nth j l d.
Proof. intros H. rewrite nth_upd. apply Nat.eqb_neq in H. rewrite H. auto. Qed.
Lemma nth_ok {A} (l : list A) i d : i < length l -> nth_error l i = Some (nth i l d).
Proof. intros. apply nth_error_nth'; auto. Qed.

Section V.
  Context {K : SR}.
  Variable f : vfst K.
  Hypothesis C : closed f.
  Hypothesis Acy : forall s, ~ on_cycle (mach f) s.
  Notation n := (num_states f).
  Notation trs := (trs_of f).
  Notation R := (reach (mach f)).
  Notation base := (base any_filter trs n).

  Definition idx (v : irv) (s : nat) : option nat := nth s (ir_s2i v) None.
  Definition set_at (v : irv) (s : nat) : iset := nth s (ir_sets v) is_new.
  Definition black (c : list color) (s : nat) : Prop := nth_error c s = Some Black.

  (** The indices of the final states reachable from one of the given states. *)
  Definition below (v : irv) (l : list (tr K)) (x : nat) : Prop :=
    exists t u, In t l /\ R (ns t) u /\ idx v u = Some x.

  Record inv (c : list color) (k : list (nat * list (tr K))) (v : irv) : Prop := {
    i_len : length (ir_sets v) = length (ir_s2i v);
    i_top : length (ir_sets v) <= length c;
    i_dom : forall s, nonwhite c s -> s < length (ir_sets v);
    i_white : forall s, nth_error c s = Some White -> idx v s = None /\ set_at v s = is_new;
    i_idx : forall s x, idx v s = Some x -> heavy f s = true /\ 1 <= x < ir_next v /\ nonwhite c s;
    i_has : forall s, nonwhite c s -> heavy f s = true -> exists x, idx v s = Some x;
    i_inj : forall s u x, idx v s = Some x -> idx v u = Some x -> s = u;
    i_onto : forall x, 1 <= x < ir_next v -> exists s, idx v s = Some x;
    i_pos : 1 <= ir_next v;
    i_bb : forall s t, black c s -> In t (trs s) -> black c (ns t);
    i_pb : forall s r pre t, In (s, r) k -> trs s = pre ++ r -> In t pre -> black c (ns t);
    i_done : forall s, black c s -> normal (set_at v s) (fun x => exists u, R s u /\ idx v u = Some x);
    i_grey : forall s r pre, In (s, r) k -> trs s = pre ++ r ->
      Forall nonempty (ivals (set_at v s)) /\
      (forall x, covered (ivals (set_at v s)) x <-> idx v s = Some x \/ below v pre x) /\
      (heavy f s = true -> exists x l, idx v s = Some x /\ ivals (set_at v s) = IV x (x + 1) :: l /\
         forall u y, idx v u = Some y -> x <= y -> R s u)
  }.

  Lemma black_reach c k v s u : inv c k v -> black c s -> R s u -> black c u.
  Proof. intros I Hb H. induction H as [|s t u Ht H IH]; auto. apply IH. apply (i_bb _ _ _ I s t); auto. Qed.

  Lemma chain_up b c k s r : base b c ((s, r) :: k) -> forall p q, In (p, q) ((s, r) :: k) -> R p s.
  Proof.
    intros B. pose proof (b_chain _ _ _ _ _ _ B) as Ch. pose proof (b_pre _ _ _ _ _ _ B) as Pre. clear B.
    revert s r Ch Pre. induction k as [|(s1, r1) k IH]; intros s r Ch Pre p q Hin.
    - destruct Hin as [E|[]]. inversion E. constructor.
    - destruct Hin as [E|Hin]; [inversion E; constructor|].
      destruct Ch as ((t & r' & -> & _ & Et) & Ch).
      assert (Ht : In t (trs s1)).
      { destruct (Pre s1 (t :: r')) as (pre & E); [right; left; auto|]. rewrite E. apply in_or_app. right. left. auto. }
      eapply reach_trans.
      + eapply (IH s1 (t :: r') Ch); eauto. intros; apply Pre; right; auto.
      + subst s. eapply reach_step; [exact Ht|constructor].
  Qed.

  Lemma idx_init v w u : idx (ir_init f v w) u =
    if (w =? u) && heavy f w then Some (ir_next v) else idx v u.
  Proof.
    unfold ir_init, idx. destruct (heavy f w); cbn [ir_s2i]; rewrite ?andb_false_r, ?andb_true_r.
    - rewrite nth_upd. rewrite grow_nth, grow_length. destruct (Nat.eqb_spec w u) as [->|]; cbn [andb]; auto.
      destruct (Nat.ltb_spec u (Nat.max (length (ir_s2i v)) (S u))); auto. lia.
    - apply grow_nth.
  Qed.
  Lemma set_init v w u : set_at (ir_init f v w) u =
    if (w =? u) && heavy f w then is_push (set_at v w) (IV (ir_next v) (ir_next v + 1)) else set_at v u.
  Proof.
    unfold ir_init, set_at. destruct (heavy f w); cbn [ir_sets]; rewrite ?andb_false_r, ?andb_true_r.
    - rewrite nth_upd, !grow_nth, grow_length. destruct (Nat.eqb_spec w u) as [->|]; cbn [andb]; auto.
      destruct (Nat.ltb_spec u (Nat.max (length (ir_sets v)) (S u))); auto. lia.
    - apply grow_nth.
  Qed.
  Lemma next_init v w : ir_next (ir_init f v w) = if heavy f w then S (ir_next v) else ir_next v.
  Proof. unfold ir_init. destruct (heavy f w); auto. Qed.
  Lemma len_init v w : length (ir_sets v) = length (ir_s2i v) ->
    length (ir_sets (ir_init f v w)) = Nat.max (length (ir_sets v)) (S w) /\
    length (ir_s2i (ir_init f v w)) = Nat.max (length (ir_sets v)) (S w).
  Proof. intros E. unfold ir_init. destruct (heavy f w); cbn; rewrite ?upd_length, !grow_length; lia. Qed.

  Lemma nonwhite_upd_inv' c s u : s < length c -> nonwhite (upd c s Grey) u -> u = s \/ nonwhite c u.
  Proof. unfold nonwhite. intros H. rewrite !nth_upd_color by auto. tauto. Qed.

  (** A state is opened. *)
  Lemma inv_new c k v w : inv c k v -> nth_error c w = Some White -> ~ In w (map fst k) ->
    (forall p q, In (p, q) k -> R p w) ->
    inv (upd c w Grey) ((w, trs w) :: k) (ir_init f v w).
  Proof.
    intros I Hw Hk Up. assert (Hl : w < length c) by (apply nth_error_Some; congruence).
    assert (BL : forall u, black (upd c w Grey) u <-> black c u).
    { intros u. unfold black. rewrite nth_upd_color by auto. split; [intros [[_ H]|[_ H]]; congruence|].
      intros H. right. split; auto. congruence. }
    assert (NW : ~ black c w) by (unfold black; congruence).
    destruct (i_white _ _ _ I w Hw) as [Iw Sw].
    assert (ID : forall s u x, black c s -> R s u -> idx (ir_init f v w) u = Some x <-> idx v u = Some x).
    { intros s u x Hb Hr. rewrite idx_init. destruct (Nat.eqb_spec w u) as [<-|]; cbn [andb]; [|tauto].
      exfalso. apply NW. eapply black_reach; eauto. }
    assert (BE : forall pre x, (forall t, In t pre -> black c (ns t)) -> below (ir_init f v w) pre x <-> below v pre x).
    { intros pre x Hp. split; intros (t & u & A1 & A2 & A3); exists t, u; (split; [|split]); auto; apply (ID (ns t) u x); auto. }
    constructor.
    - destruct (len_init v w (i_len _ _ _ I)). congruence.
    - destruct (len_init v w (i_len _ _ _ I)) as [-> _]. rewrite upd_length. pose proof (i_top _ _ _ I). lia.
    - intros s Hs. destruct (len_init v w (i_len _ _ _ I)) as [-> _]. apply nonwhite_upd_inv' in Hs as [->|Hs]; auto; [lia|].
      pose proof (i_dom _ _ _ I s Hs). lia.
    - intros s Hs. apply nth_upd_color in Hs; auto. destruct Hs as [[_ E]|[Ne Hs]]; [discriminate|].
      rewrite idx_init, set_init. apply Nat.eqb_neq in Ne. rewrite Nat.eqb_sym, Ne. cbn [andb]. apply (i_white _ _ _ I); auto.
    - intros s x. rewrite idx_init, next_init. destruct (Nat.eqb_spec w s) as [<-|Ne]; cbn [andb].
      + destruct (heavy f w) eqn:Hf; [|congruence]. intros E. inversion E; subst. pose proof (i_pos _ _ _ I). split; auto. split; [lia|].
        left. apply nth_upd_color; auto.
      + intros E. destruct (i_idx _ _ _ I _ _ E) as (A1 & A2 & A3). split; auto. split; [destruct (heavy f w); lia|].
        apply nonwhite_upd; auto. congruence.
    - intros s Hs Hf. rewrite idx_init. destruct (Nat.eqb_spec w s) as [<-|Ne]; cbn [andb]; [rewrite Hf; eauto|].
      apply nonwhite_upd_inv' in Hs as [->|Hs]; auto; [congruence|]. apply (i_has _ _ _ I); auto.
    - intros s u x. rewrite !idx_init. destruct (Nat.eqb_spec w s) as [<-|Ne], (Nat.eqb_spec w u) as [<-|Ne']; cbn [andb]; auto.
      + destruct (heavy f w); [|congruence]. intros E1 E2. inversion E1; subst. apply (i_idx _ _ _ I) in E2. lia.
      + destruct (heavy f w); [|congruence]. intros E1 E2. inversion E2; subst. apply (i_idx _ _ _ I) in E1. lia.
      + apply (i_inj _ _ _ I).
    - intros x. rewrite next_init. intros Hx.
      destruct (Nat.eq_dec x (ir_next v)) as [->|Nx].
      + exists w. rewrite idx_init, Nat.eqb_refl. destruct (heavy f w); [auto|lia].
      + destruct (i_onto _ _ _ I x) as (s & E); [destruct (heavy f w); lia|]. exists s. rewrite idx_init.
        destruct (Nat.eqb_spec w s) as [<-|]; cbn [andb]; auto. congruence.
    - rewrite next_init. pose proof (i_pos _ _ _ I). destruct (heavy f w); lia.
    - intros s t. rewrite !BL. apply (i_bb _ _ _ I).
    - intros s r pre t [E|Hin] Et Ht; apply BL.
      + inversion E; subst. rewrite <- (app_nil_l (trs s)) in Et at 1. apply app_inv_tail in Et. subst. destruct Ht.
      + eapply (i_pb _ _ _ I); eauto.
    - intros s Hs. apply BL in Hs. rewrite set_init.
      assert (Ne : (w =? s) = false) by (apply Nat.eqb_neq; intros ->; auto). rewrite Ne. cbn [andb].
      eapply normal_ext; [|apply (i_done _ _ _ I s Hs)]. intros x. split; intros (u & A1 & A2); exists u; split; auto; apply (ID s u x); auto.
    - intros s r pre Hin Et. destruct Hin as [E|Hin].
      + inversion E; subst. rewrite <- (app_nil_l (trs s)) in Et at 1. apply app_inv_tail in Et. subst pre. clear E.
        rewrite set_init, idx_init, Nat.eqb_refl, Sw, Iw. cbn [andb].
        assert (NB : forall y, ~ below (ir_init f v s) [] y) by (intros y (t & u & [] & _)).
        destruct (heavy f s) eqn:Hf.
        * cbn. split; [repeat constructor; unfold nonempty; cbn; lia|]. split.
          { intros x. rewrite covered_cons. cbn [ibegin iend]. split.
            - intros [Hx|(i & [] & _)]. left. f_equal. lia.
            - intros [E|H]; [inversion E; left; lia|destruct (NB x H)]. }
          intros _. exists (ir_next v), []. split; auto. split; auto. intros u y. rewrite idx_init, Hf, andb_true_r.
          destruct (Nat.eqb_spec s u) as [<-|]; [intros; constructor|]. intros E Hle. apply (i_idx _ _ _ I) in E. lia.
        * cbn. split; [constructor|]. split; [|discriminate]. intros x. split; [intros (i & [] & _)|].
          intros [E|H]; [discriminate|destruct (NB x H)].
      + assert (Ne : w <> s). { intros ->. apply Hk. apply in_map_iff. exists (s, r). auto. }
        rewrite set_init, idx_init. apply Nat.eqb_neq in Ne. rewrite Ne. cbn [andb].
        destruct (i_grey _ _ _ I s r pre Hin Et) as (A1 & A2 & A3). split; auto. split.
        * intros x. rewrite A2, BE; [tauto|]. intros t Ht. eapply (i_pb _ _ _ I); eauto.
        * intros Hf. destruct (A3 Hf) as (x & l & B1 & B2 & B3). exists x, l. split; auto. split; auto.
          intros u y. rewrite idx_init. destruct (Nat.eqb_spec w u) as [<-|]; cbn [andb]; [|apply B3].
          intros _ _. eapply Up; eauto.
  Qed.

  Lemma union_ok sets i j : i <> j -> i < length sets -> j < length sets ->
    ir_union sets i j = Ok (upd sets i (is_union (nth i sets is_new) (nth j sets is_new))).
  Proof.
    intros Ne Hi Hj. unfold ir_union. apply Nat.eqb_neq in Ne. rewrite Ne.
    rewrite (nth_ok sets i is_new Hi), (nth_ok sets j is_new Hj). auto.
  Qed.

  Definition put (v : irv) (s : nat) (a : iset) : irv := IR (upd (ir_sets v) s a) (ir_s2i v) (ir_next v).
  Lemma put_set v s a u : s < length (ir_sets v) -> set_at (put v s a) u = if s =? u then a else set_at v u.
  Proof.
    intros H. unfold set_at, put. cbn. destruct (Nat.eqb_spec s u) as [<-|]; [apply nth_upd_eq|apply nth_upd_ne]; auto.
  Qed.

  (** A transition of the top state to a finished state is passed. *)
  Lemma inv_pass c s t r k v : inv c ((s, t :: r) :: k) v -> ~ In s (map fst k) -> (exists pre, trs s = pre ++ t :: r) ->
    nth_error c s = Some Grey -> black c (ns t) ->
    inv c ((s, r) :: k) (put v s (is_union (set_at v s) (set_at v (ns t)))).
  Proof.
    intros I Nk (pre0 & Epre) Hg Hb.
    assert (Hs : s < length (ir_sets v)) by (apply (i_dom _ _ _ I); left; auto).
    set (v' := put _ _ _).
    assert (SE : forall u, s <> u -> set_at v' u = set_at v u).
    { intros u H. unfold v'. rewrite put_set by auto. apply Nat.eqb_neq in H. rewrite H. auto. }
    assert (SS : set_at v' s = is_union (set_at v s) (set_at v (ns t))) by (unfold v'; rewrite put_set, Nat.eqb_refl by auto; auto).
    assert (PR : forall pre, trs s = pre ++ r -> pre = pre0 ++ [t]).
    { intros pre E. rewrite Epre in E. change (t :: r) with ([t] ++ r) in E. rewrite app_assoc in E. apply app_inv_tail in E. auto. }
    constructor; try (apply I).
    - cbn. rewrite upd_length. apply I.
    - cbn. rewrite upd_length. apply I.
    - intros u Hu. cbn. rewrite upd_length. apply (i_dom _ _ _ I); auto.
    - intros u Hu. destruct (Nat.eq_dec s u) as [<-|Ne]; [congruence|]. rewrite SE by auto. apply (i_white _ _ _ I u Hu).
    - intros u q pre t' [E|Hin] Et Ht.
      + inversion E; subst u q. rewrite (PR _ Et) in Ht. apply in_app_or in Ht as [Ht|[<-|[]]]; auto.
        eapply (i_pb _ _ _ I s (t :: r)); eauto. left; auto.
      + eapply (i_pb _ _ _ I u q); eauto. right; auto.
    - intros u Hu. destruct (Nat.eq_dec s u) as [<-|Ne]; [unfold black in Hu; congruence|]. rewrite SE by auto. apply (i_done _ _ _ I u Hu).
    - intros u q pre [E|Hin] Et.
      + inversion E; subst u q. pose proof (PR _ Et) as ->. rewrite SS. cbn [is_union ivals].
        destruct (i_grey _ _ _ I s (t :: r) pre0) as (A1 & A2 & A3); [left; auto|auto|].
        destruct (i_done _ _ _ I _ Hb) as (B1 & B2 & B3 & _).
        split; [apply Forall_app; auto|]. split.
        * intros x. rewrite covered_app, A2, B3. change (idx v' s) with (idx v s). split.
          -- intros [[H|(t' & u & X1 & X2 & X3)]|(u & X1 & X2)]; auto.
             ++ right. exists t', u. split; [apply in_or_app; auto|]. auto.
             ++ right. exists t, u. split; [apply in_or_app; right; left; auto|]. auto.
          -- intros [H|(t' & u & X1 & X2 & X3)]; auto. apply in_app_or in X1 as [X1|[<-|[]]].
             ++ left. right. exists t', u. auto.
             ++ right. exists u. auto.
        * intros Hf. destruct (A3 Hf) as (x & l & D1 & D2 & D3). exists x, (l ++ ivals (set_at v (ns t))).
          split; auto. split; [rewrite D2; auto|]. exact D3.
      + assert (Ne : s <> u). { intros ->. apply Nk. apply in_map_iff. exists (u, q). auto. }
        rewrite SE by auto. apply (i_grey _ _ _ I u q pre); auto. right; auto.
  Qed.

  (** The top state is closed. *)
  Lemma inv_close c s k v : inv c ((s, []) :: k) v -> ~ In s (map fst k) -> nth_error c s = Some Grey ->
    exists a b, (if heavy f s then
                 match ivals (set_at v s) with
                 | [] => Panic
                 | i :: l => Ok (IS (IV (ibegin i) (ir_next v) :: l) (icount (set_at v s)))
                 end
               else Ok (set_at v s)) = Ok a /\ is_normalize (S (length (ivals a))) a = Ok b /\
      inv (upd c s Black) k (put v s b).
  Proof.
    intros I Nk Hg.
    assert (Hl : s < length c) by (apply nth_error_Some; congruence).
    assert (Hs : s < length (ir_sets v)) by (apply (i_dom _ _ _ I); left; auto).
    destruct (i_grey _ _ _ I s [] (trs s)) as (A1 & A2 & A3); [left; auto|rewrite app_nil_r; auto|].
    set (P := fun x => exists u, R s u /\ idx v u = Some x).
    assert (AP : forall x, idx v s = Some x \/ below v (trs s) x <-> P x).
    { intros x. split.
      - intros [H|(t & u & X1 & X2 & X3)]; [exists s; split; auto; constructor|]. exists u. split; auto. eapply reach_step; eauto.
      - intros (u & H & E). inversion H as [|? t ? Ht Hr]; subst; auto. right. exists t, u. auto. }
    assert (GA : exists a, (if heavy f s then
                 match ivals (set_at v s) with
                 | [] => Panic
                 | i :: l => Ok (IS (IV (ibegin i) (ir_next v) :: l) (icount (set_at v s)))
                 end
               else Ok (set_at v s)) = Ok a /\ Forall nonempty (ivals a) /\ forall x, covered (ivals a) x <-> P x).
    { destruct (heavy f s) eqn:Hf.
      - destruct (A3 eq_refl) as (x & l & D1 & D2 & D3). rewrite D2. cbn [ibegin]. eexists. split; [reflexivity|]. cbn [ivals].
        pose proof (i_idx _ _ _ I _ _ D1) as (_ & Hx & _). rewrite D2 in A1, A2. inversion A1; subst. split.
        + constructor; auto. unfold nonempty. cbn. lia.
        + intros y. rewrite covered_cons. cbn [ibegin iend]. rewrite <- AP, <- A2, covered_cons. cbn [ibegin iend]. split; [|intros [Hy|Hy]; auto; left; lia].
          intros [Hy|Hy]; auto. apply (covered_cons (IV x (x + 1)) l y). apply A2, AP. destruct (i_onto _ _ _ I y) as (u & Eu); [lia|].
          exists u. split; auto. eapply D3; eauto. lia.
      - exists (set_at v s). split; auto. split; auto. intros x. rewrite A2. apply AP. }
    destruct GA as (a & Ea & Fa & Pa). destruct (normalize_ok a P Fa Pa) as (b & Eb & Nb).
    exists a, b. split; auto. split; auto.
    assert (BL : forall u, black (upd c s Black) u <-> u = s \/ black c u).
    { intros u. unfold black. rewrite nth_upd_color by auto. split; [tauto|]. intros [->|H]; auto.
      destruct (Nat.eq_dec u s); auto. }
    assert (NWE : forall u, nonwhite (upd c s Black) u <-> nonwhite c u).
    { intros u. unfold nonwhite. rewrite !nth_upd_color by auto. split.
      - intros [[[_ E]|[_ H]]|[[-> _]|[_ H]]]; auto. discriminate.
      - intros [H|H]; destruct (Nat.eq_dec u s) as [->|]; auto. }
    constructor; try (apply I).
    - cbn. rewrite upd_length. apply I.
    - cbn. rewrite !upd_length. apply I.
    - intros u Hu. cbn. rewrite upd_length. apply (i_dom _ _ _ I). apply NWE; auto.
    - intros u Hu. apply nth_upd_color in Hu; auto. destruct Hu as [[_ E]|[Ne Hu]]; [discriminate|].
      rewrite put_set by auto. destruct (Nat.eqb_spec s u); [congruence|]. apply (i_white _ _ _ I u Hu).
    - intros u x E. apply (i_idx _ _ _ I) in E as (X1 & X2 & X3). split; auto. split; auto. apply NWE; auto.
    - intros u Hu. apply (i_has _ _ _ I). apply NWE; auto.
    - intros u t Hu Ht. apply BL. right. apply BL in Hu as [->|Hu].
      + eapply (i_pb _ _ _ I s [] (trs s)); eauto; [left; auto|rewrite app_nil_r; auto].
      + eapply (i_bb _ _ _ I); eauto.
    - intros u q pre t Hin Et Ht. apply BL. right. eapply (i_pb _ _ _ I u q); eauto. right; auto.
    - intros u Hu. rewrite put_set by auto. destruct (Nat.eqb_spec s u) as [<-|Ne]; auto.
      apply BL in Hu as [->|Hu]; [congruence|]. apply (i_done _ _ _ I u Hu).
    - intros u q pre Hin Et. assert (Ne : s <> u). { intros ->. apply Nk. apply in_map_iff. exists (u, q). auto. }
      rewrite put_set by auto. apply Nat.eqb_neq in Ne. rewrite Ne. apply (i_grey _ _ _ I u q pre); auto. right; auto.
  Qed.

  Lemma ir_finish_ok c s k v p : inv c ((s, []) :: k) v -> ~ In s (map fst k) -> nth_error c s = Some Grey ->
    exists b, inv (upd c s Black) k (put v s b) /\
      ir_finish f v s p = match p with
                          | None => Ok (put v s b)
                          | Some q => sets <-- ir_union (ir_sets (put v s b)) q s ;; Ok (IR sets (ir_s2i v) (ir_next v))
                          end.
  Proof.
    intros I Nk Hg. destruct (inv_close c s k v I Nk Hg) as (a & b & Ea & Eb & I').
    exists b. split; auto. unfold ir_finish.
    assert (Hs : s < length (ir_sets v)) by (apply (i_dom _ _ _ I); left; auto).
    rewrite (nth_ok _ _ is_new Hs). fold (set_at v s). rewrite Ea. cbn [rbind]. rewrite Eb. cbn [rbind]. destruct p; auto.
  Qed.

  (** What the visit leaves. *)
  Lemma ir_visit_ok s0 : vstart f = Some s0 ->
    exists c v, dfs_visit (ir_fns f) any_filter trs n (vstart f) false ir_new = Ok v /\ length c = n /\
      (forall s, s < n -> black c s) /\ inv c [] v.
  Proof.
    intros Es. destruct C as [C1 C2].
    set (J := fun (_ : nat) (b : bool) (c : list color) (k : list (nat * list (tr K))) (v : irv) => b = true /\ inv c k v).
    assert (TOP : forall b c s r k, base b c ((s, r) :: k) -> nth_error c s = Some Grey /\ ~ In s (map fst k)).
    { intros b c s r k B. split; [apply (b_grey _ _ _ _ _ _ B); left; auto|].
      pose proof (b_nodup _ _ _ _ _ _ B) as ND. inversion ND; auto. }
    rewrite Es. edestruct (dfs_visit_ind (K := K) (ir_fns f) any_filter trs n (fun s t _ => C1 s t) J s0 ir_new (C2 _ Es))
      with (access_only := false) as (root & b & c & v & E & B & [-> HI] & _ & _ & Hall).
    - eexists. eexists. split; [reflexivity|]. split; auto. apply inv_new; auto.
      + assert (W : forall s x, nth_error (repeat White n) s = Some x -> x = White).
        { intros s x H. apply nth_error_In in H. apply repeat_spec in H. auto. }
        constructor; unfold idx, set_at; cbn; auto.
        * lia.
        * intros s [H|H]; apply W in H; discriminate.
        * intros s _. destruct s; auto.
        * intros s x. destruct s; discriminate.
        * intros s [H|H]; apply W in H; discriminate.
        * intros s u x. destruct s; discriminate.
        * intros; lia.
        * intros s t H. apply W in H. discriminate.
        * intros s r pre t [].
        * intros s H. apply W in H. discriminate.
        * intros s r pre [].
      + apply nth_error_repeat. apply (C2 _ Es).
      + intros p q [].
    - intros r r' c v B Hw _ _ [_ HI]. eexists. eexists. split; [reflexivity|]. split; auto. apply inv_new; auto. intros p q [].
    - intros root b c s r v B Hr [-> HI]. destruct Hr as [Hr| ->]; [discriminate|]. destruct (TOP _ _ _ _ _ B) as [T1 T2].
      destruct (ir_finish_ok c s [] v None HI T2 T1) as (b & I' & E). exists (put v s b). split; [exact E|]. split; auto.
    - intros root b c s r p t rp k v B Hr _ Et [-> HI]. destruct Hr as [Hr| ->]; [discriminate|]. destruct (TOP _ _ _ _ _ B) as [T1 T2].
      destruct (ir_finish_ok c s ((p, t :: rp) :: k) v (Some p) HI T2 T1) as (b & I' & E).
      assert (Ne : p <> s) by (intros ->; apply T2; left; auto).
      assert (Hl : s < length c) by (apply nth_error_Some; congruence).
      assert (Gp : nth_error c p = Some Grey) by (apply (b_grey _ _ _ _ _ _ B); right; left; auto).
      assert (Gp' : nth_error (upd c s Black) p = Some Grey) by (apply nth_upd_color; auto).
      pose proof (b_nodup _ _ _ _ _ _ B) as ND. cbn in ND. inversion ND as [|? ? _ ND2]; subst. inversion ND2 as [|? ? N3 _]; subst.
      cbn [v_finish ir_fns option_map fst]. rewrite E, union_ok; auto.
      + cbn [rbind]. eexists. split; [reflexivity|]. split; auto.
        apply (inv_pass _ _ t rp k (put v (ns t) b)) in I'; auto.
        * apply (b_pre _ _ _ _ _ _ B). right. left. auto.
        * unfold black. apply nth_upd_color; auto.
      + apply (i_dom _ _ _ I'). left. auto.
      + apply (i_dom _ _ _ I'). right. apply nth_upd_color; auto.
    - intros root c s t r k v B Hk. discriminate.
    - intros root c s t r k v B Hk Hw [_ HI]. eexists. eexists. eexists. split; [reflexivity|]. split; [reflexivity|]. split; auto.
      apply inv_new; auto.
      + intros H. apply (b_grey _ _ _ _ _ _ B) in H. congruence.
      + intros p q Hin. eapply reach_trans; [eapply chain_up; eauto|]. eapply reach_step; [|constructor].
        destruct (b_pre _ _ _ _ _ _ B s (t :: r)) as (pre & E); [left; auto|]. cbn. rewrite E. apply in_or_app. right. left. auto.
    - intros root c s t r k v B Hk Hw [_ HI]. exfalso. apply (b_grey _ _ _ _ _ _ B) in Hw. apply in_map_iff in Hw as ((p, q) & Ep & Hin).
      cbn in Ep. subst p. apply (Acy s). exists t. split.
      + destruct (b_pre _ _ _ _ _ _ B s (t :: r)) as (pre & E); [left; auto|]. cbn. rewrite E. apply in_or_app. right. left. auto.
      + eapply chain_up; eauto.
    - intros root c s t r k v B Hk Hw [_ HI]. destruct (TOP _ _ _ _ _ B) as [T1 T2].
      assert (Ne : s <> ns t) by congruence. cbn [v_fwd ir_fns]. rewrite union_ok; auto.
      + cbn [rbind]. eexists. eexists. split; [reflexivity|]. split; auto. apply (inv_pass c s t r k v); auto.
        apply (b_pre _ _ _ _ _ _ B). left. auto.
      + apply (i_dom _ _ _ HI). left. auto.
      + apply (i_dom _ _ _ HI). right. auto.
    - exists c, v. split; [rewrite E; auto|]. split; [apply (b_len _ _ _ _ _ _ B)|]. split; [exact (Hall eq_refl eq_refl)|auto].
  Qed.
End V.
