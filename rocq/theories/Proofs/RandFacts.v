(** The tree that random generation expands: every state of the expansion is a prefix of drawn
    paths, its transitions are the choices made there. *)
From Coq Require Import List Arith NArith Lia Bool.
From Verif Require Import Base.Util Base.Semiring Base.Machine Model.Props Model.VectorFst Model.Lazy Model.Dfs Model.RandGen
  Proofs.VectorFacts Proofs.TrOpsFacts Proofs.OpFacts Proofs.RationalFacts Proofs.LazyFacts.
Import ListNotations.

(** ** The sample map *)
Fixpoint asc (lo : nat) (m : list (nat * nat)) : Prop :=
  match m with [] => True | (p, c) :: m' => lo <= p /\ 0 < c /\ asc (S p) m' end.
Definition total (m : list (nat * nat)) : nat := list_sum (map snd m).
Definition below (n : nat) (m : list (nat * nat)) : Prop := Forall (fun pc => fst pc < n) m.

Lemma asc_weaken m lo lo' : asc lo m -> lo' <= lo -> asc lo' m.
Proof. destruct m as [|[p c] m]; simpl; auto. intros (A & B & C) H. split; auto. lia. Qed.
Lemma bt_incr_asc pos m : forall lo, asc lo m -> lo <= pos -> asc lo (bt_incr pos m).
Proof.
  induction m as [|[p c] m IH]; intros lo H Hp; simpl.
  - lia.
  - destruct H as (A & B & C). destruct (Nat.ltb_spec pos p); [|destruct (Nat.eqb_spec pos p)]; simpl.
    + repeat split; auto.
    + repeat split; auto; lia.
    + split; auto. split; auto. apply IH; auto. lia.
Qed.
Lemma bt_incr_total pos m : total (bt_incr pos m) = S (total m).
Proof.
  induction m as [|[p c] m IH]; auto. simpl. unfold total in *.
  destruct (pos <? p); [|destruct (pos =? p)]; simpl in *; auto. rewrite IH. lia.
Qed.
Lemma bt_incr_below n pos m : below n m -> pos < n -> below n (bt_incr pos m).
Proof.
  intros H Hp. induction H as [|[p c] m A B IH]; simpl; [constructor; auto; constructor|].
  destruct (pos <? p); [constructor; auto; constructor; auto|]. destruct (pos =? p); constructor; auto.
Qed.
Lemma asc_split n m : forall lo, asc lo m -> below (S n) m ->
  exists m1 cf, m = m1 ++ (if cf =? 0 then [] else [(n, cf)]) /\ asc lo m1 /\ below n m1.
Proof.
  induction m as [|[p c] m IH]; intros lo H B.
  - exists [], 0. simpl. repeat split; auto. constructor.
  - destruct H as (A1 & A2 & A3). inversion B as [|x y B1 B2]. subst. cbn [fst] in B1. destruct (Nat.eq_dec p n) as [->|N].
    + exists [], c. destruct m as [|[p' c'] m].
      * split; [|split; [exact I|constructor]]. destruct (Nat.eqb_spec c 0); auto. lia.
      * destruct A3 as (A3 & _). inversion B2. subst. cbn [fst] in *. lia.
    + destruct (IH (S p) A3 B2) as (m1 & cf & E & C1 & C2). exists ((p, c) :: m1), cf. split; [cbn [app]; congruence|].
      split; [simpl; auto|]. constructor; auto. simpl. lia.
Qed.

Lemma nth_snoc {A} (l : list A) x k y : nth_error (l ++ [x]) k = Some y -> (k < length l /\ nth_error l k = Some y) \/ (k = length l /\ y = x).
Proof.
  intros H. destruct (Nat.lt_ge_cases k (length l)); [left; rewrite nth_error_app1 in H; auto|right].
  rewrite nth_error_app2 in H by auto. destruct (k - length l) eqn:E; [|destruct n; discriminate]. injection H as <-. split; auto. lia.
Qed.
Lemma asc_pos m : forall lo k pc, asc lo m -> nth_error m k = Some pc -> 0 < snd pc.
Proof.
  induction m as [|[p c] m IH]; intros lo [|k] pc H E; try discriminate; destruct H as (_ & H & H').
  - injection E as <-. auto.
  - eapply IH; eauto.
Qed.

Section R.
  Context {K : SR}.
  Implicit Types (g h : vfst K).
  Variable nlog : nat -> nat -> K.
  Variable rng : nat -> nat.
  Variable cfg : rconfig.
  Variable f : vfst K.
  Variable a : nat.
  Hypothesis C : closed f.
  Hypothesis Ha : vstart f = Some a.
  Let wd := rc_weighted cfg.
  Let mx := rc_max cfg.

  Lemma a_lt : a < num_states f. Proof. apply (proj2 C). auto. Qed.

  Definition t0 : tr K := Tr 0 0 kone 0.
  Definition att (q p : nat) : tr K := nth p (trs_of f q) t0.
  (** Weights of the choices and of stopping. *)
  Definition wk (n c : nat) : K := if wd then nlog c n else kone.
  Definition wfin (n c : nat) : K := if rc_remove cfg then nlog c n else nlog (c * rc_npath cfg) n.
  Definition alts (q : nat) : nat := length (trs_of f q) + match fin_of f q with Some _ => 1 | None => 0 end.

  Definition kids (q n T : nat) (m1 : list (nat * nat)) : list (tr K) :=
    map (fun pj => Tr (il (att q (fst (fst pj)))) (ol (att q (fst (fst pj)))) (wk n (snd (fst pj))) (snd pj))
        (combine m1 (seq T (length m1))).
  Definition krs (q len : nat) (m1 : list (nat * nat)) : list rstate :=
    map (fun pc => RS (Some (ns (att q (fst pc)))) (snd pc) (len + 1)) m1.

  Lemma acc_ok q : q < num_states f ->
    num_trs f q = Ok (length (trs_of f q)) /\ final_weight f q = Ok (fin_of f q) /\ get_trs f q = Ok (trs_of f q).
  Proof.
    intros H. unfold num_trs, final_weight, get_trs, get_state, trs_of, fin_of.
    destruct (nth_error_ex (vstates f) q H) as (x & ->). auto.
  Qed.

  Lemma draws_ok q k : q < num_states f -> 0 < alts q -> forall m i, asc 0 m -> below (alts q) m ->
    exists m', draws rng f q k (m, i) = Ok (m', i + k) /\ asc 0 m' /\ below (alts q) m' /\ total m' = total m + k.
  Proof.
    intros Hq Hn. destruct (acc_ok q Hq) as (E1 & E2 & _).
    induction k as [|k IH]; intros m i A B; cbn [draws].
    - exists m. rewrite !Nat.add_0_r. auto.
    - cbn [snd fst]. unfold select_tr. rewrite E1, E2. cbn [rbind].
      assert (E : (match fin_of f q with Some _ => length (trs_of f q) + 1 | None => length (trs_of f q) end) = alts q).
      { unfold alts. destruct (fin_of f q); lia. }
      rewrite E. destruct (Nat.eqb_spec (alts q) 0); [lia|]. cbn [rbind].
      destruct (IH (bt_incr (rng i mod alts q) m) (S i)) as (m' & D & D1 & D2 & D3).
      + apply bt_incr_asc; auto. lia.
      + apply bt_incr_below; auto. apply Nat.mod_upper_bound. lia.
      + exists m'. rewrite D. split; [f_equal; f_equal; lia|]. split; auto. split; auto. rewrite D3, bt_incr_total. lia.
  Qed.

  Lemma sample_ok q n len i : q < num_states f -> exists m1 cf j,
    sample rng f mx (RS (Some q) n len) i = Ok (m1 ++ (if cf =? 0 then [] else [(length (trs_of f q), cf)]), j) /\
    asc 0 m1 /\ below (length (trs_of f q)) m1 /\ (0 < cf -> fin_of f q <> None) /\
    (total m1 + cf = n \/ (m1 = [] /\ cf = 0 /\ (len = mx \/ (trs_of f q = [] /\ fin_of f q = None)))) /\
    (len = mx -> m1 = [] /\ cf = 0).
  Proof.
    intros Hq. unfold sample. cbn [rs_state rs_nsamples rs_length]. destruct (acc_ok q Hq) as (E1 & E2 & _). rewrite E1, E2. cbn [rbind].
    destruct (_ || _) eqn:Eb.
    - exists [], 0, i. cbn. split; auto. split; auto. split; [constructor|]. split; [lia|]. split; auto. right. split; auto. split; auto.
      apply orb_prop in Eb. destruct Eb as [Eb|Eb]; [right|left; apply Nat.eqb_eq; auto].
      apply andb_prop in Eb as [X Y]. apply Nat.eqb_eq in X. split; [destruct (trs_of f q); auto; discriminate|].
      destruct (fin_of f q); auto; discriminate.
    - apply orb_false_iff in Eb as [Eb1 Eb2]. apply Nat.eqb_neq in Eb2.
      assert (0 < alts q).
      { unfold alts. destruct (fin_of f q); [lia|]. rewrite andb_true_r in Eb1. apply Nat.eqb_neq in Eb1. lia. }
      destruct (draws_ok q n Hq H [] i) as (m & D & D1 & D2 & D3); [exact I|constructor|]. rewrite D.
      destruct (asc_split (length (trs_of f q)) m 0 D1) as (m1 & cf & -> & F1 & F2).
      { unfold alts in D2. eapply Forall_impl; [|exact D2]. intros pc X. cbn in *. destruct (fin_of f q); lia. }
      exists m1, cf, (i + n). split; auto. split; auto. split; auto. split; [|split; [|congruence]].
      + intros Hc Hf. destruct (Nat.eqb_spec cf 0); [lia|]. apply Forall_app in D2 as [_ D2]. inversion D2. subst. cbn in *.
        unfold alts in *. rewrite Hf in *. lia.
      + left. unfold total in *. rewrite map_app, list_sum_app in D3. destruct (Nat.eqb_spec cf 0); simpl in D3; lia.
  Qed.

  (** ** One state of the operation *)
  Lemma emit_kids q n len m1 : below (length (trs_of f q)) m1 -> forall out w tbl sup,
    fold_left (emit nlog cfg (trs_of f q) (RS (Some q) n len)) m1 (out, w, tbl, sup) =
    (out ++ kids q n (length tbl) m1, w, tbl ++ krs q len m1, sup).
  Proof.
    induction 1 as [|[p c] m1 A B IH]; intros out w tbl sup.
    - cbn. rewrite !app_nil_r. auto.
    - cbn [fold_left emit fst] in *. rewrite (nth_error_nth' _ t0 A). fold (att q p). cbn [rs_nsamples rs_length].
      rewrite IH. unfold kids, krs. cbn [length seq combine map fst snd]. rewrite app_length, Nat.add_1_r. cbn [length].
      rewrite <- !app_assoc. cbn [app]. unfold wk. fold wd. reflexivity.
  Qed.

  Definition stops (sup : nat) (cf : nat) : list (tr K) := repeat (Tr 0 0 kone sup) cf.

  Definition gnode := (list (nat * nat) * nat * nat)%type.
  Record node (tbl : list rstate) (sup : option nat) g (i q n len : nat) (m1 : list (nat * nat)) (cf base : nat) : Prop := {
    nd_asc : asc 0 m1;
    nd_pos : below (length (trs_of f q)) m1;
    nd_stop : 0 < cf -> fin_of f q <> None;
    nd_sum : total m1 + cf = n \/ (m1 = [] /\ cf = 0 /\ (len = mx \/ (trs_of f q = [] /\ fin_of f q = None)));
    nd_max : len = mx -> m1 = [] /\ cf = 0;
    nd_base : i < base;
    nd_kids : forall k pc, nth_error m1 k = Some pc ->
      nth_error tbl (base + k) = Some (RS (Some (ns (att q (fst pc)))) (snd pc) (S len));
    nd_trs : trs_of g i = kids q n base m1 ++ (if wd then [] else match sup with Some z => stops z cf | None => [] end);
    nd_sup : wd = false -> 0 < cf -> sup <> None;
    nd_fin : fin_of g i = if wd then (if cf =? 0 then None else Some (wfin n cf)) else None
  }.

  Record inv (nds : list gnode) (o : rop) g : Prop := {
    iv_n : num_states g = length (ro_table o);
    iv_le : length nds <= length (ro_table o);
    iv_root : nth_error (ro_table o) 0 = Some (RS (Some a) (rc_npath cfg) 0);
    iv_tab : forall j q n l, nth_error (ro_table o) j = Some (RS (Some q) n l) -> q < num_states f /\ l <= mx /\ (0 < j -> 0 < n);
    iv_none : forall j n l, nth_error (ro_table o) j = Some (RS None n l) -> ro_super o = Some j;
    iv_super : forall j, ro_super o = Some j -> nth_error (ro_table o) j = Some (RS None 0 0) /\ wd = false;
    iv_node : forall i m1 cf b q n l, nth_error nds i = Some (m1, cf, b) -> nth_error (ro_table o) i = Some (RS (Some q) n l) ->
      node (ro_table o) (ro_super o) g i q n l m1 cf b;
    iv_snode : forall i m1 cf b n l, nth_error nds i = Some (m1, cf, b) -> nth_error (ro_table o) i = Some (RS None n l) ->
      m1 = [] /\ cf = 0 /\ trs_of g i = [] /\ fin_of g i = Some kone;
    iv_rest : forall i, length nds <= i -> trs_of g i = [] /\ fin_of g i = None;
    iv_ord : forall i i' m1 cf b m1' cf' b', nth_error nds i = Some (m1, cf, b) -> nth_error nds i' = Some (m1', cf', b') ->
      i < i' -> b + length m1 <= b';
    iv_end : forall i m1 cf b, nth_error nds i = Some (m1, cf, b) -> b + length m1 <= length (ro_table o);
    iv_cov : forall j, 0 < j < length (ro_table o) -> ro_super o = Some j \/
      exists i m1 cf b, nth_error nds i = Some (m1, cf, b) /\ b <= j < b + length m1;
    iv_sreach : forall j, ro_super o = Some j -> exists i m1 cf b, nth_error nds i = Some (m1, cf, b) /\ 0 < cf;
    iv_grow : vstart g = Some 0 /\ visymt g = None /\ vosymt g = None /\ cnt g
  }.

  (** How much work a table entry may still cause. *)
  Definition phi (r : rstate) : nat := Nat.max 1 (rs_nsamples r * (mx + 1 - rs_length r)).
  Definition work (i : nat) (tbl : list rstate) : nat := list_sum (map phi (skipn i tbl)).

  (** ** Adding one state's transitions to the output *)
  Inductive fresh : nat -> list (tr K) -> nat -> Prop :=
  | fresh_nil n : fresh n [] n
  | fresh_new n t l n' : ns t = n -> fresh (S n) l n' -> fresh n (t :: l) n'
  | fresh_old n t l n' : ns t < n -> fresh n l n' -> fresh n (t :: l) n'.
  Lemma fresh_le n l n' : fresh n l n' -> n <= n'.
  Proof. induction 1; lia. Qed.
  Lemma fresh_app n l n' l' n'' : fresh n l n' -> fresh n' l' n'' -> fresh n (l ++ l') n''.
  Proof. induction 1; simpl; auto; intros; [apply fresh_new|apply fresh_old]; auto. Qed.
  Lemma fresh_kids q n m1 : forall T, fresh T (kids q n T m1) (T + length m1).
  Proof.
    induction m1 as [|[p c] m1 IH]; intros T; cbn.
    - rewrite Nat.add_0_r. constructor.
    - apply fresh_new; auto. replace (T + S (length m1)) with (S T + length m1) by lia. apply IH.
  Qed.
  Lemma fresh_stops z cf n : z < n -> fresh n (stops z cf) n.
  Proof. intros H. induction cf; simpl; [apply fresh_nil|apply fresh_old; auto]. Qed.

  Lemma add_until_ok g s : num_states g <= s + 1 ->
    num_states (add_until g s) = s + 1 /\ vstart (add_until g s) = vstart g /\ visymt (add_until g s) = visymt g /\
    vosymt (add_until g s) = vosymt g /\ (cnt g -> cnt (add_until g s)) /\
    (forall q, trs_of (add_until g s) q = trs_of g q) /\ (forall q, fin_of (add_until g s) q = fin_of g q).
  Proof.
    intros H. unfold add_until.
    assert (G : forall k h, num_states (Nat.iter k (fun g => fst (add_state g)) h) = num_states h + k /\
      vstart (Nat.iter k (fun g => fst (add_state g)) h) = vstart h /\ visymt (Nat.iter k (fun g => fst (add_state g)) h) = visymt h /\
      vosymt (Nat.iter k (fun g => fst (add_state g)) h) = vosymt h /\ (cnt h -> cnt (Nat.iter k (fun g => fst (add_state g)) h)) /\
      (forall q, trs_of (Nat.iter k (fun g => fst (add_state g)) h) q = trs_of h q) /\
      (forall q, fin_of (Nat.iter k (fun g => fst (add_state g)) h) q = fin_of h q)).
    { clear. induction k; intros h; [simpl; repeat split; auto|].
      change (Nat.iter (S k) (fun g => fst (add_state g)) h) with (fst (add_state (Nat.iter k (fun g => fst (add_state g)) h))).
      destruct (IHk h) as (A1 & A2 & A3 & A4 & A5 & A6 & A7).
      destruct (add_state_eff (Nat.iter k (fun g => fst (add_state g)) h)) as (_ & B1 & B2 & B3 & B4 & B5 & B6 & B7).
      split; [lia|]. split; [congruence|]. split; [congruence|]. split; [congruence|]. split; [auto|].
      split; intros q; rewrite ?B6, ?B7; auto. }
    destruct (G (s + 1 - num_states g) g) as (A1 & A). split; [lia|]. exact A.
  Qed.

  Lemma see_ok s l n n' : fresh n l n' -> forall queue seen g, num_states g = n -> s < n ->
    (forall x, existsb (Nat.eqb x) seen = Nat.ltb x n) ->
    exists seen' g', see2_all s l (queue, seen, g) = Ok (queue ++ seq n (n' - n), seen', g') /\ num_states g' = n' /\
      (forall x, existsb (Nat.eqb x) seen' = Nat.ltb x n') /\
      vstart g' = vstart g /\ visymt g' = visymt g /\ vosymt g' = vosymt g /\ (cnt g -> cnt g') /\
      (forall q, trs_of g' q = if q =? s then trs_of g s ++ l else trs_of g q) /\ (forall q, fin_of g' q = fin_of g q).
  Proof.
    induction 1 as [n|n t l n' Ht Hf IH|n t l n' Ht Hf IH]; intros queue seen g Hn Hs Hse.
    - exists seen, g. cbn. rewrite Nat.sub_diag. cbn. rewrite app_nil_r. repeat (split; auto).
      intros q. destruct (Nat.eqb_spec q s); subst; auto. rewrite app_nil_r; auto.
    - destruct (add_until_ok g (ns t)) as (U1 & U2 & U3 & U4 & U5 & U6 & U7); [lia|].
      destruct (add_tr_eff (add_until g (ns t)) s t) as (g1 & E & (A1 & A2 & A3 & A4 & A5) & A6 & A7); [lia|].
      cbn [see2_all see2]. rewrite Hse, E. cbn [rbind]. destruct (Nat.ltb_spec (ns t) n); [lia|]. cbn [negb].
      edestruct (IH (queue ++ [ns t]) (ns t :: seen) g1) as (seen' & g' & E' & B1 & B2 & B3 & B4 & B5 & B6 & B7 & B8); [lia|lia| |].
      { intros x. cbn [existsb]. rewrite Hse. destruct (Nat.eqb_spec x (ns t)); [subst|]; cbn [orb].
        - symmetry. apply Nat.ltb_lt. lia.
        - destruct (Nat.ltb_spec x n), (Nat.ltb_spec x (S n)); auto; lia. }
      exists seen', g'. rewrite E'. split; [|split; auto; split; auto; split; [congruence|]; split; [congruence|]; split; [congruence|]; split; [auto|split]].
      + f_equal. f_equal. f_equal. rewrite <- app_assoc. f_equal. cbn [app]. pose proof (fresh_le _ _ _ Hf).
        replace (n' - n) with (S (n' - S n)) by lia. cbn [seq]. congruence.
      + intros q. rewrite B7, !A6, !U6, Nat.eqb_refl. destruct (Nat.eqb_spec q s); auto. rewrite <- app_assoc. auto.
      + intros q. rewrite B8, A7, U7. auto.
    - assert (Eu : add_until g (ns t) = g). { unfold add_until. replace (ns t + 1 - num_states g) with 0 by lia. reflexivity. }
      destruct (add_tr_eff g s t) as (g1 & E & (A1 & A2 & A3 & A4 & A5) & A6 & A7); [lia|].
      cbn [see2_all see2]. rewrite Hse, Eu, E. cbn [rbind]. destruct (Nat.ltb_spec (ns t) n); [|lia]. cbn [negb].
      edestruct (IH queue seen g1) as (seen' & g' & E' & B1 & B2 & B3 & B4 & B5 & B6 & B7 & B8); [lia|lia|auto|].
      exists seen', g'. rewrite E'. split; auto. split; auto. split; auto. split; [congruence|]. split; [congruence|]. split; [congruence|]. split; [auto|]. split.
      + intros q. rewrite B7, !A6, Nat.eqb_refl. destruct (Nat.eqb_spec q s); auto. rewrite <- app_assoc. auto.
      + intros q. rewrite B8, A7. auto.
  Qed.

  (** ** The operation on one state *)
  (** What one call does to the table. *)
  Definition stepped (i : nat) (o : rop) (m1 : list (nat * nat)) (cf base : nat) (o' : rop) : Prop :=
    forall q n len, nth_error (ro_table o) i = Some (RS (Some q) n len) ->
      sample rng f mx (RS (Some q) n len) (ro_rng o) = Ok (m1 ++ (if cf =? 0 then [] else [(length (trs_of f q), cf)]), ro_rng o') /\
      below (length (trs_of f q)) m1 /\ base = length (ro_table o) /\ exists ext, ro_table o' = ro_table o ++ krs q len m1 ++ ext /\ (cf = 0 -> ext = []).

  Lemma both_ok nds o g (I : inv nds o g) : length nds < length (ro_table o) ->
    exists l w o' m1 cf base, compute_both (randgen_op nlog rng cfg f) (length nds) o = Ok ((l, w), o') /\
      fresh (length (ro_table o)) l (length (ro_table o')) /\
      (forall g', num_states g' = length (ro_table o') ->
         (forall q, trs_of g' q = if q =? length nds then l else trs_of g q) ->
         (forall q, fin_of g' q = if q =? length nds then w else fin_of g q) ->
         vstart g' = vstart g -> visymt g' = visymt g -> vosymt g' = vosymt g -> cnt g' ->
         inv (nds ++ [(m1, cf, base)]) o' g') /\
      stepped (length nds) o m1 cf base o' /\
      work (S (length nds)) (ro_table o') + 1 <= work (length nds) (ro_table o).
  Proof.
    intros Hlt. remember (length nds) as i eqn:Ei. destruct (nth_error_ex (ro_table o) i Hlt) as ([st n len] & Et).
    assert (Wk : work i (ro_table o) = phi (RS st n len) + work (S i) (ro_table o)).
    { unfold work. clear - Et. revert i Et. induction (ro_table o) as [|r l IH]; intros i Et; [destruct i; discriminate|].
      destruct i; [injection Et as ->; reflexivity|]. cbn [skipn]. rewrite (IH i Et). reflexivity. }
    destruct st as [q|].
    - destruct (iv_tab _ _ _ I i q n len Et) as (Hq & Hl & Hn0).
      assert (Hns : match ro_super o with Some z => i =? z | None => false end = false).
      { destruct (ro_super o) as [z|] eqn:Es; auto. apply Nat.eqb_neq. intros ->. destruct (iv_super _ _ _ I z Es). congruence. }
      destruct (sample_ok q n len (ro_rng o) Hq) as (m1 & cf & j & Es & S1 & S2 & S3 & S4 & S5).
      set (T := length (ro_table o)) in *.
      set (sup' := if wd then ro_super o else if cf =? 0 then ro_super o else match ro_super o with Some z => Some z | None => Some (T + length m1) end).
      set (ext := if wd then [] else if cf =? 0 then [] else match ro_super o with Some z => [] | None => [RS None 0 0] end).
      set (tbl' := ro_table o ++ krs q len m1 ++ ext).
      set (l := kids q n T m1 ++ (if wd then [] else match sup' with Some z => stops z cf | None => [] end)).
      set (w := if wd then (if cf =? 0 then None else Some (wfin n cf)) else None).
      exists l, w, (RO tbl' sup' j), m1, cf, T.
      assert (Lk : length (krs q len m1) = length m1) by (apply map_length).
      assert (E : compute_both (randgen_op nlog rng cfg f) i o = Ok ((l, w), RO tbl' sup' j)).
      { cbn [randgen_op compute_both]. rewrite Hns, Et. fold mx. rewrite Es. cbn [rbind rs_state fst snd].
        destruct (acc_ok q Hq) as (_ & _ & ->). cbn [rbind]. rewrite fold_left_app, emit_kids by auto. cbn [app].
        unfold l, w, sup', tbl', ext. destruct (Nat.eqb_spec cf 0) as [->|Hc].
        - cbn [fold_left]. unfold stops. cbn [repeat]. destruct wd; [|destruct (ro_super o)]; rewrite !app_nil_r; reflexivity.
        - cbn [fold_left emit]. rewrite (proj2 (nth_error_None (trs_of f q) (length (trs_of f q)))) by lia.
          fold wd. destruct wd eqn:Ew; [rewrite !app_nil_r; reflexivity|].
          destruct (ro_super o) as [z|]; [rewrite !app_nil_r; reflexivity|].
          rewrite app_length, Lk. fold T. rewrite <- app_assoc. reflexivity. }
      assert (Lt' : length tbl' = T + length m1 + length ext) by (unfold tbl'; rewrite !app_length, Lk; fold T; lia).
      assert (Old : forall k r, nth_error (ro_table o) k = Some r -> nth_error tbl' k = Some r).
      { intros k r Hk. unfold tbl'. rewrite nth_error_app1; auto. apply nth_error_lt in Hk. auto. }
      assert (Kid : forall k pc, nth_error m1 k = Some pc -> nth_error tbl' (T + k) = Some (RS (Some (ns (att q (fst pc)))) (snd pc) (S len))).
      { intros k pc Hk. unfold tbl'. rewrite nth_error_app2 by (fold T; lia). fold T. replace (T + k - T) with k by lia.
        rewrite nth_error_app1 by (rewrite Lk; apply nth_error_lt in Hk; auto). unfold krs. rewrite (map_nth_error _ k m1 Hk), Nat.add_1_r. reflexivity. }
      assert (Cases : forall k r, nth_error tbl' k = Some r -> nth_error (ro_table o) k = Some r \/
                (exists p pc, nth_error m1 p = Some pc /\ k = T + p /\ r = RS (Some (ns (att q (fst pc)))) (snd pc) (S len)) \/
                (k = T + length m1 /\ r = RS None 0 0 /\ ro_super o = None /\ sup' = Some k /\ wd = false /\ 0 < cf)).
      { intros k r Hk. destruct (Nat.lt_ge_cases k T) as [H|H]; [left; unfold tbl' in Hk; rewrite nth_error_app1 in Hk; auto|]. right.
        destruct (Nat.lt_ge_cases (k - T) (length m1)) as [H'|H'].
        - left. destruct (nth_error_ex m1 (k - T) H') as (pc & Hp). exists (k - T), pc. split; auto. split; [lia|].
          specialize (Kid _ _ Hp). replace (T + (k - T)) with k in Kid by lia. congruence.
        - right. assert (k < length tbl') by (eapply nth_error_lt; eauto).
          unfold tbl' in Hk. rewrite nth_error_app2 in Hk by (fold T; lia). rewrite nth_error_app2 in Hk by (fold T; lia). rewrite Lk in Hk. fold T in Hk.
          assert (k = T + length m1).
          { rewrite Lt' in H0. unfold ext in H0. destruct wd; [cbn in H0; lia|]. destruct (cf =? 0); [cbn in H0; lia|]. destruct (ro_super o); cbn in H0; lia. }
          subst k. replace (T + length m1 - T - length m1) with 0 in Hk by lia. unfold ext, sup' in *.
          destruct wd; [discriminate|]. destruct (Nat.eqb_spec cf 0); [discriminate|]. destruct (ro_super o); [discriminate|]. cbn in Hk.
          injection Hk as <-. repeat split; auto. lia. }
      assert (Sup : forall z, ro_super o = Some z -> sup' = Some z).
      { intros z Hz. unfold sup'. rewrite Hz. destruct wd; auto. destruct (cf =? 0); auto. }
      assert (Supc : wd = false -> 0 < cf -> sup' <> None).
      { intros Hw Hc. unfold sup'. rewrite Hw. destruct (Nat.eqb_spec cf 0); [lia|]. destruct (ro_super o); discriminate. }
      assert (Supi : forall z, sup' = Some z -> ro_super o = Some z \/ (ro_super o = None /\ z = T + length m1 /\ wd = false /\ 0 < cf /\ nth_error tbl' z = Some (RS None 0 0))).
      { intros z Hz. unfold sup' in Hz. destruct wd eqn:Ew; auto. destruct (Nat.eqb_spec cf 0) as [Ec|Ec]; auto. destruct (ro_super o) eqn:Eo; auto.
        injection Hz as <-. right. split; auto. split; auto. split; auto. split; [lia|].
        unfold tbl', ext. try rewrite Ew. destruct (Nat.eqb_spec cf 0); [lia|]. rewrite nth_error_app2 by (fold T; lia).
        rewrite nth_error_app2 by (rewrite Lk; fold T; lia). rewrite Lk. fold T. replace (T + length m1 - T - length m1) with 0 by lia. reflexivity. }
      assert (Szlt : forall z, ro_super o = Some z -> z < T).
      { intros z Hz. destruct (iv_super _ _ _ I z Hz) as [Hz' _]. apply nth_error_lt in Hz'. auto. }
      split; [exact E|]. split; [|split; [|split]].
      + cbn [ro_table]. unfold l. fold T. eapply fresh_app; [apply fresh_kids|].
        rewrite Lt'. unfold ext, sup'. destruct wd; [cbn; rewrite Nat.add_0_r; constructor|].
        destruct (Nat.eqb_spec cf 0) as [->|Hc]; [cbn; rewrite Nat.add_0_r; destruct (ro_super o); constructor|].
        destruct (ro_super o) as [z|] eqn:Eo.
        * cbn. rewrite Nat.add_0_r. apply fresh_stops. specialize (Szlt z eq_refl). lia.
        * cbn [length]. destruct cf; [lia|]. cbn [stops repeat]. apply fresh_new; auto. rewrite Nat.add_1_r. apply (fresh_stops _ cf). lia.
      + intros g' N1 Tr1 Fi1 V1 V2 V3 V4. constructor; cbn [ro_table ro_super].
        * exact N1.
        * rewrite app_length. cbn [length]. rewrite Lt'. lia.
        * apply Old, (iv_root _ _ _ I).
        * intros k q' n' l' Hk. destruct (Cases k _ Hk) as [H|[(p & pc & Hp & -> & [= -> -> ->])|(_ & [=] & _)]].
          -- apply (iv_tab _ _ _ I k); auto.
          -- split; [|split].
             ++ apply (proj1 C q). unfold att. apply nth_In. apply nth_error_In in Hp. unfold below in S2. rewrite Forall_forall in S2. apply S2; auto.
             ++ destruct (Nat.eq_dec len mx) as [e|]; [|lia]. destruct (S5 e) as [-> _]. destruct p; discriminate.
             ++ intros _. eapply asc_pos; eauto.
        * intros k n' l' Hk. destruct (Cases k _ Hk) as [H|[(p & pc & Hp & -> & [=])|(-> & _ & _ & H & _)]]; auto.
          apply Sup. eapply iv_none; eauto.
        * intros z Hz. destruct (Supi z Hz) as [H|(H & -> & Hw & Hc & H')]; auto. destruct (iv_super _ _ _ I z H). split; auto.
        * intros k m1' cf' b' q' n' l' Hk Ht'. destruct (nth_snoc _ _ _ _ Hk) as [[Hki Hk1]|[Hki Hk1]]; clear Hk; rename Hk1 into Hk; rewrite <- Ei in Hki; [|subst k].
          -- assert (Htk : nth_error (ro_table o) k = Some (RS (Some q') n' l')).
             { destruct (nth_error_ex (ro_table o) k) as (r & Hr); [lia|]. rewrite (Old _ _ Hr) in Ht'. congruence. }
             destruct (iv_node _ _ _ I k _ _ _ _ _ _ Hk Htk). constructor; auto.
             ++ rewrite Tr1. destruct (Nat.eqb_spec k i); [lia|]. rewrite nd_trs0. f_equal. destruct wd eqn:Ew; auto.
                destruct (ro_super o) as [z|] eqn:Eo; [rewrite (Sup z); auto|].
                assert (cf' = 0) as -> by (destruct cf'; auto; exfalso; apply nd_sup0; auto; lia). destruct sup'; auto.
             ++ intros Hw Hc. specialize (nd_sup0 Hw Hc). destruct (ro_super o) as [z|]; [rewrite (Sup z); congruence|congruence].
             ++ rewrite Fi1. destruct (Nat.eqb_spec k i); [lia|]. auto.
          -- injection Hk as -> -> ->.  rewrite (Old _ _ Et) in Ht'. injection Ht' as <- <- <-. constructor; auto.
             ++ rewrite Tr1, Nat.eqb_refl. reflexivity.
             ++ rewrite Fi1, Nat.eqb_refl. reflexivity.
        * intros k m1' cf' b' n' l' Hk Ht'. destruct (nth_snoc _ _ _ _ Hk) as [[Hki Hk1]|[Hki Hk1]]; clear Hk; rename Hk1 into Hk; rewrite <- Ei in Hki; [|subst k].
          -- assert (Htk : nth_error (ro_table o) k = Some (RS None n' l')).
             { destruct (nth_error_ex (ro_table o) k) as (r & Hr); [lia|]. rewrite (Old _ _ Hr) in Ht'. congruence. }
             destruct (iv_snode _ _ _ I k _ _ _ _ _ Hk Htk) as (X1 & X2 & X3 & X4). split; auto. split; auto.
             rewrite Tr1, Fi1. destruct (Nat.eqb_spec k i); [lia|]. auto.
          -- rewrite (Old _ _ Et) in Ht'. discriminate.
        * intros k Hk. rewrite app_length in Hk. cbn in Hk. rewrite Tr1, Fi1. destruct (Nat.eqb_spec k i); [lia|]. apply (iv_rest _ _ _ I). lia.
        * intros k k' m1a cfa ba m1b cfb bb Hk Hk' Hlt'.
          destruct (Nat.lt_ge_cases k' i) as [Hki|Hki].
          -- rewrite nth_error_app1 in Hk, Hk' by lia. eapply (iv_ord _ _ _ I k k'); eauto.
          -- destruct (nth_snoc _ _ _ _ Hk') as [[? _]|[? Hk1]]; [lia|]. injection Hk1 as -> -> ->.
             rewrite nth_error_app1 in Hk by lia. apply (iv_end _ _ _ I k _ _ _ Hk).
        * intros k m1' cf' b' Hk. rewrite Lt'. destruct (nth_snoc _ _ _ _ Hk) as [[Hki Hk1]|[Hki Hk1]]; clear Hk; rename Hk1 into Hk; rewrite <- Ei in Hki; [|subst k].
          -- pose proof (iv_end _ _ _ I k _ _ _ Hk). fold T in H. lia.
          -- injection Hk as -> -> ->. lia.
        * intros k Hk. destruct (Nat.lt_ge_cases k T) as [HT|HT].
          -- destruct (iv_cov _ _ _ I k) as [H|(i' & m1' & cf' & b' & H1 & H2)]; [fold T; lia|left; auto|].
             right. exists i', m1', cf', b'. split; auto. rewrite nth_error_app1; auto. eapply nth_error_lt; eauto.
          -- destruct (Nat.lt_ge_cases k (T + length m1)) as [Hm|Hm].
             ++ right. exists i, m1, cf, T. split; [rewrite nth_error_app2 by lia; replace (i - length nds) with 0 by lia; reflexivity|]. lia.
             ++ left. destruct (nth_error_ex tbl' k) as (r & Hr); [lia|]. destruct (Cases k r Hr) as [H|[(p & pc & Hp & -> & _)|H]]; [|apply nth_error_lt in Hp; lia|apply H].
                apply nth_error_lt in H. fold T in H. lia.
        * intros z Hz. destruct (Supi z Hz) as [H|(H & -> & Hw & Hc & H')].
          -- destruct (iv_sreach _ _ _ I z H) as (i' & m1' & cf' & b' & H1 & H2). exists i', m1', cf', b'. split; auto. rewrite nth_error_app1; auto. eapply nth_error_lt; eauto.
          -- exists i, m1, cf, T. split; auto. rewrite nth_error_app2 by lia. replace (i - length nds) with 0 by lia. reflexivity.
        * destruct (iv_grow _ _ _ I) as (G1 & G2 & G3 & G4). split; [congruence|]. split; [congruence|]. split; [congruence|auto].
      + intros q' n' len' Et'. rewrite Et in Et'. injection Et' as <- <- <-. split; [exact Es|]. split; auto. split; auto. exists ext. split; auto.
        intros ->. unfold ext. destruct wd; auto.
      + cbn [ro_table]. rewrite Wk. unfold work, tbl'. rewrite skipn_app. replace (S i - length (ro_table o)) with 0 by (fold T; lia). cbn [skipn].
        rewrite map_app, map_app, !list_sum_app.
        assert (Kw : len < mx -> list_sum (map phi (krs q len m1)) <= total m1 * (mx - len)).
        { intros Hlm. clear - S1 Hlm. unfold krs, total. rewrite map_map. revert S1. generalize 0 at 1 as lo.
          induction m1 as [|[u c] m1 IH]; intros lo S1; auto. simpl in *. destruct S1 as (_ & Hc & S1). specialize (IH _ S1).
          unfold phi at 1. cbn [rs_nsamples rs_length]. replace (mx + 1 - (len + 1)) with (mx - len) by lia.
          assert (1 <= c * (mx - len)) by nia. rewrite Nat.mul_add_distr_r. unfold list_sum in *. lia. }
        assert (Ew : list_sum (map phi ext) <= cf /\ list_sum (map phi ext) <= 1).
        { unfold ext. destruct wd; [cbn; lia|]. destruct (Nat.eqb_spec cf 0); [cbn; lia|]. destruct (ro_super o); cbn; lia. }
        remember (list_sum (map phi ext)) as X eqn:EX. clear EX.
        assert (list_sum (map phi (krs q len m1)) + X + 1 <= phi (RS (Some q) n len)).
        { destruct S4 as [S4|(-> & -> & _)].
          - destruct (Nat.eq_dec len mx) as [e|Ne].
            + destruct (S5 e) as [-> ->]. cbn [krs map list_sum fold_right]. unfold phi. lia.
            + specialize (Kw ltac:(lia)). change (phi (RS (Some q) n len)) with (Nat.max 1 (n * (mx + 1 - len))).
              destruct (Nat.eq_dec n 0) as [->|Hn].
              * assert (m1 = []) as -> by (destruct m1 as [|[u c] m1]; auto; cbn in S1, S4; lia). assert (cf = 0) by lia. cbn [krs map list_sum fold_right]. lia.
              * replace (mx + 1 - len) with (S (mx - len)) by lia. assert (Hd : 0 < mx - len) by lia.
                apply Nat.max_le_iff. right. clear - Kw S4 Hn Hd Ew. revert Kw S4 Hd. generalize (mx - len), (total m1), (list_sum (map phi (krs q len m1))).
                intros d t s Kw S4 Hd. subst n. rewrite Nat.mul_succ_r, Nat.mul_add_distr_r. assert (cf <= cf * d) by nia. lia.
          - cbn [krs map list_sum fold_right]. unfold phi. lia. }
        unfold list_sum in *. fold (work (S i) (ro_table o)). unfold work, list_sum. lia.
    - (* the superfinal state *)
      pose proof (iv_none _ _ _ I i n len Et) as Hsup. destruct (iv_super _ _ _ I i Hsup) as [Et' Hw]. rewrite Et in Et'. injection Et' as -> ->.
      exists [], (Some kone), o, [], 0, (length (ro_table o)). split; [|split; [|split; [|split]]].
      + cbn [randgen_op compute_both]. rewrite Hsup, Nat.eqb_refl. reflexivity.
      + constructor.
      + intros g' N1 Tr1 Fi1 V1 V2 V3 V4. destruct (iv_grow _ _ _ I) as (G1 & G2 & G3 & G4).
        constructor; try (apply I; fail).
        * auto.
        * rewrite app_length. cbn. lia.
        * intros k m1' cf' b' q' n' l' Hk Ht'. destruct (nth_snoc _ _ _ _ Hk) as [[Hki Hk1]|[Hki Hk1]]; clear Hk; rename Hk1 into Hk; rewrite <- Ei in Hki; [|subst k].
          -- destruct (iv_node _ _ _ I k _ _ _ _ _ _ Hk Ht'). constructor; auto.
             ++ rewrite Tr1. destruct (Nat.eqb_spec k i); [lia|]. auto.
             ++ rewrite Fi1. destruct (Nat.eqb_spec k i); [lia|]. auto.
          -- congruence.
        * intros k m1' cf' b' n' l' Hk Ht'. rewrite Tr1, Fi1. destruct (nth_snoc _ _ _ _ Hk) as [[Hki Hk1]|[Hki Hk1]]; clear Hk; rename Hk1 into Hk; rewrite <- Ei in Hki; [|subst k].
          -- destruct (Nat.eqb_spec k i); [lia|]. apply (iv_snode _ _ _ I k _ _ _ _ _ Hk Ht').
          -- injection Hk as -> -> ->.  rewrite Nat.eqb_refl. auto.
        * intros k Hk. rewrite app_length in Hk. cbn in Hk. rewrite Tr1, Fi1. destruct (Nat.eqb_spec k i); [lia|]. apply (iv_rest _ _ _ I). lia.
        * intros k k' m1a cfa ba m1b cfb bb Hk Hk' Hlt'.
          destruct (Nat.lt_ge_cases k' i) as [Hki|Hki].
          -- rewrite nth_error_app1 in Hk, Hk' by lia. eapply (iv_ord _ _ _ I k k'); eauto.
          -- destruct (nth_snoc _ _ _ _ Hk') as [[? _]|[? Hk1]]; [lia|]. injection Hk1 as -> -> ->.
             rewrite nth_error_app1 in Hk by lia. apply (iv_end _ _ _ I k _ _ _ Hk).
        * intros k m1' cf' b' Hk. destruct (nth_snoc _ _ _ _ Hk) as [[Hki Hk1]|[Hki Hk1]]; clear Hk; rename Hk1 into Hk; rewrite <- Ei in Hki; [|subst k].
          -- apply (iv_end _ _ _ I k _ _ _ Hk).
          -- injection Hk as -> -> ->. cbn; lia.
        * intros k Hk. destruct (iv_cov _ _ _ I k Hk) as [H|(i' & m1' & cf' & b' & H1 & H2)]; [left; auto|].
          right. exists i', m1', cf', b'. split; auto. rewrite nth_error_app1; auto. eapply nth_error_lt; eauto.
        * intros z Hz. destruct (iv_sreach _ _ _ I z Hz) as (i' & m1' & cf' & b' & H1 & H2). exists i', m1', cf', b'. split; auto. rewrite nth_error_app1; auto. eapply nth_error_lt; eauto.
        * split; [congruence|]. split; [congruence|]. split; [congruence|auto].
      + intros q' n' len' Et'. congruence.
      + rewrite Wk. unfold phi. cbn. lia.
  Qed.

  (** ** The expansion *)
  (** [Q]: anything else that every call keeps. *)
  Variable Q : list gnode -> rop -> Prop.
  Hypothesis Q_init : Q [] (RO [RS (Some a) (rc_npath cfg) 0] None 0).
  Hypothesis Q_step : forall nds o g m1 cf base o', inv nds o g -> length nds < length (ro_table o) -> Q nds o ->
    stepped (length nds) o m1 cf base o' -> Q (nds ++ [(m1, cf, base)]) o'.

  Lemma bfs_ok fuel : forall nds o c g seen, inv nds o g -> Q nds o ->
    (forall x, existsb (Nat.eqb x) seen = Nat.ltb x (length (ro_table o))) ->
    (forall j, length nds <= j -> c_get_trs map_cache_ops j c = None) ->
    (exists nds' o' c' g', bfs2 (randgen_op nlog rng cfg f) map_cache_ops fuel
        (seq (length nds) (length (ro_table o) - length nds)) seen g (o, c) = Some (Ok (g', (o', c'))) /\
      inv nds' o' g' /\ Q nds' o' /\ length nds' = length (ro_table o')) \/
    (bfs2 (randgen_op nlog rng cfg f) map_cache_ops fuel (seq (length nds) (length (ro_table o) - length nds)) seen g (o, c) = None /\
     fuel < work (length nds) (ro_table o)).
  Proof.
    induction fuel as [|fuel IH]; intros nds o c g seen I HQ Hs Hc; pose proof (iv_le _ _ _ I) as Hle;
      destruct (length (ro_table o) - length nds) as [|k] eqn:Ek; cbn [seq bfs2].
    - left. exists nds, o, c, g. split; auto. split; auto. split; auto. lia.
    - right. split; auto. destruct (both_ok nds o g I) as (l & w & o' & m1 & cf & base & _ & _ & _ & _ & W); [lia|]. lia.
    - left. exists nds, o, c, g. split; auto. split; auto. split; auto. lia.
    - destruct (both_ok nds o g I) as (l & w & o' & m1 & cf & base & E & F & J & ST & W); [lia|].
      unfold l2_get_trs. cbn [snd fst]. rewrite Hc by lia. rewrite E. cbn [rbind fst snd].
      destruct (see_ok (length nds) l _ _ F (seq (S (length nds)) k) seen g) as (seen' & g' & E' & B1 & B2 & B3 & B4 & B5 & B6 & B7 & B8); [apply I|lia|auto|].
      rewrite E'. cbn [rbind fst snd]. unfold l2_final_weight. cbn [snd fst].
      set (c' := c_insert_final map_cache_ops (length nds) w (c_insert_trs map_cache_ops (length nds) l c)).
      assert (Ef : c_get_final map_cache_ops (length nds) c' = Some w).
      { unfold c'. cbn [c_get_final map_cache_ops c_insert_final mc_fin fst]. rewrite lookup_insert, Nat.eqb_refl. reflexivity. }
      rewrite Ef. cbn [rbind fst snd].
      assert (Cn : cnt g) by apply I.
      destruct (iv_rest _ _ _ I (length nds) (Nat.le_refl _)) as [R1 R2].
      assert (Fin : exists g'', match w with Some x => set_final g' (length nds) x | None => Ok g' end = Ok g'' /\
          num_states g'' = length (ro_table o') /\ vstart g'' = vstart g /\ visymt g'' = visymt g /\ vosymt g'' = vosymt g /\ cnt g'' /\
          (forall q, trs_of g'' q = if q =? length nds then l else trs_of g q) /\
          (forall q, fin_of g'' q = if q =? length nds then w else fin_of g q)).
      { pose proof (fresh_le _ _ _ F). destruct w as [x|].
        - destruct (set_final_eff g' (length nds) x) as (g'' & Eg & (A1 & A2 & A3 & A4 & A5) & A6 & A7); [lia|]. exists g''.
          split; auto. split; [lia|]. split; [congruence|]. split; [congruence|]. split; [congruence|]. split; [auto|]. split.
          + intros q. rewrite A6, B7, R1. reflexivity.
          + intros q. rewrite A7, B8. reflexivity.
        - exists g'. split; auto. split; auto. split; auto. split; auto. split; auto. split; auto. split.
          + intros q. rewrite B7, R1. reflexivity.
          + intros q. rewrite B8. destruct (Nat.eqb_spec q (length nds)); subst; auto. }
      destruct Fin as (g'' & -> & N1 & N2 & N3 & N4 & N5 & N6 & N7). cbn [rbind].
      specialize (J g'' N1 N6 N7 N2 N3 N4 N5).
      pose proof (fresh_le _ _ _ F) as Hge.
      assert (Eq : seq (S (length nds)) k ++ seq (length (ro_table o)) (length (ro_table o') - length (ro_table o)) =
                   seq (length (nds ++ [(m1, cf, base)])) (length (ro_table o') - length (nds ++ [(m1, cf, base)]))).
      { rewrite app_length. cbn [length]. rewrite Nat.add_1_r.
        replace (length (ro_table o') - S (length nds)) with (k + (length (ro_table o') - length (ro_table o))) by lia.
        rewrite seq_app. f_equal. f_equal. lia. }
      rewrite Eq. destruct (IH _ o' c' g'' seen' J ltac:(eapply Q_step; eauto; lia) B2) as [H|[H1 H2]].
      + intros j Hj. rewrite app_length in Hj. cbn [length] in Hj. unfold c'. cbn [c_get_trs map_cache_ops c_insert_final c_insert_trs mc_trs fst count_trs].
        rewrite lookup_insert. destruct (Nat.eqb_spec (length nds) j); [lia|]. apply (Hc j). lia.
      + left. exact H.
      + right. split; auto. rewrite app_length in H2. cbn [length] in H2. rewrite Nat.add_1_r in H2. lia.
  Qed.

  Theorem expand_ok fuel :
    (exists nds o g, randgen_fst nlog rng cfg f fuel = Some (Ok g) /\ inv nds o (VF (vstates g) (vstart g) None None (vprops g)) /\ Q nds o /\ length nds = length (ro_table o) /\
       visymt g = visymt f /\ vosymt g = vosymt f /\
       vprops g = N.land (rand_gen_properties (vprops f) wd) (mask pm_copy_properties)) \/
    (randgen_fst nlog rng cfg f fuel = None /\ fuel < Nat.max 1 (rc_npath cfg * (mx + 1))).
  Proof.
    unfold randgen_fst, compute2, l2_start. cbn [c_get_start map_cache_ops map_cache_new mc_start fst snd randgen_op compute_start2]. rewrite Ha.
    cbn [ro_table app length ro_super ro_rng].
    destruct (add_until_ok vnew 0) as (U1 & U2 & U3 & U4 & U5 & U6 & U7); [cbn; lia|].
    change (Nat.iter (0 + 1) (fun g => fst (add_state g)) (@vnew K)) with (add_until (@vnew K) 0).
    destruct (set_start_eff (add_until (@vnew K) 0) 0) as (g & E & S1 & S2 & S3 & S4 & S5 & S6 & S7); [lia|]. rewrite E.
    set (o := RO [RS (Some a) (rc_npath cfg) 0] None 0).
    assert (I : inv [] o g).
    { assert (Z : forall q, trs_of (@vnew K) q = [] /\ fin_of (@vnew K) q = None) by (intros [|q]; split; reflexivity).
      constructor; cbn [o ro_table ro_super length]; auto; try discriminate.
      - intros [|j] q n l; [|destruct j; discriminate]. intros [= <- <- <-]. split; [apply a_lt|]. lia.
      - intros [|j] n l; [discriminate|destruct j; discriminate].
      - intros [|j] *; discriminate.
      - intros [|j] *; discriminate.
      - intros i _. rewrite S6, S7, U6, U7. apply Z.
      - intros [|i] *; discriminate.
      - intros [|i] *; discriminate.
      - intros j Hj. lia.
      - split; auto. split; [rewrite S3, U3; auto|]. split; [rewrite S4, U4; auto|]. apply S5, U5. constructor. }
    set (c0 := c_insert_start map_cache_ops (Some 0) map_cache_new).
    match goal with |- context [bfs2 _ _ _ _ _ _ ?z] => change z with (o, c0) end.
    destruct (bfs_ok fuel [] o c0 g [0] I Q_init) as [(nds & o' & c' & g' & E' & I' & HQ & L)|[E' L]].
    - intros x. cbn. rewrite orb_false_r. destruct x; reflexivity.
    - intros j _. reflexivity.
    - left. cbn [length o ro_table] in E'. cbn [Nat.sub seq] in E'. fold o in E'. rewrite E'.
      destruct (iv_grow _ _ _ I') as (G1 & G2 & G3 & G4).
      eexists nds, o', _. split; [reflexivity|]. cbn [fst vstates vstart visymt vosymt vprops]. rewrite G2, G3.
      split; [|split; [auto|]; split; [auto|]; split; [destruct (visymt f); auto|]; split; [destruct (vosymt f); auto|reflexivity]].
      destruct I'. constructor; auto.
      intros i m1 cf b q n l X Y. destruct (iv_node0 i m1 cf b q n l X Y). constructor; auto.
    - right. cbn [length o ro_table] in E'. cbn [Nat.sub seq] in E'. fold o in E'. rewrite E'. split; auto.
      unfold work, o, phi in L. cbn in L. rewrite Nat.sub_0_r, Nat.add_0_r in L. exact L.
  Qed.
End R.
