(** compute_fst_properties answers correctly on machines with a start state. *)
From Coq Require Import List Arith NArith ZArith Bool Lia Sorted.
From Verif Require Import Base.Util Base.Semiring Base.Machine Base.PropSpec
  Model.Props Model.VectorFst Model.TrOps Model.Dfs Model.Visitors Model.ComputeProps
  Proofs.PropsFacts Proofs.VectorFacts Proofs.DelStates Proofs.VectorProps
  Proofs.DfsFacts Proofs.Tarjan Proofs.SccFacts Proofs.VisitFacts Proofs.ConnectFacts.
Import ListNotations.

Lemma has_mark c ng ps p b :
  has (mark c ng ps p) b = (has p b || (c && pbit_eqb b ng)) && negb (c && pbit_eqb b ps).
Proof.
  unfold mark. destruct c; simpl; [|rewrite orb_false_r, andb_true_r; auto].
  rewrite has_pclr, has_pset. simpl. rewrite !orb_false_r. auto.
Qed.

Lemma intersects_mask p l : intersects p (mask l) = existsb (has p) l.
Proof.
  unfold intersects. induction l as [|b l IH].
  - simpl. rewrite N.land_0_r. auto.
  - simpl mask. simpl existsb. rewrite <- IH, N.land_lor_distr_r.
    assert (B : N.land p (bit b) = if has p b then bit b else 0%N).
    { apply N.bits_inj. intros i. rewrite N.land_spec. unfold bit. rewrite N.pow2_bits_eqb.
      destruct (N.eqb_spec (bitpos b) i) as [<-|E].
      - unfold has. destruct (N.testbit p (bitpos b)); simpl; [rewrite N.pow2_bits_true; auto|]. auto.
      - destruct (has p b); simpl; rewrite ?andb_false_r, ?N.bits_0; auto.
        symmetry. apply N.pow2_bits_false. auto. }
    rewrite B. destruct (has p b); simpl; auto.
    destruct (N.lor (bit b) (N.land p (mask l)) =? 0)%N eqn:E; auto. apply N.eqb_eq in E.
    apply N.lor_eq_0_iff in E as [E _]. unfold bit in E. apply N.pow_nonzero in E; [tauto|lia].
Qed.

Lemma existsb_seq (Q : nat -> bool) k : existsb Q (seq 0 k) = true <-> exists s, s < k /\ Q s = true.
Proof.
  rewrite existsb_exists. split; intros (s & A & B); exists s; split; auto.
  - apply in_seq in A. lia.
  - apply in_seq. lia.
Qed.
Lemma existsb_seq_f (Q : nat -> bool) k : existsb Q (seq 0 k) = false <-> forall s, s < k -> Q s = false.
Proof.
  split.
  - intros H s Hs. destruct (Q s) eqn:E; auto. assert (existsb Q (seq 0 k) = true); [|congruence]. apply existsb_seq. eauto.
  - intros H. destruct (existsb Q (seq 0 k)) eqn:E; auto. apply existsb_seq in E as (s & A & B). rewrite H in B; auto.
Qed.
Lemma existsb_f {A} (Q : A -> bool) l : existsb Q l = false <-> forall x, In x l -> Q x = false.
Proof.
  split.
  - intros H x Hx. destruct (Q x) eqn:E; auto. assert (existsb Q l = true); [|congruence]. apply existsb_exists. eauto.
  - intros H. destruct (existsb Q l) eqn:E; auto. apply existsb_exists in E as (s & A0 & B). rewrite H in B; auto.
Qed.

Lemma count_zero {A} (p : A -> bool) l : (forall x, In x l -> p x = false) -> count p l = 0.
Proof. induction l; intros H; [reflexivity|]. rewrite count_cons, H, IHl; [auto|intros x Hx; apply H; right; auto|left; auto]. Qed.
Lemma plain_dec {K : SR} (L : lsr_laws K) (w : K) : plain w \/ ~ plain w.
Proof. destruct (nontrivial w) eqn:E; [right; apply (nontrivial_plain L)|left; apply (nontrivial_plain_f L)]; auto. Qed.
Lemma fin_lt {K : SR} (f : vfst K) s w : fin_of f s = Some w -> s < num_states f.
Proof. intros H. destruct (Nat.lt_ge_cases s (num_states f)); auto. rewrite fin_of_beyond in H by auto. discriminate. Qed.

Definition posb : list pbit :=
  [ACCEPTOR; NO_EPSILONS; NO_I_EPSILONS; NO_O_EPSILONS; I_LABEL_SORTED; O_LABEL_SORTED; UNWEIGHTED; TOP_SORTED;
   STRING; I_DETERMINISTIC; O_DETERMINISTIC; UNWEIGHTED_CYCLES].

Section F.
  Context {K : SR} (L : lsr_laws K).
  Variables (idet odet ucy : bool) (sccs : list Z) (f : vfst K).
  Let n := num_states f.
  Hypothesis Hscc : ucy = true -> length sccs = n.
  Hypothesis Hc : closed f.

  Definition en (b : pbit) : bool :=
    match b with I_DETERMINISTIC => idet | O_DETERMINISTIC => odet | UNWEIGHTED_CYCLES => ucy | _ => true end.
  Definition heavy (w : K) : bool := negb (keqb w kone) && negb (keqb w kzero).

  (** [pre] is the reversed list of the transitions already seen. *)
  Definition bad (b : pbit) (s : nat) (pre : list (tr K)) (t : tr K) : bool :=
    match b with
    | ACCEPTOR => negb (Nat.eqb (il t) (ol t))
    | NO_EPSILONS => Nat.eqb (il t) 0 && Nat.eqb (ol t) 0
    | NO_I_EPSILONS => Nat.eqb (il t) 0
    | NO_O_EPSILONS => Nat.eqb (ol t) 0
    | I_LABEL_SORTED => match hd_error pre with Some u => Nat.ltb (il t) (il u) | None => false end
    | O_LABEL_SORTED => match hd_error pre with Some u => Nat.ltb (ol t) (ol u) | None => false end
    | UNWEIGHTED => heavy (wgt t)
    | TOP_SORTED => Nat.leb (ns t) s
    | STRING => negb (Nat.eqb (ns t) (s + 1))
    | I_DETERMINISTIC => existsb (Nat.eqb (il t)) (map il pre)
    | O_DETERMINISTIC => existsb (Nat.eqb (ol t)) (map ol pre)
    | UNWEIGHTED_CYCLES => heavy (wgt t) && Z.eqb (nth s sccs 0%Z) (nth (ns t) sccs 0%Z)
    | _ => false
    end.
  Fixpoint badl (b : pbit) (s : nat) (pre l : list (tr K)) : bool :=
    match l with [] => false | t :: l' => bad b s pre t || badl b s (t :: pre) l' end.

  Definition tracks (b : pbit) (p : N) (v : bool) : Prop :=
    has p b = en b && negb v /\ has p (opp b) = en b && v.

  Lemma cfp_tr_ok s p pre t : s < n -> ns t < n ->
    has p UNWEIGHTED_CYCLES = false \/ ucy = true ->
    exists p', cfp_tr idet odet sccs s (CS p (map il pre) (map ol pre) (hd_error pre)) t =
        Ok (CS p' (map il (t :: pre)) (map ol (t :: pre)) (hd_error (t :: pre))) /\
      (forall b v, In b posb -> tracks b p v -> tracks b p' (v || bad b s pre t)) /\
      (forall b, In b dfs_props -> has p' b = has p b) /\
      (has p' UNWEIGHTED_CYCLES = false \/ ucy = true).
  Proof.
    intros Hs Ht Hu. unfold cfp_tr. cbn [cs_p cs_il cs_ol cs_prev]. fold (heavy (wgt t)).
    match goal with |- context [mark (heavy (wgt t)) WEIGHTED UNWEIGHTED ?q] => set (q0 := q) end.
    assert (U0 : has (mark (heavy (wgt t)) WEIGHTED UNWEIGHTED q0) UNWEIGHTED_CYCLES = has p UNWEIGHTED_CYCLES).
    { unfold q0. rewrite !has_mark. cbn. rewrite !andb_false_r, !orb_false_r, !andb_true_r. auto. }
    rewrite U0.
    set (q1 := mark (heavy (wgt t)) WEIGHTED UNWEIGHTED q0) in *.
    set (c := heavy (wgt t) && has p UNWEIGHTED_CYCLES && Z.eqb (nth s sccs 0%Z) (nth (ns t) sccs 0%Z)).
    assert (E : (if heavy (wgt t) && has p UNWEIGHTED_CYCLES
                 then match nth_error sccs s with
                      | Some a => match nth_error sccs (ns t) with
                                  | Some b => Ok (mark (Z.eqb a b) WEIGHTED_CYCLES UNWEIGHTED_CYCLES q1)
                                  | None => Panic
                                  end
                      | None => Panic
                      end
                 else Ok q1) = Ok (mark c WEIGHTED_CYCLES UNWEIGHTED_CYCLES q1)).
    { unfold c. destruct (heavy (wgt t) && has p UNWEIGHTED_CYCLES) eqn:E1; auto.
      apply andb_true_iff in E1 as [_ E1]. destruct Hu as [Hu|Hu]; [congruence|].
      specialize (Hscc Hu). rewrite (nth_error_nth' sccs 0%Z) by lia. rewrite (nth_error_nth' sccs 0%Z) by lia. auto. }
    rewrite E. cbn [rbind]. eexists. split; [reflexivity|]. split; [|split].
    - intros b v Hb [T1 T2].
      unfold posb in Hb. unfold tracks.
      repeat (destruct Hb as [<-|Hb]); try (destruct Hb; fail); cbn [opp en] in *;
      unfold q1, q0; rewrite !has_mark; cbn [pbit_eqb pbit_eq_dec]; cbn;
      rewrite ?andb_false_r, ?orb_false_r, ?andb_true_r, ?orb_false_r, ?andb_true_r; unfold c in *; try rewrite T1, T2; clear;
      repeat match goal with |- context [Nat.eqb ?a ?b] => destruct (Nat.eqb a b) | |- context [Nat.leb ?a ?b] => destruct (Nat.leb a b)
         | |- context [match hd_error pre with _ => _ end] => destruct (hd_error pre) 
         | |- context [Nat.ltb ?a ?b] => destruct (Nat.ltb a b) | |- context [heavy ?a] => destruct (heavy a)
         | |- context [existsb ?a ?b] => destruct (existsb a b) | |- context [Z.eqb ?a ?b] => destruct (Z.eqb a b) end;
      destruct v; try destruct idet; try destruct odet; try destruct ucy; auto.
    - intros b Hb. unfold q1, q0. rewrite !has_mark. unfold dfs_props in Hb.
      repeat (destruct Hb as [<-|Hb]); try (destruct Hb; fail); cbn; rewrite ?andb_false_r, ?orb_false_r, ?andb_true_r; 
      rewrite ?andb_false_r, ?orb_false_r, ?andb_true_r; auto.
    - destruct Hu as [Hu|Hu]; auto. left. unfold q1, q0. rewrite !has_mark, Hu. cbn.
      rewrite ?andb_false_r, ?orb_false_r, ?andb_true_r. auto.
  Qed.

  Lemma cfp_trs_ok s l : forall p pre, s < n -> (forall t, In t l -> ns t < n) ->
    has p UNWEIGHTED_CYCLES = false \/ ucy = true ->
    exists c, fold_left (fun r t => x <-- r ;; cfp_tr idet odet sccs s x t) l (Ok (CS p (map il pre) (map ol pre) (hd_error pre))) = Ok c /\
      (forall b v, In b posb -> tracks b p v -> tracks b (cs_p c) (v || badl b s pre l)) /\
      (forall b, In b dfs_props -> has (cs_p c) b = has p b) /\
      (has (cs_p c) UNWEIGHTED_CYCLES = false \/ ucy = true).
  Proof.
    induction l as [|t l IH]; intros p pre Hs Hl Hu.
    - simpl. eexists. split; [reflexivity|]. simpl. split; auto. intros b v _ H. rewrite orb_false_r. auto.
    - cbn [fold_left rbind]. destruct (cfp_tr_ok s p pre t Hs) as (p' & E & T & D & U); auto; [apply Hl; left; auto|].
      rewrite E. destruct (IH p' (t :: pre) Hs) as (c & E2 & T2 & D2 & U2); auto; [intros u Hu'; apply Hl; right; auto|].
      exists c. split; auto. split; [|split; [intros b Hb; rewrite D2, D; auto|auto]].
      intros b v Hb Hv. simpl badl. rewrite orb_assoc. apply T2; auto.
  Qed.

  Definition nfin (s : nat) : nat := count (fun q => match fin_of f q with Some _ => true | None => false end) (seq 0 s).
  Definition badend (b : pbit) (s : nat) : bool :=
    match b with
    | STRING => Nat.ltb 0 (nfin s) || match fin_of f s with Some _ => false | None => negb (Nat.eqb (length (trs_of f s)) 1) end
    | UNWEIGHTED => match fin_of f s with Some w => negb (keqb w kone) | None => false end
    | _ => false
    end.
  Definition bads (b : pbit) (s : nat) : bool := badl b s [] (trs_of f s) || badend b s.

  Lemma nfin_S s : nfin (S s) = nfin s + match fin_of f s with Some _ => 1 | None => 0 end.
  Proof. clear. unfold nfin. rewrite seq_S, count_app, count_cons, count_nil. simpl. destruct (fin_of f s); lia. Qed.

  Lemma cfp_state_ok s p : s < n -> has p UNWEIGHTED_CYCLES = false \/ ucy = true ->
    exists p', cfp_state idet odet sccs f (p, nfin s) s = Ok (p', nfin (S s)) /\
      (forall b v, In b posb -> tracks b p v -> tracks b p' (v || bads b s)) /\
      (forall b, In b dfs_props -> has p' b = has p b) /\
      (has p' UNWEIGHTED_CYCLES = false \/ ucy = true).
  Proof.
    intros Hs Hu. unfold cfp_state.
    destruct (cfp_trs_ok s (trs_of f s) p [] Hs (fun t Ht => proj1 Hc s t Ht) Hu) as (c & E & T & D & U).
    simpl in E. rewrite E. cbn [rbind]. rewrite nfin_S. unfold bads.
    set (p1 := mark (0 <? nfin s) NOT_STRING STRING (cs_p c)).
    destruct (fin_of f s) as [w|] eqn:Ef.
    - eexists. rewrite Nat.add_1_r. split; [reflexivity|]. split; [|split].
      + intros b v Hb Hv. specialize (T b v Hb Hv). rewrite orb_assoc. revert T. generalize (v || badl b s [] (trs_of f s)).
        intros v' [T1 T2]. unfold badend. rewrite Ef. unfold p1. clear - T1 T2 Hb.
        generalize (0 <? nfin s) (Nat.eqb (length (trs_of f s)) 1). intros z1 z2.
        unfold posb in Hb. unfold tracks.
        repeat (destruct Hb as [<-|Hb]); try (destruct Hb; fail); cbn [opp en] in *; rewrite !has_mark; cbn [pbit_eqb pbit_eq_dec]; cbn;
        rewrite ?andb_false_r, ?orb_false_r, ?andb_true_r, ?orb_false_r, ?andb_true_r; try rewrite T1, T2; clear;
        repeat match goal with |- context [Nat.ltb ?a ?b] => destruct (Nat.ltb a b) | |- context [keqb ?a ?b] => destruct (keqb a b)  end;
        destruct v'; try destruct z1; try destruct z2; try destruct idet; try destruct odet; try destruct ucy; auto.
      + intros b Hb. rewrite <- D by auto. unfold p1. rewrite !has_mark. unfold dfs_props in Hb.
        repeat (destruct Hb as [<-|Hb]); try (destruct Hb; fail); cbn; rewrite ?andb_false_r, ?orb_false_r, ?andb_true_r; 
        rewrite ?andb_false_r, ?orb_false_r, ?andb_true_r; auto.
      + destruct U as [U|U]; auto. left. unfold p1. rewrite !has_mark, U. cbn. rewrite ?andb_false_r, ?orb_false_r, ?andb_true_r. auto.
    - eexists. rewrite Nat.add_0_r. split; [reflexivity|]. split; [|split].
      + intros b v Hb Hv. specialize (T b v Hb Hv). rewrite orb_assoc. revert T. generalize (v || badl b s [] (trs_of f s)).
        intros v' [T1 T2]. unfold badend. rewrite Ef. unfold p1. clear - T1 T2 Hb.
        generalize (0 <? nfin s) (Nat.eqb (length (trs_of f s)) 1). intros z1 z2.
        unfold posb in Hb. unfold tracks.
        repeat (destruct Hb as [<-|Hb]); try (destruct Hb; fail); cbn [opp en] in *; rewrite !has_mark; cbn [pbit_eqb pbit_eq_dec]; cbn;
        rewrite ?andb_false_r, ?orb_false_r, ?andb_true_r, ?orb_false_r, ?andb_true_r; try rewrite T1, T2; clear;
        repeat match goal with |- context [Nat.ltb ?a ?b] => destruct (Nat.ltb a b) | |- context [Nat.eqb ?a ?b] => destruct (Nat.eqb a b)  end;
        destruct v'; try destruct z1; try destruct z2; try destruct idet; try destruct odet; try destruct ucy; auto.
      + intros b Hb. rewrite <- D by auto. unfold p1. rewrite !has_mark. unfold dfs_props in Hb.
        repeat (destruct Hb as [<-|Hb]); try (destruct Hb; fail); cbn; rewrite ?andb_false_r, ?orb_false_r, ?andb_true_r; 
        rewrite ?andb_false_r, ?orb_false_r, ?andb_true_r; auto.
      + destruct U as [U|U]; auto. left. unfold p1. rewrite !has_mark, U. cbn. rewrite ?andb_false_r, ?orb_false_r, ?andb_true_r. auto.
  Qed.

  Lemma cfp_states_ok k : forall i p, i + k = n -> has p UNWEIGHTED_CYCLES = false \/ ucy = true ->
    exists p', fold_left (fun r s => c <-- r ;; cfp_state idet odet sccs f c s) (seq i k) (Ok (p, nfin i)) = Ok (p', nfin n) /\
      (forall b v, In b posb -> tracks b p v -> tracks b p' (v || existsb (bads b) (seq i k))) /\
      (forall b, In b dfs_props -> has p' b = has p b).
  Proof.
    induction k as [|k IH]; intros i p Hi Hu.
    - simpl. exists p. split; [rewrite <- Hi, Nat.add_0_r; auto|]. split; auto. intros b v _ H. rewrite orb_false_r. auto.
    - cbn [seq fold_left rbind]. destruct (cfp_state_ok i p) as (p' & E & T & D & U); auto; [lia|].
      rewrite E. destruct (IH (S i) p') as (p2 & E2 & T2 & D2); auto; [lia|].
      exists p2. split; auto. split; [|intros b Hb; rewrite D2, D; auto].
      intros b v Hb Hv. simpl existsb. rewrite orb_assoc. apply T2; auto.
  Qed.

  (** ** Reading the violations back *)
  Lemma heavy_spec w : heavy w = true <-> ~ plain w.
  Proof. rewrite <- (nontrivial_plain L). unfold heavy, nontrivial. rewrite andb_comm. tauto. Qed.

  Lemma badl_simple b s (Q : tr K -> bool) : (forall pre t, bad b s pre t = Q t) ->
    forall l pre, badl b s pre l = existsb Q l.
  Proof. intros H. induction l; intros pre; simpl; auto. rewrite H, IHl. auto. Qed.

  Lemma badl_det b s (g : tr K -> nat) : (forall pre t, bad b s pre t = existsb (Nat.eqb (g t)) (map g pre)) ->
    forall l pre, badl b s pre l = false <-> NoDup (map g l) /\ forall t, In t l -> ~ In (g t) (map g pre).
  Proof.
    intros H. induction l as [|t l IH]; intros pre; simpl.
    - split; auto. intros _. split; [constructor|tauto].
    - rewrite orb_false_iff, H, IH. split.
      + intros (E & N & D). split.
        * constructor; auto. intros HI. apply in_map_iff in HI as (u & Eu & Hu). apply (D u Hu). left. auto.
        * intros u [<-|Hu].
          -- intros HI. assert (X : existsb (Nat.eqb (g t)) (map g pre) = true); [|congruence].
             apply existsb_exists. exists (g t). split; auto. apply Nat.eqb_refl.
          -- intros HI. apply (D u Hu). right. auto.
      + intros (N & D). inversion N; subst. split; [|split; auto].
        * destruct (existsb (Nat.eqb (g t)) (map g pre)) eqn:E; auto. apply existsb_exists in E as (x & Hx & Ex).
          apply Nat.eqb_eq in Ex. subst. exfalso. apply (D t); auto.
        * intros u Hu [E|E]; [|apply (D u); auto]. apply H2. rewrite E. apply in_map. auto.
  Qed.

  Lemma badl_sorted b s (g : tr K -> nat) :
    (forall pre t, bad b s pre t = match hd_error pre with Some u => Nat.ltb (g t) (g u) | None => false end) ->
    forall l pre, badl b s pre l = false <-> Sorted le (map g l) /\ match hd_error pre with Some u => HdRel le (g u) (map g l) | None => True end.
  Proof.
    intros H. induction l as [|t l IH]; intros pre; simpl.
    - split; auto. intros _. split; [constructor|destruct (hd_error pre); auto].
    - rewrite orb_false_iff, H, IH. simpl. split.
      + intros (E & N & D). split; [constructor; auto|]. destruct (hd_error pre); auto. constructor. apply Nat.ltb_ge; auto.
      + intros (N & D). inversion N; subst. split; auto. destruct (hd_error pre); auto. inversion D; subst. apply Nat.ltb_ge; auto.
  Qed.

  Definition viol (b : pbit) : bool := existsb (bads b) (seq 0 n).

  Lemma viol_tr b (Q : nat -> tr K -> bool) : (forall s, badend b s = false) -> (forall s pre t, bad b s pre t = Q s t) ->
    (viol b = true <-> exists s t, In t (trs_of f s) /\ Q s t = true) /\
    (viol b = false <-> forall s t, In t (trs_of f s) -> Q s t = false).
  Proof.
    intros He HQ. unfold viol. rewrite existsb_seq, existsb_seq_f. unfold bads. split; split.
    - intros (s & Hs & B). rewrite He, orb_false_r, (badl_simple b s (Q s)) in B by auto.
      apply existsb_exists in B as (t & Ht & B). eauto.
    - intros (s & t & Ht & B). exists s. split; [apply trs_of_in in Ht; auto|].
      rewrite He, orb_false_r, (badl_simple b s (Q s)) by auto. apply existsb_exists. eauto.
    - intros H s t Ht. specialize (H s (trs_of_in _ _ _ Ht)). rewrite He, orb_false_r, (badl_simple b s (Q s)) in H by auto.
      eapply existsb_f in H; eauto.
    - intros H s Hs. rewrite He, orb_false_r, (badl_simple b s (Q s)) by auto. apply existsb_f. eauto.
  Qed.

  Lemma viol_state b (Q : nat -> Prop) : (forall s, badend b s = false) ->
    (forall s, badl b s [] (trs_of f s) = false <-> Q s) -> (forall s, trs_of f s = [] -> Q s) ->
    (viol b = true -> exists s, ~ Q s) /\ (viol b = false -> forall s, Q s).
  Proof.
    intros He HQ H0. unfold viol. rewrite existsb_seq, existsb_seq_f. unfold bads. split.
    - intros (s & Hs & B). rewrite He, orb_false_r in B. exists s. intros HN. apply HQ in HN. congruence.
    - intros H s. destruct (Nat.lt_ge_cases s n) as [Hs|Hs].
      + apply HQ. specialize (H s Hs). rewrite He, orb_false_r in H. auto.
      + apply H0. apply trs_of_oob. auto.
  Qed.
End F.

Lemma intersects_has m q b : has m b = true -> has q b = true -> intersects m q = true.
Proof.
  intros A B. unfold intersects. destruct (N.land m q =? 0)%N eqn:E; auto.
  apply N.eqb_eq in E. assert (X : has (N.land m q) b = has 0%N b) by congruence.
  rewrite has_land, has_0, A, B in X. discriminate.
Qed.

Section G.
  Context {K : SR} (L : lsr_laws K).
  Implicit Types (f : vfst K).
  Hint Constructors Sorted HdRel NoDup : core.

  Lemma string_viol f s0 : closed f -> vstart f = Some s0 ->
    (viol (K := K) [] f STRING = false /\ s0 = 0 <-> is_string (num_states f) (mach f)).
  Proof.
    intros [C1 C2] Es. specialize (C2 _ Es). set (n := num_states f) in *. unfold viol. fold n.
    rewrite existsb_seq_f. split.
    - intros [H ->]. right. split; [exact Es|]. intros s Hs.
      assert (A : forall s, s < n -> (forall t, In t (trs_of f s) -> ns t = S s) /\ nfin f s = 0 /\
                   (fin_of f s = None -> length (trs_of f s) = 1)).
      { intros q Hq. specialize (H q Hq). unfold bads in H. apply orb_false_iff in H as [H1 H2].
        rewrite (badl_simple [] STRING q (fun t => negb (Nat.eqb (ns t) (q + 1)))) in H1 by auto.
        simpl badend in H2. apply orb_false_iff in H2 as [H2 H3].
        split; [|split].
        - intros t Ht. eapply existsb_f in H1; eauto. apply negb_false_iff, Nat.eqb_eq in H1. lia.
        - apply Nat.ltb_ge in H2. lia.
        - intros Ef. rewrite Ef in H3. apply negb_false_iff, Nat.eqb_eq in H3. auto. }
      destruct (A s Hs) as (A1 & A2 & A3). simpl. destruct n as [|n0] eqn:En; [lia|].
      destruct (Nat.eqb_spec s n0) as [->|Hn].
      + assert (T : trs_of f n0 = []).
        { destruct (trs_of f n0) as [|t l] eqn:Et; auto. exfalso.
          assert (X : ns t < S n0) by (apply (C1 n0); rewrite Et; left; auto).
          rewrite (A1 t) in X by (left; auto). lia. }
        split; auto. intros Ef. rewrite T in A3. specialize (A3 Ef). simpl in A3. lia.
      + assert (Ef : fin_of f s = None).
        { destruct (fin_of f s) eqn:Ef; auto. exfalso.
          destruct (A (S s)) as (_ & B & _); [lia|]. rewrite nfin_S, Ef in B. lia. }
        split; auto. specialize (A3 Ef). destruct (trs_of f s) as [|t [|]]; simpl in *; try lia.
        exists t. split; auto.
    - intros [H|[H0 H]]; [lia|]. split; [|cbn in H0; congruence].
      intros s Hs. unfold bads.
      assert (Z : nfin f s = 0).
      { unfold nfin. apply count_zero. intros q Hq. apply in_seq in Hq. specialize (H q).
        destruct n as [|n0]; [lia|]. simpl in H. destruct (Nat.eqb_spec q n0); [lia|].
        destruct H as [_ H]; [lia|]. rewrite H. auto. }
      rewrite (badl_simple [] STRING s (fun t => negb (Nat.eqb (ns t) (s + 1)))) by auto.
      simpl badend. rewrite Z. simpl. specialize (H s Hs). simpl in H. destruct n as [|n0]; [lia|].
      destruct (Nat.eqb_spec s n0).
      + destruct H as [H1 H2]. rewrite H1. destruct (fin_of f s); simpl; auto. congruence.
      + destruct H as [(t & H1 & H2) H3]. rewrite H1, H3. simpl. rewrite H2, Nat.add_1_r, Nat.eqb_refl. auto.
  Qed.

  Lemma string_scc f sc : viol sc f STRING = viol (K := K) [] f STRING.
  Proof.
    unfold viol.
    assert (H : forall s, bads sc f STRING s = bads [] f STRING s).
    { intros s. unfold bads. f_equal. rewrite !(badl_simple _ STRING s (fun t => negb (Nat.eqb (ns t) (s + 1)))) by auto. auto. }
    induction (seq 0 (num_states f)); simpl; congruence.
  Qed.

  (** The violations decide the bits. *)
  Lemma viol_spec f sc b : closed f -> (forall s w, fin_of f s = Some w -> w <> kzero) ->
    In b posb -> b <> STRING ->
    (b = UNWEIGHTED_CYCLES -> forall s u, s < num_states f -> u < num_states f ->
         (nth s sc 0%Z = nth u sc 0%Z <-> reach (mach f) s u /\ reach (mach f) u s)) ->
    (viol sc f b = false -> holds b (num_states f) (mach f)) /\
    (viol sc f b = true -> holds (opp b) (num_states f) (mach f)).
  Proof.
    intros [C1 C2] Hz Hb Hs Hu.
    unfold posb in Hb. repeat (destruct Hb as [<-|Hb]); try (destruct Hb; fail); try congruence; cbn [opp holds mach mtrs mfin].
    - destruct (viol_tr sc f ACCEPTOR (fun _ t => negb (Nat.eqb (il t) (ol t)))) as [A B]; auto. split.
      + intros H s t Ht. rewrite B in H. specialize (H s t Ht). apply negb_false_iff, Nat.eqb_eq in H. auto.
      + intros H. apply A in H as (s & t & Ht & H). apply negb_true_iff, Nat.eqb_neq in H. eauto.
    - destruct (viol_tr sc f NO_EPSILONS (fun _ t => Nat.eqb (il t) 0 && Nat.eqb (ol t) 0)) as [A B]; auto. split.
      + intros H s t Ht [H1 H2]. rewrite B in H. specialize (H s t Ht). rewrite H1, H2 in H. discriminate.
      + intros H. apply A in H as (s & t & Ht & H). apply andb_true_iff in H as [H1 H2]. apply Nat.eqb_eq in H1. apply Nat.eqb_eq in H2. eauto.
    - destruct (viol_tr sc f NO_I_EPSILONS (fun _ t => Nat.eqb (il t) 0)) as [A B]; auto. split.
      + intros H s t Ht H1. rewrite B in H. specialize (H s t Ht). rewrite H1 in H. discriminate.
      + intros H. apply A in H as (s & t & Ht & H). apply Nat.eqb_eq in H. eauto.
    - destruct (viol_tr sc f NO_O_EPSILONS (fun _ t => Nat.eqb (ol t) 0)) as [A B]; auto. split.
      + intros H s t Ht H1. rewrite B in H. specialize (H s t Ht). rewrite H1 in H. discriminate.
      + intros H. apply A in H as (s & t & Ht & H). apply Nat.eqb_eq in H. eauto.
    - destruct (viol_state sc f I_LABEL_SORTED (fun s => Sorted le (map il (trs_of f s)))) as [A B]; auto.
      { intros s. rewrite (badl_sorted sc I_LABEL_SORTED s il) by auto. simpl. tauto. }
      { intros s ->. simpl. auto. }
      split; intros H.
      + intros s. apply Sorted_StronglySorted; [exact Nat.le_trans|]. auto.
      + destruct (A H) as (s & HS). exists s. intros HS'. apply HS. apply StronglySorted_Sorted. auto.
    - destruct (viol_state sc f O_LABEL_SORTED (fun s => Sorted le (map ol (trs_of f s)))) as [A B]; auto.
      { intros s. rewrite (badl_sorted sc O_LABEL_SORTED s ol) by auto. simpl. tauto. }
      { intros s ->. simpl. auto. }
      split; intros H.
      + intros s. apply Sorted_StronglySorted; [exact Nat.le_trans|]. auto.
      + destruct (A H) as (s & HS). exists s. intros HS'. apply HS. apply StronglySorted_Sorted. auto.
    - unfold viol. rewrite existsb_seq, existsb_seq_f. unfold bads. split.
      + intros H. split.
        * intros s t Ht. specialize (H s (trs_of_in _ _ _ Ht)). apply orb_false_iff in H as [H _].
          rewrite (badl_simple sc UNWEIGHTED s (fun t => heavy (wgt t))) in H by auto. eapply existsb_f in H; eauto.
          destruct (plain_dec L (wgt t)) as [P|P]; auto. apply heavy_spec in P; auto. congruence.
        * intros s w Hw. specialize (H s (fin_lt _ _ _ Hw)). apply orb_false_iff in H as [_ H]. simpl in H.
          rewrite Hw in H. apply negb_false_iff in H. apply (keqb_true L) in H. right. auto.
      + intros (s & Hs' & H). apply orb_true_iff in H as [H|H].
        * rewrite (badl_simple sc UNWEIGHTED s (fun t => heavy (wgt t))) in H by auto.
          apply existsb_exists in H as (t & Ht & H). apply heavy_spec in H; auto. left. eauto.
        * simpl in H. destruct (fin_of f s) as [w|] eqn:Ew; [|discriminate]. right. exists s, w. split; auto.
          intros [P|P]; [eapply Hz; eauto|]. apply negb_true_iff in H. apply (keqb_true L) in P. congruence.
    - destruct (viol_tr sc f TOP_SORTED (fun s t => Nat.leb (ns t) s)) as [A B]; auto. split.
      + intros H s t Ht. rewrite B in H. specialize (H s t Ht). apply Nat.leb_gt in H. auto.
      + intros H. apply A in H as (s & t & Ht & H). apply Nat.leb_le in H. eauto.
    - destruct (viol_state sc f I_DETERMINISTIC (fun s => NoDup (map il (trs_of f s)))) as [A B]; auto.
      { intros s. rewrite (badl_det sc I_DETERMINISTIC s il) by auto. simpl. intuition. }
      { intros s ->. simpl. auto. }
    - destruct (viol_state sc f O_DETERMINISTIC (fun s => NoDup (map ol (trs_of f s)))) as [A B]; auto.
      { intros s. rewrite (badl_det sc O_DETERMINISTIC s ol) by auto. simpl. intuition. }
      { intros s ->. simpl. auto. }
    - specialize (Hu eq_refl).
      destruct (viol_tr sc f UNWEIGHTED_CYCLES (fun s t => heavy (wgt t) && Z.eqb (nth s sc 0%Z) (nth (ns t) sc 0%Z))) as [A B]; auto. split.
      + intros H s t Ht Hr. rewrite B in H. specialize (H s t Ht).
        destruct (plain_dec L (wgt t)) as [P|P]; auto. apply heavy_spec in P; auto. rewrite P in H. simpl in H.
        apply Z.eqb_neq in H. exfalso. apply H. apply Hu; eauto using trs_of_in. split; auto. eapply reach_step; eauto. constructor.
      + intros H. apply A in H as (s & t & Ht & H). apply andb_true_iff in H as [P H]. apply heavy_spec in P; auto.
        apply Z.eqb_eq in H. apply Hu in H; eauto using trs_of_in. destruct H. exists s, t. auto.
  Qed.
End G.
