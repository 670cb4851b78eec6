(** * C65. The property bits of a composition are true. *)
From Coq Require Import List Arith NArith Bool Lia Sorted.
From Verif Require Import Base.Util Base.Semiring Base.Machine Base.PropSpec Base.Instances
  Model.Props Model.AlgoProps Model.VectorFst Model.Matchers Model.BiMap Model.Lazy Model.History Model.Visitors Model.Compose
  Proofs.PropsFacts Proofs.VectorProps Proofs.VectorFacts Proofs.TrOpsFacts Proofs.HistoryFacts Proofs.OpFacts Proofs.ConnectFacts
  Proofs.BiMapFacts Proofs.LazyFacts Proofs.TableFacts Proofs.TableReach Proofs.RmEpsFacts Proofs.ClosedB Proofs.ComposeFacts.
From Verif Require Import Props.C01 Props.C03 Props.C04 Props.C06 Props.C14 Props.C19 Props.C20 Props.C43 Props.C61 Props.C62.
Import ListNotations.

(** ** Lists *)
Lemma NoDup_flat {A B} (h : A -> list B) l : NoDup l -> (forall a, In a l -> NoDup (h a)) ->
  (forall a b x, In a l -> In b l -> In x (h a) -> In x (h b) -> a = b) -> NoDup (flat_map h l).
Proof.
  induction 1 as [|a l Ha ND IH]; intros H1 H2; cbn; [constructor|].
  assert (N1 : NoDup (flat_map h l)) by (apply IH; [intros; apply H1; right; auto|intros; eapply H2; try (right; eassumption); eauto]).
  assert (D : forall x, In x (h a) -> ~ In x (flat_map h l)).
  { intros x Hx Hy. apply in_flat_map in Hy as (b & Hb & Hy). apply Ha. rewrite (H2 a b x); cbn; auto. }
  pose proof (H1 a (or_introl eq_refl)) as N0. revert N0 D. induction (h a) as [|x k IHk]; cbn; auto. intros N0 D. inversion N0; subst. constructor.
  - rewrite in_app_iff. intros [X|X]; [auto|]. apply (D x); cbn; auto.
  - apply IHk; auto; intros y Hy; apply D; cbn; auto.
Qed.
Lemma NoDup_join {A} (l l' : list A) : NoDup l -> NoDup l' -> (forall x, In x l -> In x l' -> False) -> NoDup (l ++ l').
Proof.
  induction 1 as [|a l Ha ND IH]; cbn; auto. intros N' D. constructor.
  - rewrite in_app_iff. intros [X|X]; [auto|]. apply (D a); auto.
  - apply IH; auto. intros x Hx. apply D. auto.
Qed.
Lemma NoDup_of_map {A B} (f : A -> B) l : NoDup (map f l) -> NoDup l.
Proof. induction l as [|a l IH]; cbn; [constructor|]. inversion 1; subst. constructor; auto. intros X. apply H2. apply in_map; auto. Qed.
Lemma NoDup_map_eq {A B} (f : A -> B) l a b : NoDup (map f l) -> In a l -> In b l -> f a = f b -> a = b.
Proof.
  induction l as [|x l IH]; cbn; [tauto|]. inversion 1; subst. intros [->|Ha] [->|Hb] E; auto.
  - exfalso. apply H2. rewrite E. apply in_map; auto.
  - exfalso. apply H2. rewrite <- E. apply in_map; auto.
Qed.
Lemma map_flat {A B C} (g : B -> C) (h : A -> list B) l : map g (flat_map h l) = flat_map (fun a => map g (h a)) l.
Proof. induction l as [|a l IH]; cbn; auto. rewrite map_app, IH. auto. Qed.
Lemma NoDup_keys {A B} (k : A -> nat) (h : A -> list B) (g : B -> nat) l : NoDup (map k l) ->
  (forall a, In a l -> length (h a) <= 1 /\ forall b, In b (h a) -> g b = k a) -> NoDup (map g (flat_map h l)).
Proof.
  intros ND H. rewrite map_flat. apply NoDup_flat; [eapply NoDup_of_map; eauto| |].
  - intros a Ha. destruct (H a Ha) as [X _]. destruct (h a) as [|b [|]]; cbn in *; [constructor|repeat constructor; tauto|lia].
  - intros a b x Ha Hb Xa Xb. apply in_map_iff in Xa as (u & <- & Ua). apply in_map_iff in Xb as (v & E & Ub).
    apply (NoDup_map_eq k l); auto. destruct (H a Ha) as [_ Pa]. destruct (H b Hb) as [_ Pb]. rewrite <- (Pa u Ua), <- (Pb v Ub). auto.
Qed.
Lemma NoDup_sub {A} (p : A -> bool) (f : A -> nat) l : NoDup (map f l) -> NoDup (map f (filter p l)).
Proof.
  induction l as [|a l IH]; cbn; auto. inversion 1; subst. destruct (p a); cbn; auto. constructor; auto.
  intros X. apply H2. apply in_map_iff in X as (b & E & Hb). apply filter_In in Hb as [Hb _]. rewrite <- E. apply in_map; auto.
Qed.

Section Bits.
  Context {K : SR} (L : lsr_laws K).
  Context (flt : cfilter) (mt : mtype) (f1 f2 : vfst K).
  Context (C1 : cnt f1) (C2 : cnt f2) (D1 : closed f1) (D2 : closed f2) (MT : mt_ok mt f1 f2).
  Context (S1 : fsound f1) (S2 : fsound f2).

  (** A move takes a transition of one machine or of both. *)
  Definition kind (s1 s2 : nat) (u : ttr K ctuple) : Prop :=
    (exists t1 fs, In t1 (trs_of f1 s1) /\ ol t1 = 0 /\ ti u = il t1 /\ to u = 0 /\ tn u = (fs, ns t1, s2)) \/
    (exists t2 fs, In t2 (trs_of f2 s2) /\ il t2 = 0 /\ ti u = 0 /\ to u = ol t2 /\ tn u = (fs, s1, ns t2)) \/
    (exists t1 t2 fs, In t1 (trs_of f1 s1) /\ In t2 (trs_of f2 s2) /\ ol t1 = il t2 /\ ti u = il t1 /\ to u = ol t2 /\ tn u = (fs, ns t1, ns t2)).

  Lemma opt_in {A B} (o : option A) (g : A -> B) x : In x (opt_list o g) -> exists a, x = g a.
  Proof. destruct o; cbn; [intros [<-|[]]; eauto|tauto]. Qed.
  Lemma opt_len {A B} (o : option A) (g : A -> B) : length (opt_list o g) <= 1.
  Proof. destruct o; cbn; lia. Qed.

  Lemma kinds e s1 s2 u : In u (moves_in flt e f1 f2 s1 s2) \/ In u (moves_out flt e f1 f2 s1 s2) -> kind s1 s2 u.
  Proof.
    unfold moves_in, moves_out. rewrite !in_app_iff, !in_flat_map. intros [[(t & Ht & Hu)|(t & Ht & Hu)]|[(t & Ht & Hu)|(t & Ht & Hu)]].
    - apply filter_In in Ht as [Ht E]. apply Nat.eqb_eq in E. apply opt_in in Hu as (fs & ->). right; left. exists t, fs. cbn; auto.
    - rewrite in_app_iff in Hu. destruct Hu as [Hu|Hu].
      + destruct (oeps t) eqn:E; [|destruct Hu]. apply Nat.eqb_eq in E. apply opt_in in Hu as (fs & ->). left. exists t, fs. cbn; auto.
      + apply in_flat_map in Hu as (t2 & H2 & Hu). apply filter_In in H2 as [H2 E]. apply Nat.eqb_eq in E. apply opt_in in Hu as (fs & ->).
        right; right. exists t, t2, fs. cbn. auto 10.
    - apply filter_In in Ht as [Ht E]. apply Nat.eqb_eq in E. apply opt_in in Hu as (fs & ->). left. exists t, fs. cbn; auto.
    - rewrite in_app_iff in Hu. destruct Hu as [Hu|Hu].
      + destruct (ieps t) eqn:E; [|destruct Hu]. apply Nat.eqb_eq in E. apply opt_in in Hu as (fs & ->). right; left. exists t, fs. cbn; auto.
      + apply in_flat_map in Hu as (t1 & H1 & Hu). apply filter_In in H1 as [H1 E]. apply Nat.eqb_eq in E. apply opt_in in Hu as (fs & ->).
        right; right. exists t1, t, fs. cbn. auto 10.
  Qed.

  (** With a second machine that reads a label with every transition, two moves reading the same label are the same. *)
  Lemma moves_det e s1 s2 : (forall t, In t (trs_of f2 s2) -> il t <> 0) -> NoDup (map il (trs_of f1 s1)) -> NoDup (map il (trs_of f2 s2)) ->
    NoDup (map ti (moves_in flt e f1 f2 s1 s2)) /\ NoDup (map ti (moves_out flt e f1 f2 s1 s2)).
  Proof.
    intros NE N1 N2.
    assert (F : filter ieps (trs_of f2 s2) = []).
    { destruct (filter ieps (trs_of f2 s2)) as [|t l] eqn:X; auto. assert (Y : In t (filter ieps (trs_of f2 s2))) by (rewrite X; left; auto).
      apply filter_In in Y as [Y Z]. apply Nat.eqb_eq in Z. destruct (NE t Y Z). }
    assert (IE : forall t, In t (trs_of f2 s2) -> ieps t = false) by (intros t Ht; apply Nat.eqb_neq; auto).
    split.
    - unfold moves_in. rewrite F. cbn [flat_map app]. apply (NoDup_keys il); auto. intros t1 Ht. split.
      + rewrite app_length.
        assert (Q : length (flat_map (bmove flt e t1) (filter (fun t2 => il t2 =? ol t1) (trs_of f2 s2))) <= 1 /\
          (ol t1 = 0 -> filter (fun t2 => il t2 =? ol t1) (trs_of f2 s2) = [])).
        { split.
          - revert N2. clear. induction (trs_of f2 s2) as [|t l IH]; cbn; [lia|]. inversion 1; subst. destruct (Nat.eqb_spec (il t) (ol t1)) as [Et|Et]; auto.
            cbn. rewrite app_length. assert (filter (fun t2 => il t2 =? ol t1) l = []) as ->.
            { destruct (filter (fun t2 => il t2 =? ol t1) l) as [|x k] eqn:X; auto. assert (Y : In x (filter (fun t2 => il t2 =? ol t1) l)) by (rewrite X; left; auto).
              apply filter_In in Y as [Y Z]. apply Nat.eqb_eq in Z. destruct H1. rewrite Et, <- Z. apply in_map; auto. }
            cbn [flat_map length]. rewrite Nat.add_0_r. apply opt_len.
          - intros E0. rewrite E0. exact F. }
        destruct Q as [Q1 Q2]. unfold oeps. destruct (Nat.eqb_spec (ol t1) 0) as [E0|E0]; [|exact Q1]. rewrite (Q2 E0). cbn [flat_map length]. rewrite Nat.add_0_r. apply opt_len.
      + intros u Hu. rewrite in_app_iff in Hu. destruct Hu as [Hu|Hu].
        * destruct (oeps t1); [|destruct Hu]. apply opt_in in Hu as (fs & ->). reflexivity.
        * apply in_flat_map in Hu as (t2 & _ & Hu). apply opt_in in Hu as (fs & ->). reflexivity.
    - unfold moves_out. rewrite map_app. apply NoDup_join.
      + apply (NoDup_keys il); [apply NoDup_sub; auto|]. intros t _. split; [apply opt_len|]. intros u Hu. apply opt_in in Hu as (fs & ->). reflexivity.
      + rewrite map_flat. apply NoDup_flat; [eapply NoDup_of_map; eauto| |].
        * intros t2 Ht. rewrite (IE t2 Ht). cbn [app]. apply (NoDup_keys il); [apply NoDup_sub; auto|]. intros t _. split; [apply opt_len|].
          intros u Hu. apply opt_in in Hu as (fs & ->). reflexivity.
        * intros a b x Ha Hb Xa Xb. rewrite (IE a Ha) in Xa. rewrite (IE b Hb) in Xb. cbn [app] in *.
          assert (G : forall c, In x (map ti (flat_map (fun t1 => bmove flt e t1 c) (filter (fun t1 => ol t1 =? il c) (trs_of f1 s1)))) ->
            exists t, In t (trs_of f1 s1) /\ il t = x /\ ol t = il c).
          { intros c Hc. apply in_map_iff in Hc as (u & Eu & Hc). apply in_flat_map in Hc as (t & Ht & Hc). apply filter_In in Ht as [Ht Et]. apply Nat.eqb_eq in Et.
            apply opt_in in Hc as (fs & ->). exists t. auto. }
          destruct (G a Xa) as (ta & A1 & A2 & A3). destruct (G b Xb) as (tb & E1 & E2 & E3). assert (ta = tb) as -> by (apply (NoDup_map_eq il (trs_of f1 s1)); auto; congruence).
          apply (NoDup_map_eq il (trs_of f2 s2)); auto. congruence.
      + intros x Xa Xb. apply in_map_iff in Xa as (u & Eu & Xa). apply in_flat_map in Xa as (t & Ht & Xa). apply filter_In in Ht as [Ht Et]. apply Nat.eqb_eq in Et.
        apply opt_in in Xa as (fs & ->). cbn in Eu. apply in_map_iff in Xb as (v & Ev & Xb). apply in_flat_map in Xb as (t2 & H2 & Xb). rewrite (IE t2 H2) in Xb. cbn [app] in Xb.
        apply in_flat_map in Xb as (t1 & H1 & Xb). apply filter_In in H1 as [H1 E1]. apply Nat.eqb_eq in E1. apply opt_in in Xb as (fs' & ->). cbn in Ev.
        assert (t = t1) as -> by (apply (NoDup_map_eq il (trs_of f1 s1)); auto; congruence). apply (NE t2 H2). congruence.
  Qed.

  (** ** The machine built *)
  Notation cS := (ccompute_start f1 f2).
  Notation cT := (ccompute_trs flt mt f1 f2).
  Notation cF := (ccompute_final flt f1 f2).
  Context {C : Type} (z : bimap ctuple * C) (g : vfst K).
  Context (BU : built (tS cS) (tT cT) (tF cF) g z) (MI : tI ctuple_eqb (met cS cT) (fst z)) (LA : vstart g <> None -> accessible (mach g) (pred (num_states g))).
  Notation tup i := (nth_error (id_to_tuple (fst z)) i).

  Lemma all_accessible s : s < num_states g -> accessible (mach g) s.
  Proof.
    intros Hs. destruct (vstart g) as [s0|] eqn:S.
    - assert (X : vstart g <> None) by congruence. rewrite <- S in LA. apply (built_all ctuple_eqb cS cT cF z g BU MI X (LA X)); auto.
    - destruct BU as (_ & _ & B). rewrite S in B. unfold num_states in Hs. rewrite (proj1 B) in Hs. cbn in Hs. lia.
  Qed.
  Lemma has_trs s v : In v (trs_of g s) -> accessible (mach g) s.
  Proof. intros Hv. apply all_accessible. eapply trs_of_in; eauto. Qed.

  Lemma met_valid t : met cS cT t -> valid f1 f2 t.
  Proof.
    induction 1 as [t E|t l u M IH E Hu]; [eapply cstart_valid; eauto|eapply (ctrs_valid f1 f2 flt C1 C2 D1 D2 mt MT); eauto].
  Qed.
  (** What a state of the result stands for. *)
  Lemma state s : accessible (mach g) s -> exists fs s1 s2 l, tup s = Some (fs, s1, s2) /\
    Forall2 (same_tr (fst z)) (trs_of g s) l /\
    (l = moves_in flt (env flt f1 f2 fs s1 s2) f1 f2 s1 s2 \/ l = moves_out flt (env flt f1 f2 fs s1 s2) f1 f2 s1 s2).
  Proof.
    intros A. destruct (met_tuple ctuple_eqb cS cT cF z g BU s A MI) as ([[fs s1] s2] & N & M).
    destruct (met_valid _ M) as (_ & V1 & V2). cbn [fst snd] in V1, V2. destruct BU as (_ & _ & B). destruct A as (s0 & E0 & R).
    assert (A : accessible (mach g) s) by (exists s0; auto). cbn in E0. rewrite E0 in B. destruct B as (_ & _ & BA & _).
    destruct (BA s A) as ((t & l & N' & El & F) & _). assert (t = (fs, s1, s2)) as -> by congruence.
    exists fs, s1, s2, l. split; auto. split; auto.
    destruct (ctrs_eq flt mt f1 f2 fs s1 s2 C1 C2 MT V1 V2) as [X|X]; rewrite X in El; injection El as <-; auto.
  Qed.

  (** The transitions of the result, read through the table. *)
  Lemma step s v : In v (trs_of g s) -> exists fs s1 s2 u, tup s = Some (fs, s1, s2) /\ tup (ns v) = Some (tn u) /\ il v = ti u /\ ol v = to u /\ kind s1 s2 u.
  Proof.
    intros Hv. destruct (state s (has_trs s v Hv)) as (fs & s1 & s2 & l & N & F & El).
    destruct (Forall2_in_l _ _ _ _ F Hv) as (u & Hu & (E1 & E2 & _ & E3)). exists fs, s1, s2, u. repeat (split; [assumption|]).
    apply (kinds (env flt f1 f2 fs s1 s2)). destruct El as [->| ->]; auto.
  Qed.

  Lemma reach_project a b : reach (mach g) a b -> forall fa a1 a2, tup a = Some (fa, a1, a2) ->
    exists fb b1 b2, tup b = Some (fb, b1, b2) /\ reach (mach f1) a1 b1 /\ reach (mach f2) a2 b2.
  Proof.
    induction 1 as [a|a t b Ht R IH]; intros fa a1 a2 Na.
    - exists fa, a1, a2. split; auto. split; apply reach_refl.
    - destruct (step a t Ht) as (fs & s1 & s2 & u & N & Nu & _ & _ & Ku). assert (X : (fs, s1, s2) = (fa, a1, a2)) by congruence. injection X as -> -> ->.
      assert (G : exists fs' q1 q2, tn u = (fs', q1, q2) /\ reach (mach f1) a1 q1 /\ reach (mach f2) a2 q2).
      { destruct Ku as [(t1 & fs' & H1 & _ & _ & _ & E)|[(t2 & fs' & H2 & _ & _ & _ & E)|(t1 & t2 & fs' & H1 & H2 & _ & _ & _ & E)]].
        - exists fs', (ns t1), a2. split; auto. split; [|apply reach_refl]. eapply reach_step; [exact H1|apply reach_refl].
        - exists fs', a1, (ns t2). split; auto. split; [apply reach_refl|]. eapply reach_step; [exact H2|apply reach_refl].
        - exists fs', (ns t1), (ns t2). split; auto. split; (eapply reach_step; [eassumption|apply reach_refl]). }
      destruct G as (fs' & q1 & q2 & E & R1 & R2). rewrite E in Nu. destruct (IH _ _ _ Nu) as (fb & b1 & b2 & Nb & R3 & R4).
      exists fb, b1, b2. split; auto. split; eapply reach_trans; eauto.
  Qed.
  Lemma cycle_project s fs s1 s2 : on_cycle (mach g) s -> tup s = Some (fs, s1, s2) -> on_cycle (mach f1) s1 \/ on_cycle (mach f2) s2.
  Proof.
    intros (t & Ht & R) N. destruct (step s t Ht) as (fs0 & q1 & q2 & u & N' & Nu & _ & _ & Ku). assert (X : (fs0, q1, q2) = (fs, s1, s2)) by congruence. injection X as -> -> ->.
    destruct (tn u) as [[fu u1] u2] eqn:Eu. destruct (reach_project _ _ R _ _ _ Nu) as (fb & b1 & b2 & Nb & R1 & R2).
    assert (X : (fb, b1, b2) = (fs, s1, s2)) by congruence. injection X as -> -> ->.
    destruct Ku as [(t1 & fs' & H1 & _ & _ & _ & E)|[(t2 & fs' & H2 & _ & _ & _ & E)|(t1 & t2 & fs' & H1 & H2 & _ & _ & _ & E)]]; rewrite Eu in E; injection E as -> -> ->.
    - left. exists t1. auto.
    - right. exists t2. auto.
    - left. exists t1. auto.
  Qed.

  Lemma bits_sound : sound (compose_properties (vprops f1) (vprops f2)) (num_states g) (mach g).
  Proof.
    assert (OA : has (vprops f1) ACCEPTOR = true -> has (vprops f2) ACCEPTOR = true -> holds ACCEPTOR (num_states g) (mach g)).
    { intros A1 A2 s v Hv. destruct (step s v Hv) as (fs & s1 & s2 & u & _ & _ & -> & -> & Ku). pose proof (S1 _ A1) as P1. pose proof (S2 _ A2) as P2. cbn in P1, P2.
      destruct Ku as [(t1 & fs' & H1 & E0 & -> & -> & _)|[(t2 & fs' & H2 & E0 & -> & -> & _)|(t1 & t2 & fs' & H1 & H2 & E0 & -> & -> & _)]].
      - rewrite (P1 s1 t1 H1). auto.
      - rewrite <- (P2 s2 t2 H2). auto.
      - rewrite (P1 s1 t1 H1), E0. eauto. }
    assert (OI : has (vprops f1) NO_I_EPSILONS = true -> has (vprops f2) NO_I_EPSILONS = true -> holds NO_I_EPSILONS (num_states g) (mach g)).
    { intros A1 A2 s v Hv. destruct (step s v Hv) as (fs & s1 & s2 & u & _ & _ & -> & _ & Ku). pose proof (S1 _ A1) as P1. pose proof (S2 _ A2) as P2. cbn in P1, P2.
      destruct Ku as [(t1 & fs' & H1 & E0 & -> & _)|[(t2 & fs' & H2 & E0 & -> & _)|(t1 & t2 & fs' & H1 & H2 & E0 & -> & _)]]; eauto.
      destruct (P2 s2 t2 H2 E0). }
    assert (OO : has (vprops f1) NO_O_EPSILONS = true -> has (vprops f2) NO_O_EPSILONS = true -> holds NO_O_EPSILONS (num_states g) (mach g)).
    { intros A1 A2 s v Hv. destruct (step s v Hv) as (fs & s1 & s2 & u & _ & _ & _ & -> & Ku). pose proof (S1 _ A1) as P1. pose proof (S2 _ A2) as P2. cbn in P1, P2.
      destruct Ku as [(t1 & fs' & H1 & E0 & _ & -> & _)|[(t2 & fs' & H2 & E0 & _ & -> & _)|(t1 & t2 & fs' & H1 & H2 & E0 & _ & -> & _)]]; eauto.
      destruct (P1 s1 t1 H1 E0). }
    assert (OE : has (vprops f1) ACCEPTOR = true -> has (vprops f2) ACCEPTOR = true -> has (vprops f1) NO_EPSILONS = true -> has (vprops f2) NO_EPSILONS = true ->
      holds NO_EPSILONS (num_states g) (mach g)).
    { intros A1 A2 A3 A4 s v Hv. destruct (step s v Hv) as (fs & s1 & s2 & u & _ & _ & -> & -> & Ku). pose proof (S1 _ A1) as P1. pose proof (S2 _ A2) as P2.
      pose proof (S1 _ A3) as P3. pose proof (S2 _ A4) as P4. cbn in P1, P2, P3, P4. intros [Z1 Z2].
      destruct Ku as [(t1 & fs' & H1 & E0 & E1 & E2 & _)|[(t2 & fs' & H2 & E0 & E1 & E2 & _)|(t1 & t2 & fs' & H1 & H2 & E0 & E1 & E2 & _)]].
      - apply (P3 s1 t1 H1). split; congruence.
      - apply (P4 s2 t2 H2). split; congruence.
      - apply (P3 s1 t1 H1). pose proof (P1 s1 t1 H1). split; congruence. }
    assert (OC : has (vprops f1) ACYCLIC = true -> has (vprops f2) ACYCLIC = true -> holds ACYCLIC (num_states g) (mach g)).
    { intros A1 A2 s CY. pose proof CY as (t & Ht & _). destruct (step s t Ht) as (fs & s1 & s2 & _ & N & _). destruct (cycle_project _ _ _ _ CY N) as [X|X]; [apply (S1 _ A1 _ X)|apply (S2 _ A2 _ X)]. }
    assert (ON : has (vprops f1) INITIAL_ACYCLIC = true -> has (vprops f2) INITIAL_ACYCLIC = true -> holds INITIAL_ACYCLIC (num_states g) (mach g)).
    { intros A1 A2 s St CY. cbn in St. destruct BU as (_ & _ & B). rewrite St in B. destruct B as (_ & (t0 & N0 & E0) & _). unfold ccompute_start in E0.
      destruct (vstart f1) as [s1|] eqn:V1; [|discriminate]. destruct (vstart f2) as [s2|] eqn:V2; [|discriminate]. injection E0 as <-.
      destruct (cycle_project _ _ _ _ CY N0) as [X|X]; [apply (S1 _ A1 s1 V1 X)|apply (S2 _ A2 s2 V2 X)]. }
    assert (OD : has (vprops f2) NO_I_EPSILONS = true -> holds I_DETERMINISTIC (num_states f1) (mach f1) -> holds I_DETERMINISTIC (num_states f2) (mach f2) ->
      holds I_DETERMINISTIC (num_states g) (mach g)).
    { intros A2 P1 P2 s. cbn [mach mtrs]. destruct (trs_of g s) as [|v l0] eqn:Es; [constructor|]. rewrite <- Es. assert (Hv : In v (trs_of g s)) by (rewrite Es; left; auto).
      destruct (state s (has_trs s v Hv)) as (fs & s1 & s2 & l & _ & F & El).
      assert (Em : map il (trs_of g s) = map ti l) by (clear - F; induction F as [|a b x y (E & _)]; cbn; congruence). rewrite Em.
      destruct (moves_det (env flt f1 f2 fs s1 s2) s1 s2) as [Q1 Q2]; [intros t; apply (S2 _ A2)|apply P1|apply P2|]. destruct El as [->| ->]; auto. }
    assert (OK : holds ACCESSIBLE (num_states g) (mach g)) by (intros s; apply all_accessible).
    intros b Hb. unfold compose_properties in Hb. destruct (has (vprops f1) ACCEPTOR && has (vprops f2) ACCEPTOR) eqn:AA.
    - apply andb_true_iff in AA as [A1 A2]. unfold copyif in Hb.
      assert (IA : forall f : vfst K, fsound f -> has (vprops f) ACCEPTOR = true -> has (vprops f) O_DETERMINISTIC = true -> holds I_DETERMINISTIC (num_states f) (mach f)).
      { intros f S A O s. pose proof (S _ O s) as X. cbn in X. cbn. assert (map il (trs_of f s) = map ol (trs_of f s)) as ->; auto. apply map_ext_in. intros t. apply (S _ A). }
      destruct (has (vprops f1) NO_I_EPSILONS && has (vprops f2) NO_I_EPSILONS) eqn:NE; repeat rewrite ?has_lor, ?has_pkeep, ?has_land, ?has_mask in Hb.
      + apply andb_true_iff in NE as [E1 E2]. destruct b; cbn in Hb; rewrite ?andb_false_r, ?andb_true_r, ?orb_false_r, ?orb_false_l in Hb; try discriminate;
          try (apply andb_true_iff in Hb as [X Y]); auto.
        intros s. pose proof (OD E2 (IA f1 S1 A1 X) (IA f2 S2 A2 Y) s) as Z. cbn in Z. cbn. assert (map ol (trs_of g s) = map il (trs_of g s)) as ->; auto.
        apply map_ext_in. intros t Ht. symmetry. apply (OA A1 A2 s t Ht).
      + destruct b; cbn in Hb; rewrite ?andb_false_r, ?andb_true_r, ?orb_false_r, ?orb_false_l in Hb; try discriminate;
          try (apply andb_true_iff in Hb as [X Y]); auto.
    - unfold copyif in Hb.
      destruct (has (vprops f1) NO_I_EPSILONS && has (vprops f2) NO_I_EPSILONS) eqn:NE; repeat rewrite ?has_lor, ?has_pkeep, ?has_land, ?has_mask in Hb.
      + apply andb_true_iff in NE as [E1 E2]. destruct b; cbn in Hb; rewrite ?andb_false_r, ?andb_true_r, ?orb_false_r, ?orb_false_l in Hb; try discriminate;
          try (apply andb_true_iff in Hb as [X Y]); auto.
      + destruct b; cbn in Hb; rewrite ?andb_false_r, ?andb_true_r, ?orb_false_r, ?orb_false_l in Hb; try discriminate;
          try (apply andb_true_iff in Hb as [X Y]); auto.
  Qed.
End Bits.

Section Main.
  Context {K : SR} (L : lsr_laws K).

  (** Composition without the final [connect]: what is in the table, and the word of bits. *)
  Lemma compute_bits flt mt fuel (f1 f2 : vfst K) i o g z : closed f1 -> closed f2 -> cnt f1 -> cnt f2 -> fsound f1 -> fsound f2 -> mt_ok mt f1 f2 ->
    compute (compose_op flt mt f1 f2) vec_cache_ops fuel i o (bm_new, vec_cache_new) = Some (Ok (g, z)) ->
    cnt g /\ closed g /\ fsound g /\ (forall s, s < num_states g -> accessible (mach g) s) /\
    (vstart g <> None -> vprops g = compose_properties (vprops f1) (vprops f2)) /\ (vstart g = None -> ccompute_start f1 f2 = Ok None).
  Proof.
    intros D1 D2 C1 C2 S1 S2 MT E.
    pose proof (table_spec2 ctuple_eqb (ctuple_eqb_spec) (ccompute_start f1 f2) (ccompute_trs flt mt f1 f2) (ccompute_final flt f1 f2)
      (compose_properties (vprops f1) (vprops f2))) as SP. fold (compose_op flt mt f1 f2) in SP.
    destruct (compute_ok (compose_op flt mt f1 f2) vec_cache_ops vec_inv _ _ _ _ _ vec_cache_laws SP fuel i o _ g z
      (zok_empty _ _ _ _ _ _ _ _ (tI2_new _ _ _) vec_cache_empty) E) as (Z & _ & BU & SY).
    destruct Z as ((Z1 & Z2) & _).
    pose proof (all_accessible flt mt f1 f2 z g BU Z1 (fun H => proj2 (proj2 (proj2 (SY H))))) as AL.
    pose proof BU as (Cg & Dg & BS). split; auto. split; auto. split; [|split; auto].
    - destruct (vstart g) as [s|] eqn:St.
      + destruct (SY ltac:(congruence)) as (_ & _ & P & LA). unfold fsound. rewrite P. apply (bits_sound flt mt f1 f2 C1 C2 D1 D2 MT S1 S2 z g BU Z1 (fun _ => LA)).
      + destruct BS as [_ X]. cbn in X. unfold compute, l_start in E. cbn in E. rewrite X in E. cbn in E. injection E as <- _. apply fsound_new.
    - split; [intros H; apply (SY H)|]. intros H. rewrite H in BS. apply BS.
  Qed.

  (** Whatever the filter, with or without the final [connect]: every bit of the result is true. *)
  Theorem C65_compose_bits : forall (f1 f2 : vfst K) flt conn fuel g, closed f1 -> closed f2 -> cnt f1 -> cnt f2 ->
    sound (vprops f1) (num_states f1) (mach f1) -> sound (vprops f2) (num_states f2) (mach f2) ->
    compose_with flt conn fuel f1 f2 = Some (Ok g) ->
    sound (vprops g) (num_states g) (mach g) /\ (forall s, s < num_states g -> accessible (mach g) s).
  Proof.
    intros f1 f2 flt conn fuel g D1 D2 C1 C2 S1 S2. unfold compose_with. destruct (compose_match_type f1 f2) as [mt| |] eqn:EM; try discriminate.
    pose proof (match_type_ok f1 f2 mt S1 S2 EM) as MT.
    destruct (compute _ _ _ _ _ _) as [[[h z]| |]|] eqn:E; try discriminate. intros [= X].
    destruct (compute_bits _ _ _ _ _ _ _ _ _ D1 D2 C1 C2 S1 S2 MT E) as (Ch & Dh & Sh & Ah & _). destruct conn.
    - split; [exact (connect_fsound L h g Dh Ch X Sh)|]. destruct (connect_rel L h Ch Dh) as (g' & Eg & _ & U). rewrite X in Eg. injection Eg as <-. intros s Hs. apply U; auto.
    - injection X as <-. auto.
  Qed.

  (** And which bits are known: those the two machines share, under the conditions shown. *)
  Theorem C65_compose_known : forall (f1 f2 : vfst K) flt fuel g, closed f1 -> closed f2 -> cnt f1 -> cnt f2 ->
    sound (vprops f1) (num_states f1) (mach f1) -> sound (vprops f2) (num_states f2) (mach f2) ->
    compose_with flt false fuel f1 f2 = Some (Ok g) -> vstart f1 <> None -> vstart f2 <> None ->
    let both b := has (vprops f1) b && has (vprops f2) b in
    forall b, has (vprops g) b =
      match b with
      | ACCESSIBLE => true
      | ACCEPTOR | NO_I_EPSILONS | ACYCLIC | INITIAL_ACYCLIC => both b
      | NO_EPSILONS | NO_O_EPSILONS => both ACCEPTOR && both b
      | I_DETERMINISTIC => both NO_I_EPSILONS && both b
      | O_DETERMINISTIC => both ACCEPTOR && both NO_I_EPSILONS && both b
      | _ => false
      end.
  Proof.
    intros f1 f2 flt fuel g D1 D2 C1 C2 S1 S2. unfold compose_with. destruct (compose_match_type f1 f2) as [mt| |] eqn:EM; try discriminate.
    pose proof (match_type_ok f1 f2 mt S1 S2 EM) as MT.
    destruct (compute _ _ _ _ _ _) as [[[h z]| |]|] eqn:E; try discriminate. intros [= <-] N1 N2.
    destruct (compute_bits _ _ _ _ _ _ _ _ _ D1 D2 C1 C2 S1 S2 MT E) as (Ch & Dh & Sh & Ah & P & Q).
    assert (N : vstart h <> None).
    { intros N. specialize (Q N). unfold ccompute_start in Q. destruct (vstart f1); [|congruence]. destruct (vstart f2); congruence. }
    cbv zeta. intros b. rewrite (P N). unfold compose_properties, copyif.
    destruct (has (vprops f1) ACCEPTOR) eqn:A1, (has (vprops f2) ACCEPTOR) eqn:A2, (has (vprops f1) NO_I_EPSILONS) eqn:I1, (has (vprops f2) NO_I_EPSILONS) eqn:I2; cbn [andb];
      destruct b; repeat rewrite ?has_lor, ?has_pkeep, ?has_land, ?has_mask; cbn; rewrite ?A1, ?A2, ?I1, ?I2, ?andb_false_r, ?andb_true_r, ?orb_false_r; reflexivity.
  Qed.
End Main.
Print Assumptions C65_compose_bits.
Print Assumptions C65_compose_known.

(** Two deterministic acyclic acceptors, the second with a branch that the first does not take. *)
Definition c65_1 : list (op natSR) := [OAddStates 3; OSetStart 0; OSetFinal 2 (3 : natSR); OAddTr 0 (Tr 1 1 (2 : natSR) 1); OAddTr 0 (Tr 2 2 (1 : natSR) 2);
  OAddTr 1 (Tr 1 1 (7 : natSR) 2)].
Definition c65_2 : list (op natSR) := [OAddStates 3; OSetStart 0; OSetFinal 2 (1 : natSR); OAddTr 0 (Tr 1 1 (3 : natSR) 1); OAddTr 1 (Tr 1 1 (2 : natSR) 2);
  OAddTr 1 (Tr 4 4 (2 : natSR) 2)].
Definition c65_of (l : list (op natSR)) : vfst natSR := match run vnew l with Ok f => f | _ => vnew end.
Lemma c65_ok l f : run vnew l = Ok f -> bits_ok_run vnew l -> closed f -> vstart f <> None ->
  forallb (fun st => match vfin st with Some w => negb (Nat.eqb w 0) | None => true end) (vstates f) = true ->
  closed (with_bits f) /\ cnt (with_bits f) /\ fsound (with_bits f).
Proof.
  intros E B C N Z. assert (NZ : no_zero_final f).
  { intros s w Hw ->. unfold fin_of in Hw. destruct (nth_error (vstates f) s) as [st|] eqn:X; [|discriminate].
    rewrite forallb_forall in Z. specialize (Z st (nth_error_In _ _ X)). rewrite Hw in Z. discriminate. }
  destruct (with_bits_ok natSR_laws f C) as [C' S']; auto; [eapply (run_fsound natSR_laws); [apply fsound_new| |exact E]; exact B|].
  split; auto. split; auto. apply with_bits_cnt. refine (run_cnt natSR_laws l vnew f _ E). constructor.
Qed.
Example C65_witness : let f1 := with_bits (c65_of c65_1) in let f2 := with_bits (c65_of c65_2) in
  exists g, closed f1 /\ closed f2 /\ cnt f1 /\ cnt f2 /\ fsound f1 /\ fsound f2 /\ vstart f1 <> None /\ vstart f2 <> None /\
  compose_with SequenceF false 20 f1 f2 = Some (Ok g) /\ num_states g = 3 /\
  forallb (has (vprops g)) [ACCEPTOR; ACCESSIBLE; NO_EPSILONS; NO_I_EPSILONS; NO_O_EPSILONS; I_DETERMINISTIC; O_DETERMINISTIC; ACYCLIC; INITIAL_ACYCLIC] = true.
Proof.
  intros f1 f2. destruct (c65_ok c65_1 (c65_of c65_1)) as (A1 & A2 & A3); [vm_compute; reflexivity|vm_compute; tauto|apply closedb_ok; vm_compute; reflexivity|vm_compute; discriminate|vm_compute; reflexivity|].
  destruct (c65_ok c65_2 (c65_of c65_2)) as (B1 & B2 & B3); [vm_compute; reflexivity|vm_compute; tauto|apply closedb_ok; vm_compute; reflexivity|vm_compute; discriminate|vm_compute; reflexivity|].
  eexists. do 6 (split; [assumption|]). split; [vm_compute; discriminate|]. split; [vm_compute; discriminate|].
  split; [vm_compute; reflexivity|]. split; vm_compute; reflexivity.
Qed.
