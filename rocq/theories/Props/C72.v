(** C72: looking one transition ahead changes no weight of a composition, whatever the filter. *)
From Coq Require Import List Arith NArith ZArith Bool Lia Sorted.
From Verif Require Import Base.Util Base.Semiring Base.Machine Base.PropSpec Base.Instances Base.TropZ
  Model.Props Model.VectorFst Model.TrOps Model.History Model.Rational Model.Matchers
  Model.BiMap Model.Lazy Model.Compose Model.LookAhead Model.TrLookAhead
  Proofs.PropsFacts Proofs.VectorFacts Proofs.HistoryFacts Proofs.TrOpsFacts Proofs.OpFacts Proofs.VectorProps Proofs.TableFacts Proofs.ComposeFacts
  Proofs.LookFacts Proofs.LookAlt Proofs.LookBuild Proofs.ClosedB
  Props.C06 Props.C19 Props.C20 Props.C71.
Import ListNotations.
Local Open Scope K_scope.

Section C72.
  Context {K : SR} (L : lsr_laws K) (comm : commutative_times K).
  Implicit Types (f g : vfst K).

  (** The matcher that looks ahead: the first machine's on output, or the second one's on input. *)
  Definition looks (out : bool) f1 f2 : Prop :=
    if out then sm_match_type f1 MOutput false = Ok MOutput else sm_match_type f2 MInput false = Ok MInput.
  Definition onward (out : bool) f1 f2 (s1 s2 : nat) : Prop :=
    if out then way_on MOutput f1 s1 f2 s2 else way_on MInput f2 s2 f1 s1.

  Section One.
    Context (f1 f2 : vfst K) (mt : mtype) (flt : cfilter) (out : bool) (fl : laflags).
    Context (C1 : cnt f1) (C2 : cnt f2) (D1 : closed f1) (D2 : closed f2) (B1 : bits_true f1) (B2 : bits_true f2).
    Context (M : mt_ok mt f1 f2) (LK : looks out f1 f2).
    Notation BF := (base_cf flt f1 f2).
    Notation TF := (tla_cf out fl f1 f2 BF).
    Notation ev fs s1 s2 := (env flt f1 f2 fs s1 s2).

    Lemma onward_spec s1 s2 : onward out f1 f2 s1 s2 <->
      (exists a b, fin_of f1 s1 = Some a /\ fin_of f2 s2 = Some b) \/
      (exists t, In t (trs_of f1 s1) /\ ol t = O) \/ (exists t, In t (trs_of f2 s2) /\ il t = O) \/
      (exists t u, In t (trs_of f1 s1) /\ In u (trs_of f2 s2) /\ ol t = il u).
    Proof.
      unfold onward, way_on. destruct out; cbn [here there]; split.
      - intros [H|[H|[H|(t & u & Ht & Hu & N & E)]]]; auto. right. right. right. exists u, t. auto.
      - intros [H|[H|[H|(t & u & Ht & Hu & E)]]]; auto. destruct (Nat.eq_dec (il u) 0) as [Z|N]; [right; right; left; eauto|]. right. right. right. exists u, t. auto.
      - intros [(a & b & A & B)|[H|[H|(t & u & Ht & Hu & N & E)]]]; [left; eauto|right; right; left; auto|right; left; auto|]. right. right. right. exists t, u. auto.
      - intros [(a & b & A & B)|[H|[H|(t & u & Ht & Hu & E)]]]; [left; eauto|right; right; left; auto|right; left; auto|].
        destruct (Nat.eq_dec (ol t) 0) as [Z|N]; [right; right; left; eauto|]. right. right. right. exists t, u. auto.
    Qed.

    Lemma tla_answer s1 s2 : (s1 < num_states f1)%nat -> (s2 < num_states f2)%nat ->
      exists a, (if out then tla_lookahead_fst fl f1 MOutput s1 f2 s2 else tla_lookahead_fst fl f2 MInput s2 f1 s1) = Ok a /\
        (a = None <-> ~ onward out f1 f2 s1 s2).
    Proof.
      intros H1 H2. unfold looks in LK. unfold onward. destruct out.
      - destruct (C71_lookahead_fst L fl f1 MOutput s1 f2 s2 (or_intror eq_refl) B1 LK H1 H2) as (a & E & N & _). eauto.
      - destruct (C71_lookahead_fst L fl f2 MInput s2 f1 s1 (or_introl eq_refl) B2 LK H2 H1) as (a & E & N & _). eauto.
    Qed.

    (** Nothing composes where there is no way on. *)
    Lemma dead k fs s1 s2 x z : (s1 < num_states f1)%nat -> (s2 < num_states f2)%nat -> ~ onward out f1 f2 s1 s2 ->
      G f1 f2 BF mt k (fs, s1, s2) x z = 0.
    Proof.
      intros H1 H2 N. rewrite onward_spec in N.
      assert (Ep : pairs mt f1 f2 s1 s2 = []).
      { destruct (pairs mt f1 f2 s1 s2) as [|p r] eqn:E; auto. exfalso. apply N.
        assert (Hp : In p (pairs mt f1 f2 s1 s2)) by (rewrite E; left; auto). apply pairs_kind in Hp as [(t & A & B & _)|[(t & A & B & _)|(t & u & A & B & C & _)]].
        - right. left. eauto.
        - right. right. left. eauto.
        - right. right. right. exists t, u. auto. }
      unfold G. destruct k as [|k]; cbn [gwt].
      - unfold fin_at, gcompute_final. rewrite !final_in by auto. cbn [rbind].
        destruct (fin_of f1 s1) as [a|] eqn:E1; [|destruct x, z; auto]. destruct (fin_of f2 s2) as [b|] eqn:E2; [|destruct x, z; auto].
        exfalso. apply N. left. eauto.
      - unfold trs_at. rewrite (gtrs_eq BF mt f1 f2 fs s1 s2 (ev fs s1 s2)); auto; [|apply set_state_eq; auto]. rewrite Ep. reflexivity.
    Qed.

    Lemma next_ok s1 s2 p : (s1 < num_states f1)%nat -> (s2 < num_states f2)%nat -> pair_kind f1 f2 s1 s2 p ->
      (exists i o, qil (fst p) = Lab i /\ qol (snd p) = Lab o) /\ (qns (fst p) < num_states f1)%nat /\ (qns (snd p) < num_states f2)%nat.
    Proof.
      intros H1 H2 [(t1 & Ht & E & ->)|[(t2 & Ht & E & ->)|(t1 & t2 & Ht1 & Ht2 & E & ->)]]; cbn [fst snd qtr_of qns qil qol].
      - split; [eauto|]. split; auto. apply (proj1 D1 s1); auto.
      - split; [eauto|]. split; auto. apply (proj1 D2 s2); auto.
      - split; [eauto|]. split; [apply (proj1 D1 s1)|apply (proj1 D2 s2)]; auto.
    Qed.
    Lemma filter_lt fs s1 s2 (p : qtr K * qtr K) fs' : filter_tr flt (ev fs s1 s2) (fst p) (snd p) = Some fs' -> (fs' < 3)%nat.
    Proof.
      unfold filter_tr. destruct flt; repeat match goal with |- context [if ?b then _ else _] => destruct b end; intros [= <-]; lia.
    Qed.

    (** What looking ahead does to a pair: it passes as it is, or there is no way on. *)
    Lemma tla_cases fs s1 s2 p : (s1 < num_states f1)%nat -> (s2 < num_states f2)%nat -> pair_kind f1 f2 s1 s2 p ->
      match filter_tr flt (ev fs s1 s2) (fst p) (snd p) with
      | None => cf_filter TF (ev fs s1 s2) (fst p) (snd p) = Ok None
      | Some fs' =>
          (cf_filter TF (ev fs s1 s2) (fst p) (snd p) = Ok None /\ ~ onward out f1 f2 (qns (fst p)) (qns (snd p))) \/
          exists la, cf_filter TF (ev fs s1 s2) (fst p) (snd p) = Ok (Some (fs', fst p, snd p, la)) /\
            (fl_eps fl = true -> fl_noneps fl = true -> onward out f1 f2 (qns (fst p)) (qns (snd p)))
      end.
    Proof.
      intros H1 H2 Hp. destruct (next_ok s1 s2 p H1 H2 Hp) as (_ & N1 & N2). cbn [tla_cf cf_filter base_cf]. 
      destruct (filter_tr flt _ _ _) as [fs'|]; [|reflexivity]. cbn [rbind].
      set (la := if out then qol (fst p) else qil (snd p)).
      destruct (negb (is_eps la) && negb (fl_noneps fl)) eqn:X1.
      { right. eexists. split; [reflexivity|]. intros _ E. rewrite E in X1. rewrite andb_false_r in X1. discriminate. }
      destruct (is_eps la && negb (fl_eps fl)) eqn:X2.
      { right. eexists. split; [reflexivity|]. intros E _. rewrite E in X2. rewrite andb_false_r in X2. discriminate. }
      destruct (tla_answer (qns (fst p)) (qns (snd p)) N1 N2) as (a & -> & Na). cbn [rbind]. destruct a as [d|].
      - right. eexists. split; [reflexivity|]. intros _ _. unfold onward in *.
        assert (Dec : forall (mt' : mtype) (f lf : vfst K) ms ls, way_on mt' f ms lf ls \/ ~ way_on mt' f ms lf ls).
        { intros mt' f lf ms ls. destruct (w_end f ms lf ls) as [|? ?] eqn:Q1; [destruct (w_here mt' f ms) as [|? ?] eqn:Q2;
            [destruct (w_there mt' (trs_of lf ls)) as [|? ?] eqn:Q3; [destruct (followed_trs mt' f ms (trs_of lf ls)) as [|? ?] eqn:Q4|]|]|].
          1: right; apply no_way; auto. all: left. 
          - assert (X : In t (followed_trs mt' f ms (trs_of lf ls))) by (rewrite Q4; left; auto). unfold followed_trs in X. apply in_flat_map in X as (t' & Ht & X).
            apply in_map_iff in X as (u & _ & X). unfold partners in X. destruct (Nat.eqb_spec (there mt' t') 0); [destruct X|]. apply filter_In in X as [X Y]. apply Nat.eqb_eq in Y.
            right. right. right. exists t', u. auto.
          - unfold w_there in Q3. destruct (filter _ (trs_of lf ls)) as [|t r] eqn:Ef; [discriminate|]. assert (X : In t (t :: r)) by (left; auto). rewrite <- Ef in X.
            apply filter_In in X as [X Y]. apply Nat.eqb_eq in Y. right. right. left. eauto.
          - unfold w_here in Q2. destruct (filter _ (trs_of f ms)) as [|t r] eqn:Ef; [discriminate|]. assert (X : In t (t :: r)) by (left; auto). rewrite <- Ef in X.
            apply filter_In in X as [X Y]. apply Nat.eqb_eq in Y. right. left. eauto.
          - unfold w_end in Q1. destruct (fin_of f ms) eqn:E1; [|discriminate]. destruct (fin_of lf ls) eqn:E2; [|discriminate]. left. eauto. }
        destruct out; match goal with |- way_on ?m ?a ?b ?c ?d => destruct (Dec m a c b d) as [Y|Y]; auto; apply Na in Y; discriminate end.
      - left. split; auto. apply Na. auto.
    Qed.

    Lemma base_out fs s1 s2 p : (s1 < num_states f1)%nat -> (s2 < num_states f2)%nat -> pair_kind f1 f2 s1 s2 p -> exists o, gout BF (ev fs s1 s2) p = Ok o.
    Proof.
      intros H1 H2 Hp. destruct (next_ok s1 s2 p H1 H2 Hp) as ((i & o & Ei & Eo) & _). unfold gout. cbn [base_cf cf_filter rbind].
      destruct (filter_tr flt _ _ _); [|eauto]. unfold gadd_tr. rewrite Ei, Eo. cbn. eauto.
    Qed.
    Lemma tla_out fs s1 s2 p : (s1 < num_states f1)%nat -> (s2 < num_states f2)%nat -> pair_kind f1 f2 s1 s2 p ->
      exists o, gout TF (ev fs s1 s2) p = Ok o /\ forall u, o = Some u -> valid f1 f2 (tn u) /\
        (fl_eps fl = true -> fl_noneps fl = true -> onward out f1 f2 (snd (fst (tn u))) (snd (tn u))).
    Proof.
      intros H1 H2 Hp. destruct (next_ok s1 s2 p H1 H2 Hp) as ((i & o & Ei & Eo) & N1 & N2). pose proof (tla_cases fs s1 s2 p H1 H2 Hp) as X. unfold gout.
      destruct (filter_tr flt _ _ _) as [fs'|] eqn:Ef; [destruct X as [(-> & _)|(la & -> & W)]|rewrite X]; cbn [rbind].
      - eexists. split; [reflexivity|discriminate].
      - unfold gadd_tr. rewrite Ei, Eo. cbn [rbind rmap proper]. eexists. split; [reflexivity|]. intros u [= <-]. cbn. split; auto.
        split; [eapply filter_lt; eauto|]. auto.
      - eexists. split; [reflexivity|discriminate].
    Qed.
    Lemma tla_trs fs s1 s2 : (s1 < num_states f1)%nat -> (s2 < num_states f2)%nat ->
      gcompute_trs TF mt f1 f2 (fs, s1, s2) = gouts TF (ev fs s1 s2) (pairs mt f1 f2 s1 s2).
    Proof. intros H1 H2. apply gtrs_eq; auto. cbn [tla_cf cf_set base_cf]. apply set_state_eq; auto. Qed.
    Lemma tla_final t : gcompute_final TF f1 f2 t = gcompute_final BF f1 f2 t.
    Proof. reflexivity. Qed.

    Lemma tla_value k : forall fs s1 s2 x z, (s1 < num_states f1)%nat -> (s2 < num_states f2)%nat ->
      G f1 f2 TF mt k (fs, s1, s2) x z = G f1 f2 BF mt k (fs, s1, s2) x z.
    Proof.
      induction k as [|k IH]; intros fs s1 s2 x z H1 H2; [reflexivity|].
      rewrite (G_step L f1 f2 TF mt fs s1 s2 (ev fs s1 s2)); [|apply tla_trs; auto|intros p Hp; destruct (tla_out fs s1 s2 p H1 H2 Hp) as (o & E & _); eauto].
      rewrite (G_step L f1 f2 BF mt fs s1 s2 (ev fs s1 s2)); [|apply gtrs_eq; auto; apply set_state_eq; auto|intros p Hp; apply base_out; auto].
      apply ksum_map_ext. intros p Hp. apply pairs_kind in Hp. destruct (next_ok s1 s2 p H1 H2 Hp) as ((i & o & Ei & Eo) & N1 & N2).
      pose proof (tla_cases fs s1 s2 p H1 H2 Hp) as X. unfold gval, gout. cbn [base_cf cf_filter rbind].
      destruct (filter_tr flt _ _ _) as [fs'|] eqn:Ef; [destruct X as [(X & W)|(la & X & _)]|]; rewrite X; cbn [rbind]; auto.
      - unfold gadd_tr. rewrite Ei, Eo. cbn [rbind rmap proper]. unfold gterm. cbn [ti to tw tn]. destruct (strip i x); auto. destruct (strip o z); auto.
        rewrite dead by auto. symmetry. apply (ktimes_0_r _ L).
      - unfold gadd_tr. rewrite Ei, Eo. cbn [rbind rmap proper]. unfold gterm. cbn [ti to tw tn]. destruct (strip i x); auto. destruct (strip o z); auto.
        rewrite IH by auto. auto.
    Qed.
  End One.

  Definition ready2 f1 f2 : Prop := cnt f1 /\ cnt f2 /\ closed f1 /\ closed f2 /\ bits_true f1 /\ bits_true f2.

  Lemma plain_value f1 f2 flt mt fuel conn : ready2 f1 f2 -> compose_match_type f1 f2 = Ok mt -> (3 * num_states f1 * num_states f2 <= fuel)%nat ->
    exists p, compose_with flt conn fuel f1 f2 = Some (Ok p) /\
      forall k x z, both_starts f1 f2 0 (fun s1 s2 => G f1 f2 (base_cf flt f1 f2) mt k (O, s1, s2) x z) = rel (mach p) k x z.
  Proof.
    intros (C1 & C2 & D1 & D2 & B1 & B2) EM Hf. pose proof (match_type_ok f1 f2 mt B1 B2 EM) as M.
    pose proof (compose_gen L comm f1 f2 flt C1 C2 D1 D2 B1 B2 conn fuel Hf) as Y. pose proof (compose_match_known f1 f2) as SK. rewrite EM in SK.
    destruct (compose_with flt conn fuel f1 f2) as [[p| |]|]; try contradiction. destruct Y as (_ & Y & _). exists p. split; auto. intros k x z. rewrite Y.
    unfold sum_pairs, both_starts. destruct (vstart f1) as [s1|] eqn:E1; auto. destruct (vstart f2) as [s2|] eqn:E2; auto.
    unfold G. rewrite (gwt_ext _ _ _ _ (base_trs flt mt f1 f2) (base_final flt f1 f2)).
    rewrite (gwt_pairs L flt f1 f2 comm mt C1 C2 D1 D2 M k (S k) (S k)); [|lia|lia|apply D1; auto|apply D2; auto].
    rewrite (upto_sum L). apply ksum_map_ext. intros p1 _. rewrite (upto_sum L). apply ksum_map_ext. intros p2 _. reflexivity.
  Qed.

  (** The composition exists and weighs every pair of strings as the plain one over the same
      filter does. *)
  Theorem C72_lookahead :
    forall f1 f2 flt out fl props fuel mt, ready2 f1 f2 -> compose_match_type f1 f2 = Ok mt -> looks out f1 f2 ->
    (3 * num_states f1 * num_states f2 <= fuel)%nat ->
    exists g, gcompose (tla_cf out fl f1 f2 (base_cf flt f1 f2)) Nat.eqb props fuel f1 f2 = Some (Ok g) /\
      (forall conn, exists p, compose_with flt conn fuel f1 f2 = Some (Ok p) /\ forall k x z, rel (mach g) k x z = rel (mach p) k x z) /\
      (vstart f1 <> None -> vstart f2 <> None -> visymt g = visymt f1 /\ vosymt g = vosymt f2) /\ closed g.
  Proof.
    intros f1 f2 flt out fl props fuel mt (C1 & C2 & D1 & D2 & B1 & B2) EM LK Hf. pose proof (match_type_ok f1 f2 mt B1 B2 EM) as M.
    set (TF := tla_cf out fl f1 f2 (base_cf flt f1 f2)).
    destruct (gcompose_gen TF Nat.eqb Nat.eqb_spec f1 f2 mt EM (valid f1 f2)) with (univ := all_tuples f1 f2) (props := props) (fuel := fuel)
      as (g & Eg & _ & Dg & R & SY).
    - intros s1 s2 E1 E2. unfold valid. cbn. split; [lia|]. split; [apply D1; auto|apply D2; auto].
    - intros [[fs s1] s2] (Hfs & H1 & H2). cbn [fst snd] in *. unfold TF. rewrite tla_trs by auto.
      assert (X : forall p, In p (pairs mt f1 f2 s1 s2) -> exists o, gout TF (env flt f1 f2 fs s1 s2) p = Ok o /\ forall u, o = Some u -> valid f1 f2 (tn u)).
      { intros p Hp. apply pairs_kind in Hp. destruct (tla_out f1 f2 flt out fl D1 D2 B1 B2 LK fs s1 s2 p H1 H2 Hp) as (o & E & Q). exists o. split; auto. intros u Hu. apply Q. auto. }
      fold TF. rewrite gouts_ok by (intros p Hp; destruct (X p Hp) as (o & E & _); eauto). eexists. split; [reflexivity|]. intros u Hu.
      apply in_flat_map in Hu as (p & Hp & Hu). unfold gone in Hu. destruct (X p Hp) as (o & E & Q). rewrite E in Hu. destruct o; [|destruct Hu]. destruct Hu as [<-|[]]. auto.
    - intros [[fs s1] s2] (Hfs & H1 & H2). cbn [fst snd] in *. unfold gcompute_final. rewrite !final_in by auto. cbn [rbind].
      destruct (fin_of f1 s1); [|eauto]. destruct (fin_of f2 s2); [|eauto]. cbn [TF tla_cf cf_set base_cf]. rewrite set_state_eq by auto. cbn. eauto.
    - apply all_tuples_in.
    - rewrite all_tuples_len. auto.
    - exists g. split; auto. split; [|split; auto]. intros conn.
      destruct (plain_value f1 f2 flt mt fuel conn) as (p & Ep & Hp); auto; [unfold ready2; auto 7|]. exists p. split; auto. intros k x z. rewrite R, <- Hp.
      unfold both_starts. destruct (vstart f1) as [s1|] eqn:E1; auto. destruct (vstart f2) as [s2|] eqn:E2; auto.
      apply tla_value; auto; [apply D1; auto|apply D2; auto].
  Qed.

  (** With a filter that keeps each pair of paths once: the composition of the machines. *)
  Theorem C72_once :
    forall f1 f2 flt out fl props fuel mt, ready2 f1 f2 -> compose_match_type f1 f2 = Ok mt -> looks out f1 f2 -> once_filter flt ->
    (3 * num_states f1 * num_states f2 <= fuel)%nat ->
    (exists calls1 calls2, run vnew calls1 = Ok f1 /\ run vnew calls2 = Ok f2) ->
    exists g, gcompose (tla_cf out fl f1 f2 (base_cf flt f1 f2)) Nat.eqb props fuel f1 f2 = Some (Ok g) /\
      forall k x z, rel (mach g) k x z = sum_pairs f1 f2 k x z (once flt k).
  Proof.
    intros f1 f2 flt out fl props fuel mt RD EM LK On Hf (calls1 & calls2 & R1 & R2).
    destruct (C72_lookahead f1 f2 flt out fl props fuel mt RD EM LK Hf) as (g & Eg & H & _). exists g. split; auto.
    destruct RD as (C1 & C2 & D1 & D2 & B1 & B2). destruct (H false) as (p & Ep & Hp).
    pose proof (C19_compose L comm calls1 calls2 f1 f2 R1 R2 D1 D2 B1 B2 flt false fuel On Hf) as Y. rewrite Ep in Y. destruct Y as (_ & Y & _).
    intros k x z. rewrite Hp. apply Y.
  Qed.

  (** Looking ahead everywhere, the composition only moves to pairs of states with a way on: both
      may end, one may move alone, or both have a transition with the same label. *)
  Theorem C72_prunes :
    forall f1 f2 flt out fl mt fs s1 s2, ready2 f1 f2 -> compose_match_type f1 f2 = Ok mt -> looks out f1 f2 ->
    fl_eps fl = true -> fl_noneps fl = true -> (s1 < num_states f1)%nat -> (s2 < num_states f2)%nat ->
    exists l, gcompute_trs (tla_cf out fl f1 f2 (base_cf flt f1 f2)) mt f1 f2 (fs, s1, s2) = Ok l /\
      forall u, In u l -> let '(_, u1, u2) := tn u in
        (exists a b, fin_of f1 u1 = Some a /\ fin_of f2 u2 = Some b) \/
        (exists t, In t (trs_of f1 u1) /\ ol t = O) \/ (exists t, In t (trs_of f2 u2) /\ il t = O) \/
        (exists t t', In t (trs_of f1 u1) /\ In t' (trs_of f2 u2) /\ ol t = il t').
  Proof.
    intros f1 f2 flt out fl mt fs s1 s2 (C1 & C2 & D1 & D2 & B1 & B2) EM LK Fe Fn H1 H2. pose proof (match_type_ok f1 f2 mt B1 B2 EM) as M.
    rewrite tla_trs by auto. set (TF := tla_cf out fl f1 f2 (base_cf flt f1 f2)).
    assert (X : forall p, In p (pairs mt f1 f2 s1 s2) -> exists o, gout TF (env flt f1 f2 fs s1 s2) p = Ok o /\
              forall u, o = Some u -> onward out f1 f2 (snd (fst (tn u))) (snd (tn u))).
    { intros p Hp. apply pairs_kind in Hp. destruct (tla_out f1 f2 flt out fl D1 D2 B1 B2 LK fs s1 s2 p H1 H2 Hp) as (o & E & Q). exists o. split; auto. intros u Hu. apply Q; auto. }
    rewrite gouts_ok by (intros p Hp; destruct (X p Hp) as (o & E & _); eauto). eexists. split; [reflexivity|]. intros u Hu.
    apply in_flat_map in Hu as (p & Hp & Hu). unfold gone in Hu. destruct (X p Hp) as (o & E & Q). rewrite E in Hu. destruct o as [v|]; [|destruct Hu]. destruct Hu as [<-|[]].
    specialize (Q v eq_refl). destruct (tn v) as [[a b] c]. cbn [fst snd] in Q. apply onward_spec with (out := out); auto.
  Qed.
End C72.
Print Assumptions C72_lookahead.
Print Assumptions C72_once.
Print Assumptions C72_prunes.

(** 1 2, 1 3 and 4 in the first machine against 1 eps 2 and 4 5 in the second: the pair after 4 is
    dead, and so is the one after 1 with the branch to 3. *)
Definition c72_1 : list (op tropZ) :=
  [OAddStates 5; OSetStart 0; OSetFinal 3 (Some 1%Z : tropZ); OAddTr 0 (Tr 7 1 (Some 2%Z : tropZ) 1); OAddTr 1 (Tr 8 2 (Some 3%Z : tropZ) 3);
   OAddTr 0 (Tr 7 1 (Some 5%Z : tropZ) 2); OAddTr 2 (Tr 8 3 (Some 1%Z : tropZ) 3); OAddTr 0 (Tr 9 4 (Some 1%Z : tropZ) 3)].
Definition c72_2 : list (op tropZ) :=
  [OAddStates 5; OSetStart 0; OSetFinal 2 (Some 4%Z : tropZ); OAddTr 0 (Tr 1 6 (Some 1%Z : tropZ) 1); OAddTr 1 (Tr 0 9 (Some 2%Z : tropZ) 4);
   OAddTr 4 (Tr 2 8 (Some 7%Z : tropZ) 2); OAddTr 0 (Tr 4 6 (Some 2%Z : tropZ) 3); OAddTr 3 (Tr 5 7 (Some 9%Z : tropZ) 2)].
Definition c72_f1 : vfst tropZ := match run vnew c72_1 with Ok f => f | _ => vnew end.
Definition c72_f2 : vfst tropZ := match run vnew c72_2 with Ok f => f | _ => vnew end.
Definition fl_ahead : laflags := LAF true true true true false.
Example C72_witness :
  ready2 c72_f1 c72_f2 /\ compose_match_type c72_f1 c72_f2 = Ok MBoth /\ looks true c72_f1 c72_f2 /\ looks false c72_f1 c72_f2 /\
  run vnew c72_1 = Ok c72_f1 /\ run vnew c72_2 = Ok c72_f2 /\ fl_eps fl_ahead = true /\ fl_noneps fl_ahead = true /\
  exists g h p, gcompose (tla_cf true fl_ahead c72_f1 c72_f2 (base_cf SequenceF c72_f1 c72_f2)) Nat.eqb 0%N 75 c72_f1 c72_f2 = Some (Ok g) /\
    gcompose (tla_cf false fl_ahead c72_f1 c72_f2 (base_cf AltSequenceF c72_f1 c72_f2)) Nat.eqb 0%N 75 c72_f1 c72_f2 = Some (Ok h) /\
    compose_with AltSequenceF false 75 c72_f1 c72_f2 = Some (Ok p) /\
    map num_states [g; h; p] = [5; 5; 7]%nat /\
    map (fun m => rel (mach m) 3 [7; 8]%nat [6; 9; 8]%nat) [g; h; p] = repeat (Some 20%Z : tropZ) 3.
Proof.
  assert (E1 : run vnew c72_1 = Ok c72_f1) by (vm_compute; reflexivity).
  assert (E2 : run vnew c72_2 = Ok c72_f2) by (vm_compute; reflexivity).
  split.
  { split; [refine (run_cnt tropZ_laws c72_1 vnew c72_f1 _ E1); constructor|].
    split; [refine (run_cnt tropZ_laws c72_2 vnew c72_f2 _ E2); constructor|].
    split; [apply closedb_ok; vm_compute; reflexivity|]. split; [apply closedb_ok; vm_compute; reflexivity|].
    split; [eapply (run_fsound tropZ_laws); [apply fsound_new| |exact E1]; vm_compute; tauto|].
    eapply (run_fsound tropZ_laws); [apply fsound_new| |exact E2]; vm_compute; tauto. }
  split; [vm_compute; reflexivity|]. split; [vm_compute; reflexivity|]. split; [vm_compute; reflexivity|]. split; [exact E1|]. split; [exact E2|].
  split; [reflexivity|]. split; [reflexivity|]. do 3 eexists.
  split; [vm_compute; reflexivity|]. split; [vm_compute; reflexivity|]. split; [vm_compute; reflexivity|]. split; vm_compute; reflexivity.
Qed.
