(** C36: the depth-first visit reaches every state once and the SCC visitor is right. *)
From Coq Require Import List Arith NArith ZArith Bool Lia.
From Verif Require Import Base.Util Base.Semiring Base.Machine Base.PropSpec Base.Instances
  Model.Props Model.VectorFst Model.TrOps Model.Dfs Model.Visitors Model.History
  Proofs.PropsFacts Proofs.VectorFacts Proofs.DfsFacts Proofs.Tarjan Proofs.SccFacts Proofs.VisitFacts Proofs.ConnectFacts.
Import ListNotations.

(** A visitor that only writes down what it is told. *)
Inductive event := EInit (s root : nat) | EFinish (s : nat) | ETree (s u : nat) | EBack (s u : nat) | EFwd (s u : nat).
Definition log_fns {K : SR} : visitor K (list event) := {|
  v_init := fun v s r => Ok (EInit s r :: v, true);
  v_tree := fun v s t => Ok (ETree s (ns t) :: v, true);
  v_back := fun v s t => Ok (EBack s (ns t) :: v, true);
  v_fwd := fun v s t => Ok (EFwd s (ns t) :: v, true);
  v_finish := fun v s p => Ok (EFinish s :: v);
  v_end := fun v => Ok v
|}.
Definition inits (l : list event) : list nat :=
  flat_map (fun e => match e with EInit s _ => [s] | _ => [] end) l.
Definition finishes (l : list event) : list nat :=
  flat_map (fun e => match e with EFinish s => [s] | _ => [] end) l.

Section C36.
  Context {K : SR}.
  Implicit Types (f : vfst K).

  (** The part of the machine a filter lets through. *)
  Definition graph f (keep : tr K -> bool) : machine K :=
    Mach (vstart f) (fun s => filter keep (trs_of f s)) (fin_of f).

  (** Every state is opened exactly once and closed exactly once. *)
  Theorem C36_dfs_visits_once :
    forall f keep, closed f -> vstart f <> None ->
    exists l, dfs_visit log_fns keep (trs_of f) (num_states f) (vstart f) false [] = Ok l /\
      NoDup (inits l) /\ NoDup (finishes l) /\
      (forall s, In s (inits l) <-> s < num_states f) /\
      (forall s, In s (finishes l) <-> s < num_states f).
  Proof.
    intros f keep [C1 C2] Hs. destruct (vstart f) as [s0|] eqn:Es; [clear Hs|congruence].
    set (n := num_states f) in *. set (trs := trs_of f) in *.
    set (J := fun (_ : nat) (b : bool) (c : list color) (_ : list (nat * list (tr K))) (v : list event) =>
      b = true /\ length c = n /\ NoDup (inits v) /\ NoDup (finishes v) /\ (forall s, In s (inits v) <-> nonwhite c s) /\
      (forall s, In s (finishes v) <-> nth_error c s = Some Black)).
    assert (BL : forall c s col u, s < length c -> col <> Black -> nth_error c s <> Some Black ->
       (nth_error (upd c s col) u = Some Black <-> nth_error c u = Some Black)).
    { intros c s col u Hl Hc Hb. rewrite nth_upd_color by auto. split.
      - intros [[_ H]|[_ H]]; auto. congruence.
      - intros H. right. split; auto. congruence. }
    assert (NEW : forall r c v w, length c = n -> nth_error c w = Some White -> J r true c [] v ->
       forall r' k', J r' true (upd c w Grey) k' (EInit w r' :: v)).
    { intros r c v w Hl Hw (_ & _ & A1 & A2 & A3 & A4) r' k'.
      assert (Hwl : w < length c) by (apply nth_error_Some; congruence).
      split; auto. split; [rewrite upd_length; auto|]. simpl. split; [|split; [auto|split]].
      - constructor; auto. rewrite A3. intros [H|H]; congruence.
      - intros s. rewrite A3. split.
        + intros [<-|H]; [left; apply nth_error_upd_eq; auto|]. apply nonwhite_upd; auto. congruence.
        + intros H. apply nonwhite_upd_inv in H; auto. destruct H; auto.
      - intros s. rewrite A4, BL; auto; congruence || tauto. }
    assert (FIN : forall r b c s q k v, base keep trs n b c ((s, q) :: k) -> J r b c ((s, q) :: k) v ->
       forall k', J r b (upd c s Black) k' (EFinish s :: v)).
    { intros r b c s q k v B (Hb & Hl & A1 & A2 & A3 & A4) k'.
      assert (Hg : nth_error c s = Some Grey) by (apply (b_grey _ _ _ _ _ _ B); left; auto).
      assert (Hsl : s < length c) by (apply nth_error_Some; congruence).
      split; auto. split; [rewrite upd_length; auto|]. simpl. split; [auto|split; [|split]].
      - constructor; auto. rewrite A4. congruence.
      - intros u. rewrite A3. split.
        + intros H. apply nonwhite_upd; auto. congruence.
        + intros H. apply nonwhite_upd_inv in H; auto. destruct H as [->|H]; auto. left. auto.
      - intros u. rewrite A4, nth_upd_color by auto. split.
        + intros [<-|H]; auto. right. split; auto. congruence.
        + intros [[-> _]|[_ H]]; auto. }
    edestruct (dfs_visit_ind (K := K) log_fns keep trs n (fun s t _ => C1 s t) J s0 [] (C2 _ eq_refl))
      with (access_only := false) as (root & b & c & v & E & B & HI & _ & _ & Hall).
    - eexists. eexists. split; [reflexivity|]. apply (NEW 0 (repeat White n) [] s0).
      + apply repeat_length.
      + apply nth_error_repeat. apply (C2 _ eq_refl).
      + assert (W : forall s x, nth_error (repeat White n) s = Some x -> x = White).
        { intros s x H. apply nth_error_In in H. apply repeat_spec in H. auto. }
        split; auto. split; [apply repeat_length|]. simpl. split; [constructor|]. split; [constructor|].
        split; intros s; split; try tauto.
        * intros [H|H]; apply W in H; discriminate.
        * intros H. apply W in H; discriminate.
    - intros r r' c v B Hw _ _ HJ. eexists. eexists. split; [reflexivity|]. eapply NEW; eauto. apply (b_len _ _ _ _ _ _ B).
    - intros root b c s r v B _ HJ. eexists. split; [reflexivity|]. eapply FIN; eauto.
    - intros root b c s r p t rp k v B _ _ _ HJ. eexists. split; [reflexivity|]. eapply FIN; eauto.
    - intros root c s t r k v B Hk HJ. exact HJ.
    - intros root c s t r k v B Hk Hw HJ. eexists. eexists. eexists. split; [reflexivity|]. split; [reflexivity|].
      refine (NEW root c (ETree s (ns t) :: v) (ns t) (b_len _ _ _ _ _ _ B) Hw _ root _). exact HJ.
    - intros root c s t r k v B Hk Hw HJ. eexists. eexists. split; [reflexivity|]. exact HJ.
    - intros root c s t r k v B Hk Hw HJ. eexists. eexists. split; [reflexivity|]. exact HJ.
    - destruct HI as (-> & Hl & A1 & A2 & A3 & A4). exists v. split; [exact E|]. specialize (Hall eq_refl eq_refl).
      split; auto. split; auto. split; intros s; rewrite ?A3, ?A4; (split; [|intros H; unfold nonwhite; auto]).
      + intros H. rewrite <- Hl. apply nth_error_Some. destruct H; congruence.
      + intros H. rewrite <- Hl. apply nth_error_Some. congruence.
  Qed.

  (** Component numbers, coaccessibility and the four property pairs, for every filter. *)
  Theorem C36_scc :
    forall f keep, closed f -> vstart f <> None ->
    exists v, visit_scc f keep = Ok v /\
      length (sv_scc v) = num_states f /\
      (forall s, s < num_states f -> exists j, j < sv_nscc v /\ nth s (sv_scc v) (-1)%Z = Z.of_nat j) /\
      (forall s u, s < num_states f -> u < num_states f ->
         (nth s (sv_scc v) (-1)%Z = nth u (sv_scc v) (-1)%Z <->
          reach (graph f keep) s u /\ reach (graph f keep) u s)) /\
      (forall s u, s < num_states f -> u < num_states f -> reach (graph f keep) s u ->
         (nth s (sv_scc v) (-1) <= nth u (sv_scc v) (-1))%Z) /\
      (forall j, j < sv_nscc v -> exists s, s < num_states f /\ nth s (sv_scc v) (-1)%Z = Z.of_nat j) /\
      (forall s, s < num_states f -> (co (sv_core v) s = true <-> coaccessible (graph f keep) s)) /\
      (forall b, has (sv_props v) b = true -> holds b (num_states f) (graph f keep)) /\
      (forall b, In b [ACYCLIC; INITIAL_ACYCLIC; ACCESSIBLE; COACCESSIBLE] ->
         has (sv_props v) b = true \/ has (sv_props v) (opp b) = true).
  Proof.
    intros f keep [C1 C2] Hs. unfold visit_scc, graph. destruct (vstart f) as [s0|] eqn:Es; [clear Hs|congruence].
    destruct (visit_scc_inv keep (trs_of f) (num_states f) s0 (fin_of f) (fun s t _ => C1 s t) (C2 _ eq_refl)
                (trs_of_beyond f)) as (v & E & A1 & A2 & A3 & A4 & A5 & A6 & A7 & A8 & B1 & B2 & B3 & B4).
    exists v. split; auto. split; auto. split; auto. split; auto. split; auto. split; auto. split; auto. split.
    - intros b Hb. apply A8 in Hb. apply Hb.
    - intros b [<-|[<-|[<-|[<-|[]]]]]; simpl; rewrite ?B1, ?B2, ?B3, ?B4;
      match goal with |- negb ?x = true \/ _ => destruct x; auto end.
  Qed.

End C36.

  (** The accessibility vector is not accessibility: [init_state] sets it in both branches. *)
  Theorem C36_scc_access_refuted :
    exists (calls : list (op natSR)) f v s, run vnew calls = Ok f /\ closed f /\ vstart f <> None /\
      visit_scc f any_filter = Ok v /\ s < num_states f /\
      nth s (sv_access v) false = true /\ ~ accessible (mach f) s.
  Proof.
    exists [OAddStates 2; OSetStart 0; OSetFinal 0 1; OAddTr 1 (Tr 1 1 1 0)].
    eexists. eexists. exists 1. split; [vm_compute; reflexivity|]. split.
    { split; [|cbn; intros s H; inversion H; vm_compute; lia].
      intros s t. destruct s as [|[|s]]; cbn; intuition; subst; cbn; try (vm_compute; lia).
      destruct s; simpl in *; tauto. }
    split; [discriminate|]. split; [vm_compute; reflexivity|]. split; [vm_compute; lia|]. split; [vm_compute; reflexivity|].
    intros (s & Es & R). simpl in Es. inversion Es; subst. inversion R as [|? t ? Ht]; subst. simpl in Ht. tauto.
  Qed.

  (** Without a start state nothing is visited: no component is numbered and the acyclic bit
      is reported for a cyclic machine. *)
  Theorem C36_scc_no_start_refuted :
    exists (calls : list (op natSR)) f v, run vnew calls = Ok f /\ closed f /\ vstart f = None /\
      visit_scc f any_filter = Ok v /\ has (sv_props v) ACYCLIC = true /\ ~ holds ACYCLIC (num_states f) (mach f) /\
      sv_nscc v = 0.
  Proof.
    exists [OAddStates 1; OAddTr 0 (Tr 1 1 1 0)].
    eexists. eexists. split; [vm_compute; reflexivity|]. split.
    { split; [|cbn; intros s H; discriminate].
      intros s t. destruct s as [|s]; cbn; intuition; subst; cbn; try (vm_compute; lia).
      destruct s; simpl in *; tauto. }
    split; [reflexivity|]. split; [vm_compute; reflexivity|]. split; [vm_compute; reflexivity|]. split; [|reflexivity].
    simpl. intros H. apply (H 0). eexists. split; [simpl; left; reflexivity|]. constructor.
  Qed.
Print Assumptions C36_dfs_visits_once.
Print Assumptions C36_scc.
Print Assumptions C36_scc_access_refuted.
Print Assumptions C36_scc_no_start_refuted.

(** Two components {0,1} and {2}, state 3 visited from a second root. *)
Definition c36_calls : list (op natSR) :=
  [OAddStates 4; OSetStart 0; OAddTr 0 (Tr 1 1 1 1); OAddTr 1 (Tr 1 1 1 0); OAddTr 1 (Tr 2 2 1 2);
   OAddTr 3 (Tr 2 2 1 1); OSetFinal 1 1].
Example C36_witness : exists f v, run vnew c36_calls = Ok f /\ closed f /\ vstart f <> None /\
  visit_scc f any_filter = Ok v /\ sv_scc v = [1; 1; 2; 0]%Z /\ sv_nscc v = 3 /\
  map (co (sv_core v)) [0; 1; 2; 3] = [true; true; false; true] /\
  has (sv_props v) INITIAL_CYCLIC = true /\ has (sv_props v) NOT_ACCESSIBLE = true /\ has (sv_props v) NOT_COACCESSIBLE = true.
Proof.
  eexists. eexists. split; [vm_compute; reflexivity|]. split.
  - split.
    + intros s t. destruct s as [|[|[|[|s]]]]; cbn; intuition; subst; cbn; try (vm_compute; lia).
      destruct s; simpl in *; tauto.
    + cbn. intros s H; inversion H. vm_compute. lia.
  - split; [discriminate|]. split; [vm_compute; reflexivity|]. repeat split; vm_compute; reflexivity.
Qed.
