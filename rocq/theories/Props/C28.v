(** C28: a queue returns every enqueued state and only those, in the advertised order. *)
From Coq Require Import List Arith NArith ZArith Lia Bool.
From Verif Require Import Base.Util Base.Semiring Base.Machine Base.Instances
  Model.Props Model.VectorFst Model.Queues Proofs.QueueFacts.
Import ListNotations.

(** What a client sees of a queue: the calls it made and the states it was handed. *)
Inductive event :=
| EEnq (s : nat)
| EDeq (o : option nat)
| EClr.

(** [exec q tr q']: making the calls of [tr] on [q] returns what [tr] records and leaves [q']. *)
Fixpoint exec (q : queue) (tr : list event) (q' : queue) : Prop :=
  match tr with
  | [] => q = q'
  | EEnq s :: tr' => exists q1, q_enqueue q s = Ok q1 /\ exec q1 tr' q'
  | EDeq o :: tr' => exists q1, q_dequeue q = Ok (o, q1) /\ exec q1 tr' q'
  | EClr :: tr' => exists q1, q_clear q = Ok q1 /\ exec q1 tr' q'
  end.

(** How many times a state is still owed to the client after the events [tr], starting from
    [M]. [mrg s]: enqueueing [s] again while it is waiting has no effect. *)
Fixpoint owed (mrg : nat -> bool) (M : nat -> nat) (tr : list event) : nat -> nat :=
  match tr with
  | [] => M
  | EEnq s :: tr' => owed mrg (fun x => if Nat.eqb x s then (if mrg s then 1 else S (M s)) else M x) tr'
  | EDeq None :: tr' => owed mrg M tr'
  | EDeq (Some s) :: tr' => owed mrg (fun x => if Nat.eqb x s then M s - 1 else M x) tr'
  | EClr :: tr' => owed mrg (fun _ => 0) tr'
  end.
Definition pending mrg tr : nat -> nat := owed mrg (fun _ => 0) tr.

(** The state returned by the last successful [dequeue] since the last [clear]. *)
Fixpoint last_out (o : option nat) (tr : list event) : option nat :=
  match tr with
  | [] => o
  | EEnq _ :: tr' | EDeq None :: tr' => last_out o tr'
  | EDeq (Some s) :: tr' => last_out (Some s) tr'
  | EClr :: tr' => last_out None tr'
  end.

(** The calls respect the queue: states are in its domain, and a component queue is never
    given a state of an earlier component than that of the state it just returned. *)
Fixpoint respects (dom : nat -> Prop) (sccs : list nat) (last : option nat) (tr : list event) : Prop :=
  match tr with
  | [] => True
  | EEnq s :: tr' => dom s /\
      (forall t c d, last = Some t -> nth_error sccs t = Some c -> nth_error sccs s = Some d -> c <= d) /\
      respects dom sccs last tr'
  | EDeq None :: tr' => respects dom sccs last tr'
  | EDeq (Some s) :: tr' => respects dom sccs (Some s) tr'
  | EClr :: tr' => respects dom sccs None tr'
  end.

(** A queue as its constructor leaves it, together with what is known about the states it may
    be given. *)
Inductive fresh (dom : nat -> Prop) : queue -> list nat -> Prop :=
| fresh_simple q : simple_fresh dom q -> fresh dom (QS q) []
| fresh_scc qs sccs :
    (forall s, dom s -> exists c, nth_error sccs s = Some c /\ c < length qs) ->
    (forall c q, nth_error qs c = Some q -> simple_fresh (fun s => dom s /\ nth_error sccs s = Some c) q) ->
    fresh dom (scc_queue_new qs sccs) sccs
with simple_fresh (dom : nat -> Prop) : sq -> Prop :=
| fresh_fifo : simple_fresh dom fifo_new
| fresh_lifo : simple_fresh dom lifo_new
| fresh_triv : (forall s s', dom s -> dom s' -> s = s') -> simple_fresh dom trivial_new
| fresh_state : simple_fresh dom state_order_new
| fresh_top order :
    (forall s, dom s -> exists o, nth_error order s = Some o /\ o < length order) ->
    (forall s s', dom s -> dom s' -> nth_error order s = nth_error order s' -> s = s') ->
    simple_fresh dom (top_order_from order)
| fresh_short n less : (forall s, dom s -> s < n) -> simple_fresh dom (shortest_first_new n less).

(** The disciplines that merge repeated states. *)
Definition simple_mrg (q : sq) : bool :=
  match q with QTriv _ | QState _ _ _ | QTop _ _ _ _ => true | _ => false end.
Definition mrg_of (q : queue) (s : nat) : bool :=
  match q with
  | QS q => simple_mrg q
  | QScc _ _ qs sccs =>
      match nth_error sccs s with
      | Some c => match nth_error qs c with Some q => simple_mrg q | None => false end
      | None => false
      end
  end.

(** [s] may be handed out while [s'] waits. The heap of the shortest-first queue hands out a
    state that no waiting state is farther than, when the weights are totally ordered. *)
Definition simple_before (q : sq) (s s' : nat) : Prop :=
  match q with
  | QState _ _ _ => s <= s'
  | QTop order _ _ _ => forall o o', nth_error order s = Some o -> nth_error order s' = Some o' -> o <= o'
  | QShort _ less _ =>
      (forall a b, less a b = true -> less b a = false) ->
      (forall a b c, less a b = false -> less b c = false -> less a c = false) -> less s s' = false
  | _ => True
  end.
Definition before (q : queue) (s s' : nat) : Prop :=
  match q with
  | QS q => simple_before q s s'
  | QScc _ _ qs sccs =>
      forall c c', nth_error sccs s = Some c -> nth_error sccs s' = Some c' ->
      c <= c' /\ (c = c' -> forall q, nth_error qs c = Some q -> simple_before q s s')
  end.

Lemma simple_fresh_ok dom q : simple_fresh dom q -> wfq dom q /\ inv q (fun _ => 0).
Proof.
  intros [| |H| |order H1 H2|n less H]; (split; [simpl; auto|]); try (simpl; auto; fail).
  - split; [intros []; auto|]. split; [intros [] Hi; discriminate|intros; discriminate].
  - split; auto. intros s Ds. rewrite repeat_length. auto.
  - assert (N : forall i, nth i (repeat (@None nat) (length order)) None = None).
    { intros i. destruct (Nat.lt_ge_cases i (length order)); [rewrite nth_repeat; auto|apply nth_overflow; rewrite repeat_length; auto]. }
    split; [intros s; destruct (nth_error order s); auto; rewrite N; auto|]. split; [intros i x; rewrite N; discriminate|].
    split; [intros i Hi; rewrite N in Hi; congruence|intros; discriminate].
Qed.

Lemma fresh_ok dom q sccs : fresh dom q sccs -> qwf dom q /\ qinv q (fun _ => 0) None.
Proof.
  intros [a H|qs cs H1 H2].
  - apply simple_fresh_ok in H. auto.
  - unfold scc_queue_new. split.
    + split; auto. intros c a E. apply simple_fresh_ok; auto.
    + split; [|split; [|split; [|split]]]; try (intros; lia); auto.
      * intros i a E. destruct (simple_fresh_ok _ _ (H2 i a E)) as [_ I]. eapply inv_ext; [|exact I].
        intros s. unfold part. destruct (nth_error cs s); auto. destruct (_ =? _); auto.
Qed.

Lemma sord_before q s s' : sord q s s' -> simple_before q s s'.
Proof. destruct q; simpl; auto. intros H A B. apply H. split; auto. Qed.
Lemma qord_before q s s' : qord q s s' -> before q s s'.
Proof.
  destruct q; simpl; [apply sord_before|]. intros H c c' E E'. destruct (H c c' E E') as [H1 H2].
  split; auto. intros Ec q Eq. apply sord_before. eauto.
Qed.
Lemma mrg_same q s : mrg_of q s = qmerges q s.
Proof. destruct q; reflexivity. Qed.

Lemma exec_inv dom sccs (q0 : queue) : (forall a b c d, q0 = QScc a b c d -> d = sccs) ->
  forall tr q M last q', qkind q0 q -> qwf dom q -> qinv q M last -> (forall s, M s > 0 -> dom s) ->
  respects dom sccs last tr -> exec q tr q' ->
  qkind q0 q' /\ qwf dom q' /\ qinv q' (owed (mrg_of q0) M tr) (last_out last tr) /\
  (forall s, owed (mrg_of q0) M tr s > 0 -> dom s).
Proof.
  intros Hs tr. induction tr as [|e tr IH]; intros q M last q' Kq W I D R E; simpl in *.
  - subst. auto.
  - assert (Hd : forall s, (forall t c d, last = Some t -> nth_error sccs t = Some c -> nth_error sccs s = Some d -> c <= d) ->
              qdisc q last s).
    { intros s H. apply (qkind_disc q0 q); auto. destruct q0 as [|a b c d]; simpl; auto.
      rewrite (Hs _ _ _ _ eq_refl). destruct last as [t|]; auto. intros x y. apply H; auto. }
    destruct e as [s|o|].
    + destruct E as (q1 & E1 & E). destruct R as (Ds & R1 & R).
      destruct (q_enqueue_ok dom q M last s W I D Ds (Hd s R1)) as (q1' & E1' & K1 & I1).
      rewrite E1 in E1'. injection E1' as <-.
      apply (IH q1); auto.
      * eapply qkind_trans; eauto.
      * eapply qkind_wf; eauto.
      * rewrite mrg_same, (qkind_mrg _ _ s Kq). exact I1.
      * intros x. destruct (Nat.eqb_spec x s); [subst; auto|auto].
    + destruct E as (q1 & E1 & E).
      destruct (q_dequeue_ok dom q M last W I D) as (o' & q1' & E1' & K1 & H1).
      rewrite E1 in E1'. injection E1' as <- <-. destruct o as [s|].
      * destruct H1 as (H1 & I1 & _). apply (IH q1); auto.
        -- eapply qkind_trans; eauto.
        -- eapply qkind_wf; eauto.
        -- intros x. destruct (Nat.eqb_spec x s) as [->|]; auto.
      * destruct H1 as (_ & I1). apply (IH q1); auto.
        -- eapply qkind_trans; eauto.
        -- eapply qkind_wf; eauto.
    + destruct E as (q1 & E1 & E).
      destruct (q_clear_ok dom q M last W I D) as (q1' & E1' & K1 & I1).
      rewrite E1 in E1'. injection E1' as <-. apply (IH q1); auto.
      * eapply qkind_trans; eauto.
      * eapply qkind_wf; eauto.
      * intros s H. lia.
Qed.

(** After any respectful history: the next call of [dequeue] does not panic; it returns
    nothing exactly when nothing is owed, and otherwise an owed state that the discipline
    lets go first. [is_empty] tells whether something is owed, [head] announces what
    [dequeue] returns, and no call panics. *)
Theorem C28_queue : forall dom q0 sccs tr q,
  fresh dom q0 sccs -> respects dom sccs None tr -> exec q0 tr q ->
  let P := pending (mrg_of q0) tr in
  (exists o q', q_dequeue q = Ok (o, q') /\
     match o with
     | None => forall s, P s = 0
     | Some s => P s > 0 /\ forall s', P s' > 0 -> before q0 s s'
     end /\
     (forall s, P s > 0 -> exists q1, q_head q = Ok (o, q1) /\ q_dequeue q1 = Ok (o, q'))) /\
  (exists e, q_is_empty q = Ok e /\ (e = true <-> forall s, P s = 0)) /\
  (exists q', q_clear q = Ok q') /\
  (forall s, dom s -> (forall t c d, last_out None tr = Some t -> nth_error sccs t = Some c ->
                        nth_error sccs s = Some d -> c <= d) ->
             exists q', q_enqueue q s = Ok q').
Proof.
  intros dom q0 sccs tr q F R E P. destruct (fresh_ok dom q0 sccs F) as [W0 I0].
  assert (Hs : forall a b c d, q0 = QScc a b c d -> d = sccs).
  { intros a b c d ->. inversion F; subst. auto. }
  destruct (exec_inv dom sccs q0 Hs tr q0 (fun _ => 0) None q) as (Kq & W & I & D); auto using qkind_refl.
  { intros s H. lia. }
  change (owed (mrg_of q0) (fun _ => 0) tr) with P in *.
  destruct (q_is_empty_ok dom q P _ W I) as (e & Ee & He).
  split; [|split; [|split]].
  - destruct (q_dequeue_ok dom q P _ W I D) as (o & q' & Eq & K' & H). exists o, q'. split; auto. split.
    + destruct o as [s|]; [|tauto]. destruct H as (H1 & _ & H2). split; auto. intros s' Hs'.
      apply qord_before. eapply qkind_ord; [apply qkind_sym; exact Kq|]. auto.
    + intros s Ps. destruct e.
      * rewrite (proj1 He eq_refl s) in Ps. lia.
      * eapply q_head_ok; eauto.
  - eauto.
  - destruct (q_clear_ok dom q P _ W I D) as (q' & Eq & _). eauto.
  - intros s Ds Hd. destruct (q_enqueue_ok dom q P (last_out None tr) s) as (q' & Eq & _); eauto.
    apply (qkind_disc q0 q); auto. destruct q0 as [|a b c d]; simpl; auto.
    rewrite (Hs _ _ _ _ eq_refl). destruct (last_out None tr) as [t|]; auto. intros x y. apply Hd; auto.
Qed.

(** First in, first out: without [clear], the states handed out are the states enqueued, in
    order. *)
Definition ins (tr : list event) : list nat := flat_map (fun e => match e with EEnq s => [s] | _ => [] end) tr.
Definition outs (tr : list event) : list nat := flat_map (fun e => match e with EDeq (Some s) => [s] | _ => [] end) tr.

Theorem C28_fifo : forall tr q, ~ In EClr tr -> exec (QS fifo_new) tr q ->
  exists rest, ins tr = outs tr ++ rest /\ q = QS (QFifo rest).
Proof.
  intros tr q Nc E. cut (exists rest, [] ++ ins tr = outs tr ++ rest /\ q = QS (QFifo rest)).
  { intros (r & ? & ?). exists r. auto. }
  unfold fifo_new in E. revert E Nc. generalize (@nil nat).
  induction tr as [|e tr IH]; intros l E Nc; simpl in *.
  - subst. exists l. rewrite app_nil_r. auto.
  - destruct e as [s|o|]; [| |exfalso; auto].
    + destruct E as (q1 & [= <-] & E). destruct (IH (l ++ [s])) as (r & H1 & H2); auto.
      exists r. split; auto. rewrite <- app_assoc in H1. exact H1.
    + destruct E as (q1 & E1 & E). destruct l as [|x l]; simpl in E1; injection E1 as <- <-; simpl.
      * apply (IH []); auto.
      * destruct (IH l) as (r & H1 & H2); auto. exists r. split; auto. f_equal. exact H1.
Qed.

(** Last in, first out: after enqueueing [s] and any well-bracketed history, [dequeue]
    returns [s]. *)
Inductive bracketed : list event -> Prop :=
| br_nil : bracketed []
| br_pair s o l m : bracketed l -> bracketed m -> bracketed (EEnq s :: l ++ EDeq o :: m).

Lemma exec_app tr1 : forall q tr2 q', exec q (tr1 ++ tr2) q' <-> exists q1, exec q tr1 q1 /\ exec q1 tr2 q'.
Proof.
  induction tr1 as [|e tr1 IH]; intros q tr2 q'; simpl.
  - split; [eauto|]. intros (q1 & -> & ?). auto.
  - destruct e; (split;
      [intros (q1 & E & H); apply IH in H; destruct H as (q2 & ? & ?); eauto
      |intros (q2 & (q1 & E & H) & ?); exists q1; split; auto; apply IH; eauto]).
Qed.

Lemma lifo_bracketed tr : bracketed tr -> forall l q, exec (QS (QLifo l)) tr q -> q = QS (QLifo l).
Proof.
  induction 1; intros k q E; simpl in E; [congruence|].
  destruct E as (q1 & [= <-] & E). apply exec_app in E. destruct E as (q2 & E1 & q3 & E2 & E3).
  apply IHbracketed1 in E1. subst q2. simpl in E2. injection E2 as <- <-. auto.
Qed.

Theorem C28_lifo : forall pre s l o q, bracketed l ->
  exec (QS lifo_new) (pre ++ EEnq s :: l ++ [EDeq o]) q -> o = Some s.
Proof.
  intros pre s l o q B E. apply exec_app in E. destruct E as (q1 & E1 & q2 & E2 & E).
  assert (exists k, q1 = QS (QLifo k)) as (k & ->).
  { revert E1. unfold lifo_new. generalize (@nil nat). clear. induction pre as [|e pre IH]; intros k E; simpl in E.
    - eauto.
    - destruct e; destruct E as (q' & E' & E).
      + injection E' as <-. eauto.
      + destruct k; simpl in E'; injection E' as <- <-; eauto.
      + injection E' as <-. eauto. }
  simpl in E2. injection E2 as <-. apply exec_app in E. destruct E as (q3 & E3 & q4 & E4 & _).
  apply (lifo_bracketed _ B) in E3. subst q3. simpl in E4. congruence.
Qed.

(** What fails outside these conditions. A component queue that is given a state of an
    earlier component than the one it returned last says it is not empty when it is, and then
    panics. *)
Theorem C28_scc_order_refuted :
  exists tr q, exec (scc_queue_new [fifo_new; fifo_new] [0; 1]) tr q /\
    (forall s, pending (fun _ => false) tr s = 0) /\ q_is_empty q = Ok false /\ q_dequeue q = Panic.
Proof.
  exists [EEnq 1; EDeq (Some 1); EEnq 0; EDeq (Some 0)]. eexists. split; [|split; [|split]].
  - simpl. repeat (eexists; split; [reflexivity|]). reflexivity.
  - intros s. destruct s as [|[|s]]; reflexivity.
  - reflexivity.
  - reflexivity.
Qed.

(** The trivial queue forgets a state when a second one is enqueued. *)
Theorem C28_trivial_loses_refuted :
  exists tr q, exec (QS trivial_new) tr q /\ tr = [EEnq 1; EEnq 2; EDeq (Some 2)] /\
    q_is_empty q = Ok true /\ pending (fun _ => true) tr 1 = 1.
Proof. do 2 eexists. split; [|split; [reflexivity|]]; [simpl; repeat (eexists; split; [reflexivity|]); reflexivity|]. split; reflexivity. Qed.

(** [head] of an empty state-order queue is a state nobody enqueued; [head] of an empty
    component queue panics. *)
Theorem C28_head_empty_refuted :
  q_head (QS state_order_new) = Ok (Some 0, QS state_order_new) /\
  q_head (scc_queue_new [] []) = Panic.
Proof. split; reflexivity. Qed.

(** With the tropical weights 1 and 2 the natural shortest-first queue returns the farther
    state first. *)
Theorem C28_shortest_first_farthest :
  let less := fun a b => natural_less (K := tropN) (nth a [Some 1; Some 2] None) (nth b [Some 1; Some 2] None) in
  less 0 1 = true /\
  exists q, exec (QS (shortest_first_new 2 less)) [EEnq 0; EEnq 1; EDeq (Some 1)] q.
Proof. split; [reflexivity|]. eexists. simpl. repeat (eexists; split; [reflexivity|]). reflexivity. Qed.

(** A history meeting the hypotheses of [C28_queue]: a component queue with a one-state
    component and a FIFO component. *)
Example C28_instance :
  let q0 := scc_queue_new [trivial_new; fifo_new] [0; 1; 1] in
  let tr := [EEnq 2; EEnq 0; EDeq (Some 0); EEnq 1; EEnq 2] in
  fresh (fun s => s < 3) q0 [0; 1; 1] /\ respects (fun s => s < 3) [0; 1; 1] None tr /\
  (exists q, exec q0 tr q) /\ pending (mrg_of q0) tr 2 = 2.
Proof.
  split; [|split; [|split]].
  - apply fresh_scc.
    + intros s Hs. destruct s as [|[|[|s]]]; [exists 0|exists 1|exists 1|lia]; simpl; split; auto.
    + intros c q E. destruct c as [|[|c]]; simpl in E.
      * injection E as <-. apply fresh_triv. intros s s' (H & E) (H' & E').
        destruct s as [|[|[|s]]], s' as [|[|[|s']]]; simpl in *; try lia; discriminate.
      * injection E as <-. apply fresh_fifo.
      * destruct c; discriminate.
  - simpl. repeat split; try lia; intros; try discriminate; try congruence.
    + injection H as <-. simpl in *. injection H0 as <-. injection H1 as <-. lia.
    + injection H as <-. simpl in *. injection H0 as <-. injection H1 as <-. lia.
  - eexists. simpl. repeat (eexists; split; [reflexivity|]). reflexivity.
  - reflexivity.
Qed.

Print Assumptions C28_queue.
Print Assumptions C28_fifo.
Print Assumptions C28_lifo.
Print Assumptions C28_scc_order_refuted.
