(** Invariants of the state queues. *)
From Coq Require Import List Arith NArith ZArith Lia Bool Permutation.
From Verif Require Import Base.Util Base.Semiring Base.Machine Model.Props Model.VectorFst Model.Queues.
Import ListNotations.

Definition cocc (l : list nat) (s : nat) : nat := count_occ Nat.eq_dec l s.

Definition merges (q : sq) : bool :=
  match q with QTriv _ | QState _ _ _ | QTop _ _ _ _ => true | _ => false end.

Definition addM (mrg : bool) (M : nat -> nat) (s : nat) : nat -> nat :=
  fun x => if Nat.eqb x s then (if mrg then 1 else S (M s)) else M x.
Definition subM (M : nat -> nat) (s : nat) : nat -> nat :=
  fun x => if Nat.eqb x s then M s - 1 else M x.

(** [front] and [back] bracket the occupied slots tightly. *)
Definition bracket (occ : nat -> Prop) (front : nat) (back : option nat) : Prop :=
  (forall i, occ i -> exists b, back = Some b /\ front <= i <= b) /\
  (forall b, back = Some b -> front <= b -> occ front /\ occ b).

Definition inv (q : sq) (M : nat -> nat) : Prop :=
  match q with
  | QFifo l | QLifo l | QShort _ _ l => forall s, M s = cocc l s
  | QTriv o => forall s, M s = match o with Some x => if Nat.eqb x s then 1 else 0 | None => 0 end
  | QState front back enq =>
      (forall s, M s = if nth s enq false then 1 else 0) /\
      bracket (fun i => nth i enq false = true) front back
  | QTop order st front back =>
      (forall s, M s = match nth_error order s with
                       | Some o => match nth o st None with
                                   | Some x => if Nat.eqb x s then 1 else 0
                                   | None => 0 end
                       | None => 0 end) /\
      (forall i x, nth i st None = Some x -> nth_error order x = Some i) /\
      bracket (fun i => nth i st None <> None) front back
  end.

Definition wfq (dom : nat -> Prop) (q : sq) : Prop :=
  match q with
  | QTriv _ => forall s s', dom s -> dom s' -> s = s'
  | QTop order st _ _ =>
      (forall s, dom s -> exists o, nth_error order s = Some o /\ o < length st) /\
      (forall s s', dom s -> dom s' -> nth_error order s = nth_error order s' -> s = s')
  | QShort n _ _ => forall s, dom s -> s < n
  | _ => True
  end.

(** [less] is a strict weak order. *)
Definition weak_order (less : nat -> nat -> bool) : Prop :=
  (forall a b, less a b = true -> less b a = false) /\
  (forall a b c, less a b = false -> less b c = false -> less a c = false).

Definition sord (q : sq) (s s' : nat) : Prop :=
  match q with
  | QState _ _ _ => s <= s'
  | QTop order _ _ _ => forall o o', nth_error order s = Some o -> nth_error order s' = Some o' -> o <= o'
  | QShort _ less _ => weak_order less -> less s s' = false
  | _ => True
  end.

(** Fields that no operation changes. *)
Definition same_kind (q q' : sq) : Prop :=
  match q, q' with
  | QFifo _, QFifo _ | QLifo _, QLifo _ | QTriv _, QTriv _ | QState _ _ _, QState _ _ _ => True
  | QTop o st _ _, QTop o' st' _ _ => o = o' /\ length st = length st'
  | QShort n l _, QShort n' l' _ => n = n' /\ l = l'
  | _, _ => False
  end.

Lemma same_kind_refl q : same_kind q q.
Proof. destruct q; simpl; auto. Qed.
Lemma same_kind_trans a b c : same_kind a b -> same_kind b c -> same_kind a c.
Proof. destruct a, b, c; simpl; try tauto; intuition congruence. Qed.
Lemma same_kind_wf dom a b : same_kind a b -> wfq dom a -> wfq dom b.
Proof.
  destruct a, b; simpl; try tauto.
  - intros (<- & <-). auto.
  - intros (<- & <-). auto.
Qed.
Lemma same_kind_ord a b s s' : same_kind a b -> sord a s s' -> sord b s s'.
Proof.
  destruct a, b; simpl; try tauto.
  - intros (<- & _). auto.
  - intros (_ & <-). auto.
Qed.
Lemma same_kind_mrg a b : same_kind a b -> merges a = merges b.
Proof. destruct a, b; simpl; tauto. Qed.
Lemma same_kind_sym a b : same_kind a b -> same_kind b a.
Proof. destruct a, b; simpl; try tauto; intuition congruence. Qed.

Lemma inv_ext q M M' : (forall s, M s = M' s) -> inv q M -> inv q M'.
Proof.
  intros H. destruct q; simpl; intros I; try (intros s; rewrite <- H; auto; fail);
    destruct I as [I J]; (split; [intros s; rewrite <- H; apply I|exact J]).
Qed.

Lemma nth_grow l s i : nth i (grow l s) false = nth i l false.
Proof.
  unfold grow. destruct (Nat.lt_ge_cases i (length l)).
  - rewrite app_nth1 by auto. auto.
  - rewrite app_nth2, (nth_overflow l) by auto. destruct (Nat.lt_ge_cases (i - length l) (S s - length l)).
    + rewrite nth_repeat. auto.
    + rewrite nth_overflow; auto. rewrite repeat_length. auto.
Qed.
Lemma grow_length l s : s < length (grow l s).
Proof. unfold grow. rewrite app_length, repeat_length. lia. Qed.

Lemma widen_bracket occ (occ' : nat -> Prop) front back x front' back' :
  bracket occ front back -> (forall i, occ' i <-> i = x \/ occ i) ->
  widen front back x = (front', back') -> bracket occ' front' back'.
Proof.
  intros [B1 B2] H. unfold widen. destruct back as [b|].
  - destruct (Nat.ltb_spec b front) as [Hb|Hb].
    + intros [= <- <-]. split.
      * intros i Hi. apply H in Hi. destruct Hi as [->|Hi]; [exists x; split; auto; lia|].
        destruct (B1 i Hi) as (b' & [= <-] & ?). lia.
      * intros b' [= <-] _. split; apply H; auto.
    + destruct (B2 b eq_refl Hb) as [Of Ob].
      destruct (Nat.ltb_spec b x) as [Hx|Hx]; [|destruct (Nat.ltb_spec x front) as [Hf|Hf]];
        intros [= <- <-]; split.
      * intros i Hi. apply H in Hi. destruct Hi as [->|Hi]; [exists x; split; auto; lia|].
        destruct (B1 i Hi) as (b' & [= <-] & ?). exists x. split; auto; lia.
      * intros b' [= <-] _. split; apply H; auto.
      * intros i Hi. apply H in Hi. destruct Hi as [->|Hi]; [exists b; split; auto; lia|].
        destruct (B1 i Hi) as (b' & [= <-] & ?). exists b. split; auto; lia.
      * intros b' [= <-] _. split; apply H; auto.
      * intros i Hi. apply H in Hi. destruct Hi as [->|Hi]; [exists b; split; auto; lia|].
        destruct (B1 i Hi) as (b' & [= <-] & ?). exists b. split; auto; lia.
      * intros b' [= <-] _. split; apply H; auto.
  - intros [= <- <-]. split.
    + intros i Hi. apply H in Hi. destruct Hi as [->|Hi]; [exists x; split; auto; lia|].
      destruct (B1 i Hi) as (b' & ? & ?). discriminate.
    + intros b' [= <-] _. split; apply H; auto.
Qed.

Lemma advance_ok {A} (free : A -> bool) d (l : list A) b :
  b < length l -> forall fuel front, b < front + fuel ->
  exists f', advance free fuel l front b = Ok f' /\ front <= f' /\
    (forall i, front <= i < f' -> i <= b -> free (nth i l d) = true) /\
    (f' <= b -> free (nth f' l d) = false).
Proof.
  intros Hb fuel. induction fuel as [|fuel IH]; intros front Hf; cbn [advance].
  - destruct (Nat.leb_spec front b); [lia|].
    exists front. split; auto. split; auto. split; intros; lia.
  - destruct (Nat.leb_spec front b) as [H|H].
    + destruct (nth_error_ex l front) as (x & Ex); [lia|]. rewrite Ex.
      assert (Nx : nth front l d = x) by (apply nth_error_nth with (d := d) in Ex; auto).
      destruct (free x) eqn:E.
      * destruct (IH (S front)) as (f' & E' & L & I & J); [lia|]. exists f'. split; auto.
        split; [lia|]. split; auto. intros i Hi Hb'. destruct (Nat.eq_dec i front) as [->|].
        { congruence. } apply I; lia.
      * exists front. split; auto. split; auto. split; intros; [lia|congruence].
    + exists front. split; auto. split; auto. split; intros; lia.
Qed.

(** Dequeueing from a bracketed array. *)
Lemma bracket_advance {A} (free : A -> bool) d (l : list A) front b :
  free d = true -> bracket (fun i => free (nth i l d) = false) front (Some b) -> front <= b ->
  front < length l /\
  exists f', advance free (length (upd l front d)) (upd l front d) front b = Ok f' /\
    bracket (fun i => free (nth i (upd l front d) d) = false) f' (Some b).
Proof.
  intros Hd [B1 B2] Hfb. destruct (B2 b eq_refl Hfb) as [Of Ob].
  assert (Lb : b < length l). { destruct (Nat.lt_ge_cases b (length l)); auto. rewrite nth_overflow in Ob; congruence. }
  split; [lia|].
  destruct (advance_ok free d (upd l front d) b) with (fuel := length (upd l front d)) (front := front) as (f' & E & L & I & J).
  { rewrite upd_length. auto. }
  { rewrite upd_length. lia. }
  exists f'. split; auto. split.
  - intros i Hi. exists b. split; auto.
    assert (i <> front) by (intros ->; rewrite nth_upd_eq in Hi by lia; congruence).
    assert (free (nth i l d) = false) as Hl by (rewrite nth_upd_ne in Hi by auto; auto).
    destruct (B1 i Hl) as (b' & [= <-] & Hr). split; [|lia].
    destruct (Nat.le_gt_cases f' i); auto. rewrite I in Hi by lia. discriminate.
  - intros b' [= <-] Hf'. split; [apply J; auto|].
    assert (front <> f') by (intros ->; rewrite nth_upd_eq in J by lia; rewrite J in Hd; auto; discriminate).
    rewrite nth_upd_ne by lia. auto.
Qed.

Lemma bracket_iff occ occ' front back : (forall i, occ i <-> occ' i) -> bracket occ front back -> bracket occ' front back.
Proof.
  intros H [B1 B2]. split.
  - intros i Hi. apply H in Hi. auto.
  - intros b E Hb. destruct (B2 b E Hb). split; apply H; auto.
Qed.

Lemma cocc_app l m s : cocc (l ++ m) s = cocc l s + cocc m s.
Proof. apply count_occ_app. Qed.
Lemma cocc_cons x l s : cocc (x :: l) s = (if Nat.eqb x s then 1 else 0) + cocc l s.
Proof. unfold cocc. simpl. destruct (Nat.eq_dec x s), (Nat.eqb_spec x s); auto; contradiction. Qed.
Lemma cocc_in l s : cocc l s > 0 <-> In s l.
Proof. unfold cocc. split; intros; apply count_occ_In with (eq_dec := Nat.eq_dec); auto. Qed.
Lemma cocc_remove1 x l s : In x l -> cocc (remove1 x l) s = cocc l s - (if Nat.eqb x s then 1 else 0).
Proof.
  induction l as [|y l IH]; [intros []|]. intros H. cbn [remove1]. rewrite cocc_cons.
  destruct (Nat.eqb_spec y x) as [->|N].
  - destruct (x =? s); lia.
  - rewrite cocc_cons. destruct H as [->|H]; [congruence|]. rewrite IH by auto.
    destruct (Nat.eqb_spec x s) as [->|].
    + apply cocc_in in H. destruct (y =? s); lia.
    + lia.
Qed.

Lemma heap_max_in less l b : In (heap_max less b l) (b :: l).
Proof.
  revert b. induction l as [|x l IH]; intros b; simpl; auto.
  destruct (less b x).
  - destruct (IH x) as [<-|H]; auto.
  - destruct (IH b) as [<-|H]; auto.
Qed.
Lemma heap_max_ge less l b : weak_order less ->
  forall x, In x (b :: l) -> less (heap_max less b l) x = false.
Proof.
  intros [S T]. assert (R : forall a, less a a = false) by (intros a; destruct (less a a) eqn:E; auto; specialize (S a a E); congruence).
  revert b. induction l as [|y l IH]; intros b x.
  - intros [<-|[]]. simpl. auto.
  - cbn [heap_max]. destruct (less b y) eqn:E.
    + intros [<-|H]; [|apply IH; auto]. apply T with y; [apply IH; simpl; auto|auto].
    + intros [<-|[<-|H]]; [apply IH; simpl; auto| |apply IH; simpl; auto].
      eapply T; [|exact E]. apply IH. simpl; auto.
Qed.

Lemma forallb_dom n l (dom : nat -> Prop) : (forall s, dom s -> s < n) -> (forall s, In s l -> dom s) ->
  forallb (fun x => Nat.ltb x n) l = true.
Proof. intros H D. apply forallb_forall. intros x Hx. apply Nat.ltb_lt. auto. Qed.

Lemma sq_enqueue_ok dom q M s :
  wfq dom q -> inv q M -> (forall s, M s > 0 -> dom s) -> dom s ->
  exists q', sq_enqueue q s = Ok q' /\ same_kind q q' /\ inv q' (addM (merges q) M s).
Proof.
  intros W I D Ds. destruct q; cbn [sq_enqueue merges].
  - eexists. split; [reflexivity|]. split; [exact Logic.I|]. intros x. rewrite cocc_app, cocc_cons, <- (I x). unfold addM, cocc. simpl.
    rewrite (Nat.eqb_sym s x). destruct (Nat.eqb_spec x s); subst; lia.
  - eexists. split; [reflexivity|]. split; [exact Logic.I|]. intros x. rewrite cocc_cons, <- (I x). unfold addM.
    rewrite (Nat.eqb_sym s x). destruct (Nat.eqb_spec x s); subst; lia.
  - eexists. split; [reflexivity|]. split; [exact Logic.I|]. intros x. unfold addM.
    rewrite (Nat.eqb_sym s x). destruct (Nat.eqb_spec x s); auto. destruct (M x) eqn:E; auto.
    exfalso. apply n. apply W; auto. apply D. lia.
  - destruct (widen front back s) as [f' b'] eqn:E. eexists. split; [reflexivity|]. split; [exact Logic.I|].
    destruct I as [I B]. pose proof (grow_length enq s). split.
    + intros x. unfold addM. destruct (Nat.eqb_spec x s) as [->|N].
      * rewrite nth_upd_eq by auto. auto.
      * rewrite nth_upd_ne, nth_grow by auto. auto.
    + eapply widen_bracket; [exact B| |exact E]. intros i. cbv beta. destruct (Nat.eq_dec i s) as [->|N].
      * rewrite nth_upd_eq by auto. tauto.
      * rewrite nth_upd_ne, nth_grow by auto. tauto.
  - destruct W as [W1 W2]. destruct (W1 s Ds) as (o & Eo & Lo). rewrite Eo.
    destruct (widen front back o) as [f' b'] eqn:E. apply Nat.ltb_lt in Lo as Lo'. rewrite Lo'.
    destruct I as (I1 & I2 & B).
    eexists. split; [reflexivity|]. split; [simpl; rewrite upd_length; auto|]. split; [|split].
    + intros x. unfold addM. destruct (Nat.eqb_spec x s) as [->|N].
      * rewrite Eo, nth_upd_eq, Nat.eqb_refl by auto. auto.
      * specialize (I1 x). destruct (nth_error order x) as [ox|] eqn:Ex; auto.
        destruct (Nat.eq_dec ox o) as [->|No].
        -- rewrite nth_upd_eq by auto. assert (s <> x) as Ns by auto. apply Nat.eqb_neq in Ns. rewrite Ns.
           destruct (M x) eqn:EM; auto. exfalso. apply N. apply W2; auto; [apply D; lia|congruence].
        -- rewrite nth_upd_ne by auto. auto.
    + intros i x. destruct (Nat.eq_dec i o) as [->|No].
      * rewrite nth_upd_eq by auto. intros [= <-]. auto.
      * rewrite nth_upd_ne by auto. auto.
    + eapply widen_bracket; [exact B| |exact E]. intros i. cbv beta. destruct (Nat.eq_dec i o) as [->|N].
      * rewrite nth_upd_eq by auto. split; [auto|discriminate].
      * rewrite nth_upd_ne by auto. tauto.
  - simpl in W, I. assert (forall x, In x l -> dom x) as Dl by (intros x Hx; apply D; rewrite I; apply cocc_in; auto).
    rewrite (proj2 (Nat.ltb_lt s n)) by auto. rewrite (forallb_dom n l dom) by auto.
    simpl. assert (match l with [] => true | _ => true end = true) as -> by (destruct l; auto).
    eexists. split; [reflexivity|]. split; [simpl; auto|].
    intros x. rewrite cocc_app, cocc_cons, <- (I x). unfold addM, cocc. simpl.
    rewrite (Nat.eqb_sym s x). destruct (Nat.eqb_spec x s); subst; lia.
Qed.

Lemma sq_empty_ok q M : inv q M -> (sq_is_empty q = true <-> forall s, M s = 0).
Proof.
  assert (Hl : forall l : list nat, (forall s, M s = cocc l s) -> (l = [] <-> forall s, M s = 0)).
  { intros l H. split; [intros -> s; rewrite H; auto|]. intros E. destruct l as [|x l]; auto.
    specialize (E x). rewrite H, cocc_cons, Nat.eqb_refl in E. discriminate. }
  destruct q; cbn [sq_is_empty inv].
  - intros H. rewrite <- (Hl l H). destruct l; split; congruence.
  - intros H. rewrite <- (Hl l H). destruct l; split; congruence.
  - intros H. destruct o as [x|]; [|tauto]. split; [discriminate|]. intros E. specialize (E x). rewrite H, Nat.eqb_refl in E. discriminate.
  - intros [I [B1 B2]]. destruct back as [b|].
    + rewrite Nat.ltb_lt. split.
      * intros Hb s. rewrite I. destruct (nth s enq false) eqn:E; auto. destruct (B1 s E) as (b' & [= <-] & ?). lia.
      * intros H. destruct (Nat.lt_ge_cases b front) as [|Hf]; auto. destruct (B2 b eq_refl Hf) as [Of _].
        specialize (H front). rewrite I, Of in H. discriminate.
    + split; auto. intros _ s. rewrite I. destruct (nth s enq false) eqn:E; auto. destruct (B1 s E) as (b' & ? & ?). discriminate.
  - intros (I & I2 & [B1 B2]). destruct back as [b|].
    + rewrite Nat.ltb_lt. split.
      * intros Hb s. rewrite I. destruct (nth_error order s) as [o|]; auto.
        destruct (nth o st None) eqn:E; auto. destruct (B1 o) as (b' & [= <-] & ?); [congruence|lia].
      * intros H. destruct (Nat.lt_ge_cases b front) as [|Hf]; auto. destruct (B2 b eq_refl Hf) as [Of _].
        destruct (nth front st None) as [x|] eqn:E; [|congruence]. specialize (H x).
        rewrite I, (I2 front x), E, Nat.eqb_refl in H by auto. discriminate.
    + split; auto. intros _ s. rewrite I. destruct (nth_error order s) as [o|]; auto.
      destruct (nth o st None) eqn:E; auto. destruct (B1 o) as (b' & ? & ?); [congruence|discriminate].
  - intros H. rewrite <- (Hl l H). destruct l; split; congruence.
Qed.

Lemma sq_dequeue_ok dom q M :
  wfq dom q -> inv q M -> (forall s, M s > 0 -> dom s) ->
  exists o q', sq_dequeue q = Ok (o, q') /\ same_kind q q' /\
    match o with
    | None => (forall s, M s = 0) /\ q' = q
    | Some s => M s > 0 /\ inv q' (subM M s) /\ forall s', M s' > 0 -> sord q s s'
    end.
Proof.
  intros W I D. destruct (sq_is_empty q) eqn:Em.
  - pose proof (proj1 (sq_empty_ok q M I) Em) as Z. exists None, q.
    assert (sq_dequeue q = Ok (None, q)).
    { destruct q as [[|]|[|]|[|]| | |? ? [|]]; try discriminate Em; cbn [sq_dequeue]; try rewrite Em; auto. }
    split; auto. split; [apply same_kind_refl|auto].
  - destruct q as [l|l|o|front back enq|order st front back|n less l]; cbn [sq_dequeue].
    + destruct l as [|x l]; [discriminate|]. exists (Some x), (QFifo l). split; auto. split; [exact Logic.I|].
      split; [rewrite I, cocc_cons, Nat.eqb_refl; lia|]. split; [|simpl; auto].
      intros s. unfold subM. specialize (I s) as Is. rewrite cocc_cons in Is. rewrite (Nat.eqb_sym s x).
      destruct (Nat.eqb_spec x s); subst; lia.
    + destruct l as [|x l]; [discriminate|]. exists (Some x), (QLifo l). split; auto. split; [exact Logic.I|].
      split; [rewrite I, cocc_cons, Nat.eqb_refl; lia|]. split; [|simpl; auto].
      intros s. unfold subM. specialize (I s) as Is. rewrite cocc_cons in Is. rewrite (Nat.eqb_sym s x).
      destruct (Nat.eqb_spec x s); subst; lia.
    + destruct o as [x|]; [|discriminate]. exists (Some x), (QTriv None). split; auto. split; [exact Logic.I|].
      simpl in I. split; [rewrite I, Nat.eqb_refl; lia|]. split; [|simpl; auto].
      intros s. unfold subM. rewrite !I. rewrite (Nat.eqb_sym s x). rewrite Nat.eqb_refl. destruct (x =? s); auto.
    + rewrite Em. destruct I as [I B]. destruct back as [b|]; [|discriminate].
      cbn [sq_is_empty] in Em. apply Nat.ltb_ge in Em.
      destruct (bracket_advance negb false enq front b) as (Lf & f' & E & B'); auto.
      { eapply bracket_iff; [|exact B]. intros i. cbv beta. destruct (nth i enq false); simpl; intuition congruence. }
      apply Nat.ltb_lt in Lf as ->. rewrite E. cbn [rbind].
      destruct B as [B1 B2]. destruct (B2 b eq_refl Em) as [Of Ob].
      exists (Some front). eexists. split; [reflexivity|]. split; [exact Logic.I|]. split; [rewrite I, Of; lia|]. split.
      * split.
        -- intros s. unfold subM. destruct (Nat.eqb_spec s front) as [->|N].
           ++ rewrite I, Of. destruct (Nat.lt_ge_cases front (length enq)).
              ** rewrite nth_upd_eq by auto. auto.
              ** rewrite nth_overflow in Of by auto. discriminate.
           ++ rewrite nth_upd_ne by auto. apply I.
        -- eapply bracket_iff; [|exact B']. intros i. cbv beta. destruct (nth i (upd enq front false) false); simpl; intuition congruence.
      * intros s' H. simpl. rewrite I in H. destruct (nth s' enq false) eqn:Es; [|lia].
        destruct (B1 s' Es) as (? & ? & ?). lia.
    + rewrite Em. destruct I as (I & I2 & B). destruct back as [b|]; [|discriminate].
      cbn [sq_is_empty] in Em. apply Nat.ltb_ge in Em.
      destruct (bracket_advance is_none None st front b) as (Lf & f' & E & B'); auto.
      { eapply bracket_iff; [|exact B]. intros i. cbv beta. destruct (nth i st None); simpl; intuition congruence. }
      destruct (nth_error_ex st front Lf) as (old & Eo). rewrite Eo, E. cbn [rbind].
      apply nth_error_nth with (d := None) in Eo as No.
      destruct B as [B1 B2]. destruct (B2 b eq_refl Em) as [Of Ob].
      destruct old as [x|]; [|congruence].
      pose proof (I2 _ _ No) as Ox.
      exists (Some x). eexists. split; [reflexivity|]. split; [simpl; rewrite upd_length; auto|].
      split; [rewrite I, Ox, No, Nat.eqb_refl; lia|]. split.
      * split; [|split].
        -- intros s. unfold subM. destruct (Nat.eqb_spec s x) as [->|N].
           ++ rewrite I, Ox, No, Nat.eqb_refl, nth_upd_eq by auto. auto.
           ++ rewrite I. destruct (nth_error order s) as [os|] eqn:Es; auto.
              destruct (Nat.eq_dec os front) as [->|].
              ** rewrite No, nth_upd_eq by auto. apply not_eq_sym in N. apply Nat.eqb_neq in N as ->. auto.
              ** rewrite nth_upd_ne by auto. auto.
        -- intros i y. destruct (Nat.eq_dec i front) as [->|].
           ++ rewrite nth_upd_eq by auto. discriminate.
           ++ rewrite nth_upd_ne by auto. apply I2.
        -- eapply bracket_iff; [|exact B']. intros i. cbv beta. destruct (nth i (upd st front None) None); simpl; intuition congruence.
      * intros s' H. simpl. intros o o' E1 E2. rewrite Ox in E1. injection E1 as <-.
        rewrite I, E2 in H. destruct (nth o' st None) eqn:En; [|lia].
        destruct (B1 o') as (? & ? & ?); [congruence|lia].
    + destruct l as [|x l]; [discriminate|]. simpl in W. cbn [inv] in I.
      assert (forall y, In y (x :: l) -> dom y) as Dl by (intros y Hy; apply D; rewrite I; apply cocc_in; auto).
      rewrite (forallb_dom n (x :: l) dom) by auto.
      assert (match l with [] => true | _ => true end = true) as -> by (destruct l; auto).
      pose proof (heap_max_in less l x) as Hin. set (m := heap_max less x l) in *.
      exists (Some m). eexists. split; [reflexivity|]. split; [simpl; auto|].
      split; [rewrite I; apply cocc_in; auto|]. split.
      * intros s. rewrite cocc_remove1 by auto. unfold subM. rewrite (Nat.eqb_sym s m), !I.
        destruct (Nat.eqb_spec m s) as [->|]; lia.
      * intros s' H. simpl. intros WO. apply heap_max_ge; auto. apply cocc_in. rewrite <- I. auto.
Qed.

Lemma clear_range_ok {A} (v : A) l front b : (front <= b -> b < length l) ->
  exists l', clear_range v l front b = Ok l' /\ length l' = length l /\
    forall i d, nth i l' d = if Nat.leb front i && Nat.leb i b && Nat.ltb i (length l) then v else nth i l d.
Proof.
  intros Hb. unfold clear_range. assert (G : forall k f (x : list A), length x = length l -> (k > 0 -> f + k <= length l) ->
    exists l', fold_left (fun r i => x <-- r ;; if Nat.ltb i (length x) then Ok (upd x i v) else Panic) (seq f k) (Ok x) = Ok l' /\
      length l' = length l /\
      forall i d, nth i l' d = if Nat.leb f i && Nat.ltb i (f + k) then v else nth i x d).
  { induction k as [|k IH]; intros f x Hx Hk.
    - exists x. split; auto. split; auto. intros i d. destruct (Nat.leb_spec f i), (Nat.ltb_spec i (f + 0)); simpl; auto; lia.
    - cbn [seq fold_left rbind]. rewrite (proj2 (Nat.ltb_lt f (length x))) by lia.
      destruct (IH (S f) (upd x f v)) as (l' & E & Ll & N); [rewrite upd_length; auto|lia|].
      exists l'. split; [exact E|]. split; auto. intros i d. rewrite N.
      destruct (Nat.leb_spec (S f) i), (Nat.ltb_spec i (S f + k)), (Nat.leb_spec f i), (Nat.ltb_spec i (f + S k)); simpl; auto; try lia.
      + apply nth_upd_ne; lia.
      + replace i with f by lia. apply nth_upd_eq. lia.
      + apply nth_upd_ne; lia. }
  destruct (G (S b - front) front l eq_refl) as (l' & E & Ll & N); [lia|].
  exists l'. split; auto. split; auto. intros i d. rewrite N.
  destruct (Nat.leb_spec front i), (Nat.ltb_spec i (front + (S b - front))), (Nat.leb_spec i b), (Nat.ltb_spec i (length l)); simpl; auto; try lia.
Qed.

Lemma sq_clear_ok q M :
  inv q M -> exists q', sq_clear q = Ok q' /\ same_kind q q' /\ inv q' (fun _ => 0).
Proof.
  intros I. destruct q as [l|l|o|front back enq|order st front back|n less l]; cbn [sq_clear].
  1,2,3,6: eexists; split; [reflexivity|]; split; [simpl; auto|]; simpl; auto.
  - destruct I as [I [B1 B2]]. destruct back as [b|].
    + destruct (clear_range_ok false enq front b) as (e & E & Le & N).
      { intros Hf. destruct (B2 b eq_refl Hf) as [_ Ob]. destruct (Nat.lt_ge_cases b (length enq)); auto.
        rewrite nth_overflow in Ob; auto; discriminate. }
      rewrite E. eexists. split; [reflexivity|]. split; [exact Logic.I|].
      assert (Z : forall i, nth i e false = false).
      { intros i. rewrite N. destruct (nth i enq false) eqn:Ei.
        - destruct (B1 i Ei) as (b' & [= <-] & ?).
          assert (i < length enq) as Li. { destruct (Nat.lt_ge_cases i (length enq)); auto. rewrite nth_overflow in Ei; auto; discriminate. }
          rewrite (proj2 (Nat.leb_le front i)), (proj2 (Nat.leb_le i b)), (proj2 (Nat.ltb_lt _ _) Li) by lia. auto.
        - destruct (_ && _); auto. }
      split; [intros s; rewrite Z; auto|]. split; [intros i H; rewrite Z in H; discriminate|intros; discriminate].
    + eexists. split; [reflexivity|]. split; [exact Logic.I|].
      assert (Z : forall i, nth i enq false = false).
      { intros i. destruct (nth i enq false) eqn:Ei; auto. destruct (B1 i Ei) as (? & ? & ?). discriminate. }
      split; [intros s; rewrite Z; auto|]. split; [intros i H; rewrite Z in H; discriminate|intros; discriminate].
  - destruct I as (I & I2 & [B1 B2]). destruct back as [b|].
    + destruct (clear_range_ok None st front b) as (e & E & Le & N).
      { intros Hf. destruct (B2 b eq_refl Hf) as [_ Ob]. destruct (Nat.lt_ge_cases b (length st)); auto.
        rewrite nth_overflow in Ob; auto; congruence. }
      rewrite E. eexists. split; [reflexivity|]. split; [simpl; auto|].
      assert (Z : forall i, nth i e None = None).
      { intros i. rewrite N. destruct (nth i st None) eqn:Ei.
        - destruct (B1 i) as (b' & [= <-] & ?); [congruence|].
          assert (i < length st) as Li. { destruct (Nat.lt_ge_cases i (length st)); auto. rewrite nth_overflow in Ei; auto; discriminate. }
          rewrite (proj2 (Nat.leb_le front i)), (proj2 (Nat.leb_le i b)), (proj2 (Nat.ltb_lt _ _) Li) by lia. auto.
        - destruct (_ && _); auto. }
      split; [intros s; destruct (nth_error order s); auto; rewrite Z; auto|].
      split; [intros i x H; rewrite Z in H; discriminate|].
      split; [intros i H; rewrite Z in H; congruence|intros; discriminate].
    + eexists. split; [reflexivity|]. split; [simpl; auto|].
      assert (Z : forall i, nth i st None = None).
      { intros i. destruct (nth i st None) eqn:Ei; auto. destruct (B1 i) as (? & ? & ?); [congruence|discriminate]. }
      split; [intros s; destruct (nth_error order s); auto; rewrite Z; auto|].
      split; [intros i x H; rewrite Z in H; discriminate|].
      split; [intros i H; rewrite Z in H; congruence|intros; discriminate].
Qed.

(** ** Component queues. *)
Definition part (M : nat -> nat) (sccs : list nat) (i : nat) : nat -> nat :=
  fun s => match nth_error sccs s with Some c => if Nat.eqb c i then M s else 0 | None => 0 end.

Definition qkind (q q' : queue) : Prop :=
  match q, q' with
  | QS a, QS b => same_kind a b
  | QScc _ _ qs sccs, QScc _ _ qs' sccs' => sccs = sccs' /\ Forall2 same_kind qs qs'
  | _, _ => False
  end.

Definition qmerges (q : queue) (s : nat) : bool :=
  match q with
  | QS a => merges a
  | QScc _ _ qs sccs =>
      match nth_error sccs s with
      | Some c => match nth_error qs c with Some a => merges a | None => false end
      | None => false
      end
  end.

Definition qwf (dom : nat -> Prop) (q : queue) : Prop :=
  match q with
  | QS a => wfq dom a
  | QScc _ _ qs sccs =>
      (forall s, dom s -> exists c, nth_error sccs s = Some c /\ c < length qs) /\
      (forall c a, nth_error qs c = Some a -> wfq (fun s => dom s /\ nth_error sccs s = Some c) a)
  end.

(** [last] is the state returned by the last call of [dequeue] since [clear]. *)
Definition qinv (q : queue) (M : nat -> nat) (last : option nat) : Prop :=
  match q with
  | QS a => inv a M
  | QScc f b qs sccs =>
      (forall i a, nth_error qs i = Some a -> inv a (part M sccs i)) /\
      (forall s, M s > 0 -> exists c, nth_error sccs s = Some c /\ (f <= Z.of_nat c <= b)%Z) /\
      ((f <= b)%Z -> (0 <= f)%Z /\ (b < Z.of_nat (length qs))%Z) /\
      ((exists s, M s > 0 /\ nth_error sccs s = Some (Z.to_nat b)) \/
       (match last with None => (b < f)%Z | Some _ => f = b end)) /\
      (match last with None => True
       | Some t => exists c, nth_error sccs t = Some c /\ f = Z.of_nat c /\ (f <= b)%Z end)
  end.

Definition qdisc (q : queue) (last : option nat) (s : nat) : Prop :=
  match q, last with
  | QScc _ _ _ sccs, Some t => forall c d, nth_error sccs t = Some c -> nth_error sccs s = Some d -> c <= d
  | _, _ => True
  end.

Definition qord (q : queue) (s s' : nat) : Prop :=
  match q with
  | QS a => sord a s s'
  | QScc _ _ qs sccs =>
      forall c c', nth_error sccs s = Some c -> nth_error sccs s' = Some c' ->
      c <= c' /\ (c = c' -> forall a, nth_error qs c = Some a -> sord a s s')
  end.

Lemma Forall2_upd {A B} (R : A -> B -> Prop) l m i y :
  Forall2 R l m -> (forall x, nth_error l i = Some x -> R x y) -> Forall2 R l (upd m i y).
Proof.
  intros H. revert i. induction H; intros i E; simpl; [constructor|].
  destruct i; constructor; auto.
Qed.
Lemma Forall2_same_refl qs : Forall2 same_kind qs qs.
Proof. induction qs; constructor; auto. apply same_kind_refl. Qed.

Lemma qkind_refl q : qkind q q.
Proof. destruct q; simpl; auto using same_kind_refl, Forall2_same_refl. Qed.
Lemma Forall2_trans {A} (R : A -> A -> Prop) (T : forall a b c, R a b -> R b c -> R a c) l m n :
  Forall2 R l m -> Forall2 R m n -> Forall2 R l n.
Proof.
  intros H. revert n. induction H; intros n H'; inversion H'; subst; constructor; eauto.
Qed.
Lemma qkind_trans a b c : qkind a b -> qkind b c -> qkind a c.
Proof.
  destruct a, b, c; simpl; try tauto; [apply same_kind_trans|].
  intros (-> & H1) (-> & H2). split; auto. eapply Forall2_trans; eauto. exact same_kind_trans.
Qed.
Lemma Forall2_nth_l {A B} (R : A -> B -> Prop) l m i x : Forall2 R l m -> nth_error l i = Some x ->
  exists y, nth_error m i = Some y /\ R x y.
Proof.
  intros H. revert i. induction H; intros i E; [destruct i; discriminate|].
  destruct i; simpl in *; eauto. injection E as ->. eauto.
Qed.
Lemma Forall2_nth_r {A B} (R : A -> B -> Prop) l m i y : Forall2 R l m -> nth_error m i = Some y ->
  exists x, nth_error l i = Some x /\ R x y.
Proof.
  intros H. revert i. induction H; intros i E; [destruct i; discriminate|].
  destruct i; simpl in *; eauto. injection E as ->. eauto.
Qed.

Lemma qkind_wf dom a b : qkind a b -> qwf dom a -> qwf dom b.
Proof.
  destruct a, b; simpl; try tauto; [apply same_kind_wf|].
  intros (<- & F) [W1 W2]. split.
  - intros s Ds. destruct (W1 s Ds) as (c & ? & ?). exists c. split; auto. rewrite <- (Forall2_len _ _ _ F). auto.
  - intros c a E. destruct (Forall2_nth_r _ _ _ _ _ F E) as (x & Ex & Sx). eapply same_kind_wf; eauto.
Qed.
Lemma qkind_mrg a b s : qkind a b -> qmerges a s = qmerges b s.
Proof.
  destruct a, b; simpl; try tauto; [apply same_kind_mrg|].
  intros (<- & F). destruct (nth_error sccs s); auto. destruct (nth_error qs n) eqn:E.
  - destruct (Forall2_nth_l _ _ _ _ _ F E) as (x & -> & Sx). apply same_kind_mrg; auto.
  - destruct (nth_error qs0 n) eqn:E'; auto. destruct (Forall2_nth_r _ _ _ _ _ F E') as (x & Ex & Sx). congruence.
Qed.
Lemma qkind_ord a b s s' : qkind a b -> qord a s s' -> qord b s s'.
Proof.
  destruct a, b; simpl; try tauto; [apply same_kind_ord|].
  intros (<- & F) H c c' E E'. destruct (H c c' E E') as [Hc Ho]. split; auto.
  intros Ec a Ea. destruct (Forall2_nth_r _ _ _ _ _ F Ea) as (x & Ex & Sx). eapply same_kind_ord; eauto.
Qed.
Lemma qkind_disc a b last s : qkind a b -> qdisc a last s <-> qdisc b last s.
Proof. destruct a, b; simpl; try tauto. intros (<- & _). tauto. Qed.
Lemma same_kinds_sym l m : Forall2 same_kind l m -> Forall2 same_kind m l.
Proof. induction 1; constructor; auto using same_kind_sym. Qed.
Lemma qkind_sym a b : qkind a b -> qkind b a.
Proof. destruct a, b; simpl; try tauto; [apply same_kind_sym|]. intros (-> & F). split; auto. apply same_kinds_sym; auto. Qed.

Lemma part_dom M sccs i s : part M sccs i s > 0 -> M s > 0 /\ nth_error sccs s = Some i.
Proof.
  unfold part. destruct (nth_error sccs s) as [c|]; [|lia]. destruct (Nat.eqb_spec c i); [subst|lia]. auto.
Qed.
Lemma part_in M sccs i s : nth_error sccs s = Some i -> part M sccs i s = M s.
Proof. unfold part. intros ->. rewrite Nat.eqb_refl. auto. Qed.

Lemma q_is_empty_ok dom q M last : qwf dom q -> qinv q M last ->
  exists e, q_is_empty q = Ok e /\ (e = true <-> forall s, M s = 0).
Proof.
  destruct q as [a|f b qs sccs]; cbn [qinv q_is_empty].
  - intros _ I. eexists. split; eauto. apply sq_empty_ok; auto.
  - intros [W1 W2] (I1 & I2 & I3 & I4 & I5). destruct (Z.compare_spec f b) as [E|E|E].
    + subst b. destruct (I3 (Z.le_refl _)) as [F1 F2]. unfold znth.
      rewrite (proj2 (Z.leb_le 0 f) F1).
      destruct (nth_error_ex qs (Z.to_nat f)) as (a & Ea); [lia|]. rewrite Ea.
      eexists. split; [reflexivity|]. rewrite (sq_empty_ok _ _ (I1 _ _ Ea)). split.
      * intros H s. destruct (M s) eqn:Es; auto. destruct (I2 s) as (c & Ec & Hc); [lia|].
        specialize (H s). rewrite part_in in H; [lia|]. rewrite Ec. f_equal. lia.
      * intros H s. unfold part. destruct (nth_error sccs s); auto. destruct (_ =? _); auto.
    + eexists. split; [reflexivity|]. split; [discriminate|]. intros H. exfalso.
      destruct I4 as [(s & Hs & _)|I4]; [rewrite H in Hs; lia|]. destruct last; lia.
    + eexists. split; [reflexivity|]. split; auto. intros _ s. destruct (M s) eqn:Es; auto.
      destruct (I2 s) as (c & Ec & Hc); lia.
Qed.

Lemma q_enqueue_ok dom q M last s :
  qwf dom q -> qinv q M last -> (forall s, M s > 0 -> dom s) -> dom s -> qdisc q last s ->
  exists q', q_enqueue q s = Ok q' /\ qkind q q' /\ qinv q' (addM (qmerges q s) M s) last.
Proof.
  destruct q as [a|f b qs sccs]; cbn [q_enqueue qmerges qdisc qkind].
  - intros W I D Ds _. destruct (sq_enqueue_ok dom a M s W I D Ds) as (q' & -> & Sk & I').
    eexists. split; [reflexivity|]. simpl. auto.
  - intros [W1 W2] (I1 & I2 & I3 & I4 & I5) D Ds Hd.
    destruct (W1 s Ds) as (c & Ec & Lc). destruct (nth_error_ex qs c Lc) as (a & Ea). rewrite Ec, Ea.
    destruct (sq_enqueue_ok (fun s => dom s /\ nth_error sccs s = Some c) a (part M sccs c) s) as (a' & Eq' & Sk & I'); auto.
    { intros x Hx. apply part_dom in Hx. split; [apply D|]; tauto. }
    assert (Q : exists f' b', (if (b <? f)%Z then (Z.of_nat c, Z.of_nat c)
                 else if (b <? Z.of_nat c)%Z then (f, Z.of_nat c)
                 else if (Z.of_nat c <? f)%Z then (Z.of_nat c, b) else (f, b)) = (f', b') /\
       (f' <= Z.of_nat c <= b')%Z /\ ((b < f)%Z \/ (f' <= f)%Z /\ (b <= b')%Z) /\
       (0 <= f')%Z /\ (b' < Z.of_nat (length qs))%Z /\
       ((exists x, (M x > 0 \/ x = s) /\ nth_error sccs x = Some (Z.to_nat b')) \/
        match last with None => False | Some _ => f' = b' end) /\
       match last with None => True | Some t => f' = f end).
    { destruct (Z.ltb_spec b f) as [H1|H1]; [|destruct (Z.ltb_spec b (Z.of_nat c)) as [H2|H2];
        [|destruct (Z.ltb_spec (Z.of_nat c) f) as [H3|H3]]].
      - do 2 eexists. split; [reflexivity|]. split; [lia|]. split; [auto|]. split; [lia|]. split; [lia|].
        split; [left; exists s; rewrite Nat2Z.id; auto|]. destruct last; auto. destruct I5 as (? & ? & ? & ?). lia.
      - destruct (I3 H1). do 2 eexists. split; [reflexivity|]. split; [lia|]. split; [right; lia|]. split; [lia|]. split; [lia|].
        split; [left; exists s; rewrite Nat2Z.id; auto|]. destruct last; auto.
      - destruct (I3 H1). do 2 eexists. split; [reflexivity|]. split; [lia|]. split; [right; lia|]. split; [lia|]. split; [lia|].
        destruct last as [t|].
        + destruct I5 as (d & Et & ? & ?). specialize (Hd d c Et Ec). lia.
        + destruct I4 as [(x & Hx & Ex)|]; [|lia]. split; auto. left. exists x. auto.
      - destruct (I3 H1). do 2 eexists. split; [reflexivity|]. split; [lia|]. split; [right; lia|]. split; [lia|]. split; [lia|].
        split; [|destruct last; auto]. destruct I4 as [(x & Hx & Ex)|E]; [left; exists x; auto|].
        destruct last; [auto|lia]. }
    destruct Q as (f' & b' & -> & Q1 & Q2 & Q3 & Q4 & Q5 & Q6). rewrite Eq'. cbn [rbind].
    eexists. split; [reflexivity|]. split.
    { split; auto. apply Forall2_upd; [apply Forall2_same_refl|]. congruence. }
    assert (PM : forall x, M x > 0 \/ x = s -> addM (merges a) M s x > 0).
    { intros x. unfold addM. destruct (Nat.eqb_spec x s); [destruct (merges a); lia|]. intros [H|H]; auto. contradiction. }
    split; [|split; [|split; [|split]]].
    + intros i y. rewrite nth_error_upd. destruct (Nat.eqb_spec c i) as [<-|N].
      * rewrite (proj2 (Nat.ltb_lt c (length qs)) Lc). intros [= <-].
        eapply inv_ext; [|exact I']. intros x. unfold addM, part.
        destruct (Nat.eqb_spec x s) as [->|]; auto. rewrite Ec, Nat.eqb_refl. auto.
      * simpl. intros Ey. eapply inv_ext; [|exact (I1 i y Ey)]. intros x. unfold addM, part.
        destruct (Nat.eqb_spec x s) as [->|]; auto. rewrite Ec. apply Nat.eqb_neq in N. rewrite N. auto.
    + intros x. unfold addM. destruct (Nat.eqb_spec x s) as [->|].
      * intros _. exists c. auto.
      * intros Hx. destruct (I2 x Hx) as (d & Ed & Hd'). exists d. split; auto. lia.
    + rewrite upd_length. auto.
    + destruct Q5 as [(x & Hx & Ex)|Q5]; [left; exists x; auto|]. right. destruct last; auto. contradiction.
    + destruct last as [t|]; auto. destruct I5 as (d & Et & -> & Hd'). exists d. split; auto. split; auto. lia.
Qed.

Lemma update_front_ok qs back : forall fuel front,
  (back < front + Z.of_nat fuel)%Z -> (0 <= front)%Z -> (back < Z.of_nat (length qs))%Z ->
  exists f', update_front fuel front back qs = Ok f' /\ (front <= f')%Z /\
    (forall i, (front <= i < f')%Z -> (i <= back)%Z -> exists a, nth_error qs (Z.to_nat i) = Some a /\ sq_is_empty a = true) /\
    ((f' <= back)%Z -> exists a, nth_error qs (Z.to_nat f') = Some a /\ sq_is_empty a = false).
Proof.
  induction fuel as [|fuel IH]; intros front Hf H0 Hl; cbn [update_front].
  - destruct (Z.leb_spec front back); [lia|]. exists front. split; auto. split; [lia|]. split; intros; lia.
  - destruct (Z.leb_spec front back) as [H|H].
    + unfold znth. rewrite (proj2 (Z.leb_le 0 front) H0).
      destruct (nth_error_ex qs (Z.to_nat front)) as (a & Ea); [lia|]. rewrite Ea.
      destruct (sq_is_empty a) eqn:E.
      * destruct (IH (front + 1)%Z) as (f' & E' & L & I & J); [lia|lia|auto|]. exists f'. split; auto.
        split; [lia|]. split; auto. intros i Hi Hb. destruct (Z.eq_dec i front) as [->|]; [eauto|]. apply I; lia.
      * exists front. split; auto. split; [lia|]. split; intros; [lia|]. eauto.
    + exists front. split; auto. split; [lia|]. split; intros; lia.
Qed.

Lemma q_dequeue_ok dom q M last :
  qwf dom q -> qinv q M last -> (forall s, M s > 0 -> dom s) ->
  exists o q', q_dequeue q = Ok (o, q') /\ qkind q q' /\
    match o with
    | None => (forall s, M s = 0) /\ qinv q' M last
    | Some s => M s > 0 /\ qinv q' (subM M s) (Some s) /\ forall s', M s' > 0 -> qord q s s'
    end.
Proof.
  intros W I D. destruct q as [a|f b qs sccs].
  - destruct (sq_dequeue_ok dom a M W I D) as (o & a' & E & Sk & H). cbn [q_dequeue]. rewrite E. cbn [rbind fst snd].
    exists o, (QS a'). split; auto. split; [exact Sk|]. destruct o; simpl.
    + auto.
    + destruct H as [H ->]. auto.
  - destruct (q_is_empty_ok dom _ M last W I) as (e & Ee & He). unfold q_dequeue. rewrite Ee. cbn [rbind].
    destruct e.
    { exists None. eexists. split; [reflexivity|]. split; [apply qkind_refl|]. split; auto. apply He. auto. }
    destruct W as [W1 W2]. destruct I as (I1 & I2 & I3 & I4 & I5).
    assert (Z0 : (forall s, M s = 0) -> False) by (intros Z; apply He in Z; discriminate).
    assert (Hfb : (f <= b)%Z).
    { destruct (Z.le_gt_cases f b); auto. exfalso. apply Z0. intros s. destruct (M s) eqn:Es; auto.
      destruct (I2 s) as (c & _ & ?); lia. }
    destruct (I3 Hfb) as [F1 F2].
    destruct (update_front_ok qs b (S (length qs)) f) as (f' & E' & L & J1 & J2); [lia|auto|auto|].
    rewrite E'. cbn [rbind].
    assert (Emp : forall i a, nth_error qs i = Some a -> sq_is_empty a = true -> forall s, nth_error sccs s = Some i -> M s = 0).
    { intros i a Ea Em s Es. pose proof (proj1 (sq_empty_ok _ _ (I1 _ _ Ea)) Em s) as Z. rewrite part_in in Z; auto. }
    assert (Low : forall s c, M s > 0 -> nth_error sccs s = Some c -> (f' <= Z.of_nat c <= b)%Z).
    { intros s c Hs Ec. destruct (I2 s Hs) as (c' & Ec' & Hc). rewrite Ec in Ec'. injection Ec' as <-. split; [|lia].
      destruct (Z.le_gt_cases f' (Z.of_nat c)) as [|Hlt]; auto. destruct (J1 (Z.of_nat c)) as (a & Ea & Em); [lia|lia|].
      rewrite Nat2Z.id in Ea. specialize (Emp _ _ Ea Em s Ec). lia. }
    assert (Hf' : (f' <= b)%Z).
    { destruct (Z.le_gt_cases f' b); auto. exfalso. apply Z0. intros s. destruct (M s) eqn:Es; auto.
      destruct (I2 s) as (c & Ec & ?); [lia|]. destruct (Low s c ltac:(lia) Ec); lia. }
    destruct (J2 Hf') as (a & Ea & Em). unfold znth. rewrite (proj2 (Z.leb_le 0 f')) by lia. rewrite Ea.
    destruct (sq_dequeue_ok _ a _ (W2 _ _ Ea) (I1 _ _ Ea)) as (o & a' & E & Sk & H).
    { intros x Hx. apply part_dom in Hx. split; [apply D|]; tauto. }
    rewrite E. cbn [rbind fst snd]. destruct o as [s|].
    2:{ destruct H as [H _]. apply (sq_empty_ok _ _ (I1 _ _ Ea)) in H. congruence. }
    destruct H as (Hs & I' & Ho). apply part_dom in Hs as Hs'. destruct Hs' as [Ms Es].
    exists (Some s). eexists. split; [reflexivity|]. split.
    { split; auto. apply Forall2_upd; [apply Forall2_same_refl|]. congruence. }
    split; auto. split; [split; [|split; [|split; [|split]]]|].
    + intros i y. rewrite nth_error_upd. destruct (Nat.eqb_spec (Z.to_nat f') i) as [<-|N].
      * rewrite (proj2 (Nat.ltb_lt _ _) (nth_error_lt _ _ _ Ea)). intros [= <-].
        eapply inv_ext; [|exact I']. intros x. unfold subM, part.
        destruct (Nat.eqb_spec x s) as [->|]; auto. rewrite Es, Nat.eqb_refl. auto.
      * simpl. intros Ey. eapply inv_ext; [|exact (I1 i y Ey)]. intros x. unfold subM, part.
        destruct (Nat.eqb_spec x s) as [->|]; auto. rewrite Es. apply Nat.eqb_neq in N. rewrite N. auto.
    + intros x Hx. assert (M x > 0) as Mx by (revert Hx; unfold subM; destruct (Nat.eqb_spec x s); subst; lia).
      destruct (I2 x Mx) as (c & Ec & _). exists c. split; auto. apply (Low x); auto.
    + rewrite upd_length. lia.
    + destruct (Z.eq_dec f' b) as [|N]; auto. left.
      destruct I4 as [(x & Hx & Ex)|I4].
      * exists x. split; auto. unfold subM. destruct (Nat.eqb_spec x s) as [->|]; auto.
        rewrite Es in Ex. injection Ex as Ex. lia.
      * destruct last; lia.
    + exists (Z.to_nat f'). split; auto. lia.
    + intros s' Hs'. intros c c' Ec Ec'. rewrite Es in Ec. injection Ec as <-.
      destruct (Low s' c' Hs' Ec'). split; [lia|]. intros Ecc a0 Ea0. rewrite Ea in Ea0. injection Ea0 as <-.
      apply Ho. rewrite part_in; congruence.
Qed.

Lemma q_clear_ok dom q M last :
  qwf dom q -> qinv q M last -> (forall s, M s > 0 -> dom s) ->
  exists q', q_clear q = Ok q' /\ qkind q q' /\ qinv q' (fun _ => 0) None.
Proof.
  intros W I D. destruct q as [a|f b qs sccs].
  - destruct (sq_clear_ok a M I) as (a' & E & Sk & I'). cbn [q_clear]. rewrite E. eexists. split; [reflexivity|]. simpl; auto.
  - destruct I as (I1 & I2 & I3 & I4 & I5). cbn [q_clear].
    set (idx := if (f <=? b)%Z then seq (Z.to_nat f) (Z.to_nat (b + 1 - f)) else []).
    assert (Hidx : forall i, In i idx <-> (f <= Z.of_nat i <= b)%Z).
    { intros i. unfold idx. destruct (Z.leb_spec f b) as [H|H].
      - destruct (I3 H). rewrite in_seq. lia.
      - simpl. lia. }
    assert (Lidx : forall i, In i idx -> i < length qs).
    { intros i Hi. apply Hidx in Hi. destruct I3; lia. }
    assert (G : forall ix (Ns : nat -> nat -> nat) (x : list sq), Forall2 same_kind qs x ->
       (forall i, In i ix -> i < length qs) ->
       (forall i y, nth_error x i = Some y -> inv y (Ns i)) ->
       exists l, fold_left (fun r i => x <-- r ;;
              match nth_error x i with
              | None => Panic
              | Some y => z <-- sq_clear y ;; Ok (upd x i z)
              end) ix (Ok x) = Ok l /\ Forall2 same_kind qs l /\
         (forall i y, nth_error l i = Some y -> inv y (if existsb (Nat.eqb i) ix then fun _ => 0 else Ns i))).
    { induction ix as [|j ix IH]; intros Ns x Fx Hix Hx.
      - exists x. split; auto.
      - cbn [fold_left rbind]. destruct (nth_error_ex x j) as (y & Ey).
        { rewrite <- (Forall2_len _ _ _ Fx). apply Hix. left; auto. }
        rewrite Ey. destruct (sq_clear_ok y _ (Hx j y Ey)) as (z & Ez & Sz & Iz). rewrite Ez. cbn [rbind].
        destruct (IH (fun i => if Nat.eqb i j then fun _ => 0 else Ns i) (upd x j z)) as (l & El & Fl & Hl).
        + apply Forall2_upd; auto. intros w Ew. destruct (Forall2_nth_l _ _ _ _ _ Fx Ew) as (y' & Ey' & Sy).
          rewrite Ey in Ey'. injection Ey' as <-. eapply same_kind_trans; eauto.
        + intros i Hi. apply Hix. right; auto.
        + intros i w. rewrite nth_error_upd, (Nat.eqb_sym j i). destruct (Nat.eqb_spec i j) as [->|Nj].
          * rewrite (proj2 (Nat.ltb_lt _ _) (nth_error_lt _ _ _ Ey)). intros [= <-]. auto.
          * simpl. apply Hx.
        + exists l. split; auto. split; auto. intros i w Ew. specialize (Hl i w Ew). cbn [existsb].
          destruct (Nat.eqb i j); simpl; auto. destruct (existsb _ ix); auto. }
    destruct (G idx (part M sccs) qs) as (l & El & Fl & Hl); auto using Forall2_same_refl.
    rewrite El. cbn [rbind]. eexists. split; [reflexivity|]. split; [split; auto|].
    split; [|split; [|split; [|split]]]; try (intros; lia).
    + intros i a Ea. specialize (Hl i a Ea). eapply inv_ext; [|exact Hl]. intros s.
      unfold part at 2. transitivity 0; [|destruct (nth_error sccs s); auto; destruct (_ =? _); auto].
      destruct (existsb (Nat.eqb i) idx) eqn:Ex; auto.
      unfold part. destruct (nth_error sccs s) as [c|] eqn:Es; auto. destruct (Nat.eqb_spec c i) as [->|]; auto.
      destruct (M s) eqn:Em; auto. destruct (I2 s) as (c & Ec & Hc); [lia|]. exfalso.
      assert (In i idx) as Hin by (apply Hidx; congruence).
      assert (existsb (Nat.eqb i) idx = true) by (apply existsb_exists; exists i; split; auto; apply Nat.eqb_refl). congruence.
Qed.

Lemma sq_head_deq q o q' : sq_is_empty q = false -> sq_dequeue q = Ok (o, q') -> sq_head q = Ok o.
Proof.
  destruct q as [[|x l]|[|x l]|[x|]|front back enq|order st front back|n less [|x l]];
    try discriminate; cbn [sq_dequeue sq_head]; try congruence.
  - intros -> . destruct (front <? length enq); [|discriminate]. destruct back as [b|]; [|congruence].
    destruct (advance negb _ _ _ _); simpl; congruence.
  - intros ->. destruct (nth_error st front); [|discriminate]. destruct back as [b|]; [|congruence].
    destruct (advance is_none _ _ _ _); simpl; congruence.
  - intros _. destruct (match l with [] => true | _ => _ end); congruence.
Qed.

(** Looking at the head of a non-empty queue announces the next state and does not change what
    the following call of [dequeue] does. *)
Lemma q_head_ok dom q M last o q' :
  qwf dom q -> qinv q M last -> (forall s, M s > 0 -> dom s) ->
  q_is_empty q = Ok false -> q_dequeue q = Ok (o, q') ->
  exists q1, q_head q = Ok (o, q1) /\ q_dequeue q1 = Ok (o, q').
Proof.
  intros W I D Em E. destruct q as [a|f b qs sccs].
  - cbn [q_is_empty] in Em. injection Em as Em. cbn [q_dequeue q_head] in *.
    destruct (sq_dequeue a) as [[o1 a1]| |] eqn:Ea; try discriminate E. cbn [rbind fst snd] in E.
    injection E as <- <-. rewrite (sq_head_deq _ _ _ Em Ea). cbn [rbind].
    eexists. split; [reflexivity|]. cbn [q_dequeue]. rewrite Ea. auto.
  - pose proof E as E0. unfold q_dequeue in E. rewrite Em in E. cbn [rbind] in E. cbn [q_head].
    destruct W as [W1 W2]. destruct I as (I1 & I2 & I3 & I4 & I5).
    destruct (Z.le_gt_cases f b) as [Hfb|Hfb].
    2:{ cbn [q_is_empty] in Em. apply Z.gt_lt_iff in Hfb. unfold Z.gt in Hfb. rewrite Hfb in Em. discriminate. }
    destruct (I3 Hfb) as [F1 F2].
    destruct (update_front_ok qs b (S (length qs)) f) as (f' & E' & L & J1 & J2); [lia|auto|auto|].
    rewrite E' in E |- *. cbn [rbind] in E |- *.
    destruct (znth qs f') as [a|] eqn:Ez; [|discriminate].
    destruct (sq_dequeue a) as [[o1 a1]| |] eqn:Ea; try discriminate E. cbn [rbind fst snd] in E.
    injection E as <- <-.
    assert (Hf' : (f' <= b)%Z /\ sq_is_empty a = false).
    { destruct (Z.le_gt_cases f' b) as [H|H].
      - destruct (J2 H) as (a0 & Ea0 & Em0). unfold znth in Ez. rewrite (proj2 (Z.leb_le 0 f')) in Ez by lia.
        split; auto. congruence.
      - exfalso. assert (Hall : forall s, M s = 0).
        { intros s. destruct (M s) eqn:Es; auto. destruct (I2 s) as (c & Ec & Hc); [lia|].
          destruct (J1 (Z.of_nat c)) as (x & Ex & Emx); [lia|lia|]. rewrite Nat2Z.id in Ex.
          pose proof (proj1 (sq_empty_ok _ _ (I1 _ _ Ex)) Emx s) as Z0. rewrite part_in in Z0; auto. lia. }
        destruct (q_is_empty_ok dom (QScc f b qs sccs) M last) as (e & Ee & He); [split; auto|repeat (split; auto)|].
        rewrite Em in Ee. injection Ee as <-. apply He in Hall. discriminate. }
    destruct Hf' as [Hf' Ema]. rewrite (sq_head_deq _ _ _ Ema Ea). cbn [rbind].
    eexists. split; [reflexivity|]. unfold q_dequeue. cbn [q_is_empty].
    assert (Eu : update_front (S (length qs)) f' b qs = Ok f').
    { cbn [update_front]. rewrite (proj2 (Z.leb_le f' b) Hf'), Ez, Ema. auto. }
    destruct (Z.compare_spec f' b) as [->|H|H]; [| |lia].
    + rewrite Ez, Ema. cbn [rbind]. rewrite Eu. cbn [rbind]. rewrite Ez, Ea. reflexivity.
    + cbn [rbind]. rewrite Eu. cbn [rbind]. rewrite Ez, Ea. reflexivity.
Qed.
