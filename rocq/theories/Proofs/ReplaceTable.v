(** The two tables of replacement behave like one table of (stack, machine, state). *)
From Coq Require Import List Arith NArith Bool Lia.
From Verif Require Import Base.Util Base.Semiring Base.Machine Model.Props Model.AlgoProps Model.VectorFst
  Model.BiMap Model.Lazy Model.Compose Model.Replace.
From Verif Require Import Proofs.BiMapFacts Proofs.LazyFacts Proofs.FactorTable.
Import ListNotations.

Lemma pair_eqb_spec a b : reflect (a = b) (pair_eqb a b).
Proof.
  destruct a as [a1 a2], b as [b1 b2]. unfold pair_eqb. cbn.
  destruct (Nat.eqb_spec a1 b1), (Nat.eqb_spec a2 b2); constructor; congruence.
Qed.
Lemma stack_eqb_spec : forall a b, reflect (a = b) (stack_eqb a b).
Proof.
  induction a as [|x a IH]; intros [|y b]; cbn; try (constructor; congruence).
  destruct (pair_eqb_spec x y) as [->|]; cbn; [|constructor; congruence].
  destruct (IH b) as [->|]; constructor; congruence.
Qed.
Lemma rtuple_eqb_spec a b : reflect (a = b) (rtuple_eqb a b).
Proof.
  destruct a as [[a1 a2] a3], b as [[b1 b2] b3]. unfold rtuple_eqb. cbn.
  destruct (Nat.eqb_spec a1 b1), (Nat.eqb_spec a2 b2), (Nat.eqb_spec a3 b3); constructor; congruence.
Qed.
Definition atuple := (stack * nat * nat)%type.
Definition atuple_eqb (a b : atuple) : bool :=
  stack_eqb (fst (fst a)) (fst (fst b)) && Nat.eqb (snd (fst a)) (snd (fst b)) && Nat.eqb (snd a) (snd b).
Lemma atuple_eqb_spec a b : reflect (a = b) (atuple_eqb a b).
Proof.
  destruct a as [[a1 a2] a3], b as [[b1 b2] b3]. unfold atuple_eqb. cbn.
  destruct (stack_eqb_spec a1 b1), (Nat.eqb_spec a2 b2), (Nat.eqb_spec a3 b3); constructor; congruence.
Qed.

(** Rewrite the scrutinee of a [let] up to conversion. *)
Ltac use F := match goal with |- context [find_id ?a ?b ?c] => match type of F with _ = ?r => replace (find_id a b c) with r by (symmetry; exact F) end end.

Section Table.
  Context {K : SR} (E : replace_env K).

  (** ** The operation on (stack, machine, state) *)
  Definition a_start : res (option atuple) :=
    match re_fsts E with
    | [] => Ok None
    | _ => f <-- nth_fst E (re_root E) ;;
           Ok (match vstart f with None => None | Some s => Some ([], re_root E, s) end)
    end.
  Definition a_ret (t : atuple) : res (option (ttr K atuple)) :=
    let '(stk, i, s) := t in
    f <-- nth_fst E i ;;
    b <-- unwrap_r (is_final f s) ;;
    if b : bool then
      match stk with
      | [] => Ok None
      | top :: rest =>
          w <-- unwrap_r (final_weight f s) ;;
          Ok (match w with
              | Some w => Some (TT (if epsilon_on_input (re_return E) then 0 else re_return_label E)
                                   (if epsilon_on_output (re_return E) then 0 else re_return_label E) w (rest, fst top, snd top))
              | None => None
              end)
      end
    else Ok None.
  Definition a_tr (tp : atuple) (t : tr K) : res (option (ttr K atuple)) :=
    let '(stk, i, s) := tp in
    r <-- terminal_range E (ol t) ;;
    if r : bool then Ok (Some (TT (il t) (ol t) (wgt t) (stk, i, ns t)))
    else match lookup (re_hash E) (ol t) with
         | Some j => f <-- nth_fst E j ;;
                     Ok (match vstart f with
                         | Some q => Some (TT (if epsilon_on_input (re_call E) then 0 else il t)
                              (if epsilon_on_output (re_call E) then 0
                               else match re_call_output E with Some l => l | None => ol t end) (wgt t) ((i, ns t) :: stk, j, q))
                         | None => None
                         end)
         | None => Ok (Some (TT (il t) (ol t) (wgt t) (stk, i, ns t)))
         end.
  Definition ocons {A} (o : option A) (l : list A) : list A := match o with Some a => a :: l | None => l end.
  Fixpoint a_loop (tp : atuple) (l : list (tr K)) : res (list (ttr K atuple)) :=
    match l with
    | [] => Ok []
    | t :: l' => a <-- a_tr tp t ;; r <-- a_loop tp l' ;; Ok (ocons a r)
    end.
  Definition a_trs (tp : atuple) : res (list (ttr K atuple)) :=
    a <-- a_ret tp ;;
    f <-- nth_fst E (snd (fst tp)) ;;
    l <-- get_trs f (snd tp) ;;
    r <-- a_loop tp l ;;
    Ok (ocons a r).
  Definition a_fin (tp : atuple) : res (option K) :=
    match fst (fst tp) with
    | [] => f <-- nth_fst E (snd (fst tp)) ;; final_weight f (snd tp)
    | _ => Ok None
    end.
  Definition a_op : fst_op K (bimap atuple) := table_op atuple_eqb a_start a_trs a_fin (re_props E).

  (** ** Reading the tables *)
  Definition stk_of (tb : rtable) (p : nat) : stack := nth p (id_to_tuple (rt_prefix tb)) [].
  Definition dec (tb : rtable) (t : rtuple) : atuple := (stk_of tb (fst (fst t)), snd (fst t), snd t).
  Definition rabs (tb : rtable) : bimap atuple :=
    BM (map (fun p => (dec tb (fst p), snd p)) (tuple_to_id (rt_tuple tb))) (map (dec tb) (id_to_tuple (rt_tuple tb))).
  Definition valid (tb : rtable) (p : nat) : Prop := p < length (id_to_tuple (rt_prefix tb)).
  Definition rJ (tb : rtable) : Prop :=
    bm_ok stack_eqb (rt_prefix tb) /\
    (id_to_tuple (rt_prefix tb) = [] \/ nth_error (id_to_tuple (rt_prefix tb)) 0 = Some []) /\
    (forall e, In e (tuple_to_id (rt_tuple tb)) -> valid tb (fst (fst (fst e)))) /\
    (forall t, In t (id_to_tuple (rt_tuple tb)) -> valid tb (fst (fst t))).

  Lemma rJ_new : rJ rt_new.
  Proof. split; [apply bm_new_ok|]. split; [left; auto|]. split; intros ? []. Qed.

  Lemma stk_inj tb p q : rJ tb -> valid tb p -> valid tb q -> stk_of tb p = stk_of tb q -> p = q.
  Proof.
    intros (B & _) P Q H. pose proof (bm_nodup stack_eqb _ B) as ND.
    exact (proj1 (NoDup_nth _ (@nil (nat * nat))) ND p q P Q H).
  Qed.
  Lemma stk_zero tb p : rJ tb -> valid tb p -> (stk_of tb p = [] <-> p = 0).
  Proof.
    intros J P. pose proof J as (B & [Z|Z] & _).
    - unfold valid in P. rewrite Z in P. cbn in P. lia.
    - assert (V : valid tb 0) by (unfold valid in *; lia).
      assert (S0 : stk_of tb 0 = []) by (unfold stk_of; apply nth_error_nth; auto).
      split; [|intros ->; auto]. intros H. apply (stk_inj tb); auto. congruence.
  Qed.
  Lemma stk_find tb p : valid tb p -> find_tuple (rt_prefix tb) p = Ok (stk_of tb p).
  Proof.
    intros V. unfold find_tuple, get_tuple_unchecked, stk_of. pose proof (nth_error_nth' (A := stack) _ [] V) as X. unfold stack in *. rewrite X. auto.
  Qed.

  (** Extending the prefix table changes nothing. *)
  Lemma prefix_ok tb s tb' p : rJ tb -> id_to_tuple (rt_prefix tb) <> [] \/ s = [] -> prefix_id tb s = (tb', p) ->
    rJ tb' /\ valid tb' p /\ stk_of tb' p = s /\ rt_tuple tb' = rt_tuple tb /\
    (forall q, valid tb q -> valid tb' q /\ stk_of tb' q = stk_of tb q) /\ rabs tb' = rabs tb.
  Proof.
    intros J NE. unfold prefix_id. destruct (find_id stack_eqb (rt_prefix tb) s) as [b i] eqn:F. intros [= <- <-].
    destruct J as (B & Z & V1 & V2). destruct (find_id_ok stack_eqb stack_eqb_spec _ _ _ _ B F) as (B' & N & D).
    assert (X : forall q, valid tb q -> valid (RT b (rt_tuple tb)) q /\ stk_of (RT b (rt_tuple tb)) q = stk_of tb q).
    { intros q Vq. unfold valid, stk_of in *. cbn [rt_prefix]. destruct D as [[_ ->]|(_ & D & _)]; auto.
      rewrite D, app_length. cbn. split; [lia|]. apply app_nth1. auto. }
    split; [|split; [|split; [|split; [|split]]]]; auto.
    - split; [auto|]. split; [|split].
      + destruct D as [[_ ->]|(_ & D & _)]; [auto|]. right. cbn [rt_prefix]. rewrite D. destruct Z as [Z|Z].
        * destruct NE as [NE|NE]; [congruence|]. rewrite Z, NE. auto.
        * rewrite nth_error_app1; auto. apply nth_error_Some. congruence.
      + intros e He. apply X, V1, He.
      + intros e He. apply X, V2, He.
    - unfold valid. cbn [rt_prefix]. apply nth_error_Some. congruence.
    - unfold stk_of. cbn [rt_prefix]. apply nth_error_nth. auto.
    - unfold rabs. cbn [rt_tuple]. f_equal; apply map_ext_in.
      + intros e He. unfold dec. rewrite (proj2 (X _ (V1 _ He))). auto.
      + intros e He. unfold dec. rewrite (proj2 (X _ (V2 _ He))). auto.
  Qed.

  Lemma dec_eqb tb t u : rJ tb -> valid tb (fst (fst t)) -> valid tb (fst (fst u)) -> atuple_eqb (dec tb t) (dec tb u) = rtuple_eqb t u.
  Proof.
    intros J Vt Vu. destruct t as [[p i] s], u as [[q j] r]. cbn in Vt, Vu.
    destruct (rtuple_eqb_spec (p, i, s) (q, j, r)) as [H|H], (atuple_eqb_spec (dec tb (p, i, s)) (dec tb (q, j, r))) as [H'|H']; auto.
    - exfalso. apply H'. congruence.
    - exfalso. apply H. unfold dec in H'. cbn in H'. injection H' as A B C. apply (stk_inj tb) in A; auto. congruence.
  Qed.

  Lemma tuple_ok tb t tb' n : rJ tb -> valid tb (fst (fst t)) -> tuple_id tb t = (tb', n) ->
    rJ tb' /\ rt_prefix tb' = rt_prefix tb /\ find_id atuple_eqb (rabs tb) (dec tb t) = (rabs tb', n).
  Proof.
    intros J V. unfold tuple_id. destruct (find_id rtuple_eqb (rt_tuple tb) t) as [b i] eqn:F. intros [= <- <-].
    assert (A : forall l, (forall e, In e l -> valid tb (fst (fst (fst e)))) ->
      assoc atuple_eqb (map (fun p => (dec tb (fst p), snd p)) l) (dec tb t) = assoc rtuple_eqb l t).
    { induction l as [|[u m] l IH]; intros H; auto. cbn [map assoc fst snd]. rewrite dec_eqb; auto.
      - destruct (rtuple_eqb t u); auto. apply IH. intros e He. apply H. right. auto.
      - apply (H (u, m)). left. auto. }
    pose proof J as (B & Z & V1 & V2).
    unfold find_id, get_id_or_insert in *. cbn [tuple_to_id rabs]. rewrite A by auto.
    destruct (assoc rtuple_eqb (tuple_to_id (rt_tuple tb)) t) as [m|] eqn:As; injection F as <- <-.
    - destruct tb; auto.
    - split; [|split; [auto|]].
      + split; [auto|]. split; [auto|]. cbn [rt_tuple tuple_to_id id_to_tuple]. split.
        * intros e [<-|He]; [exact V|]. apply (V1 e He).
        * intros e He. apply in_app_or in He as [He|[<-|[]]]; [apply (V2 e He)|exact V].
      + unfold rabs. cbn [rt_tuple tuple_to_id id_to_tuple map fst snd]. rewrite map_app, map_length. cbn [map].
        unfold dec, stk_of. cbn [rt_prefix]. auto.
  Qed.

  Lemma rfind tb id t : rJ tb -> find_tuple (rt_tuple tb) id = Ok t -> valid tb (fst (fst t)) /\ find_tuple (rabs tb) id = Ok (dec tb t).
  Proof.
    intros (B & Z & V1 & V2). unfold find_tuple, get_tuple_unchecked. cbn [rabs id_to_tuple]. rewrite nth_error_map.
    destruct (nth_error (id_to_tuple (rt_tuple tb)) id) eqn:N; [|discriminate]. intros [= <-]. split; [|auto].
    apply V2. eapply nth_error_In; eauto.
  Qed.
  Lemma rfind_back tb id a : rJ tb -> find_tuple (rabs tb) id = Ok a ->
    exists t, find_tuple (rt_tuple tb) id = Ok t /\ a = dec tb t /\ valid tb (fst (fst t)).
  Proof.
    intros (B & Z & V1 & V2). unfold find_tuple, get_tuple_unchecked. cbn [rabs id_to_tuple]. rewrite nth_error_map.
    destruct (nth_error (id_to_tuple (rt_tuple tb)) id) as [t|] eqn:N; [|discriminate]. intros [= <-].
    exists t. split; [auto|]. split; [auto|]. apply V2. eapply nth_error_In; eauto.
  Qed.

  (** One step: what is found, and how the tables grow. *)
  Definition num1 (b : bimap atuple) (o : option (ttr K atuple)) : bimap atuple * option (tr K) :=
    match o with
    | None => (b, None)
    | Some u => let (b', n) := find_id atuple_eqb b (tn u) in (b', Some (Tr (ti u) (to u) (tw u) n))
    end.
  (** The tables only grow, so older tuples keep their meaning. *)
  Definition grows (tb tb' : rtable) : Prop := forall q, valid tb q -> valid tb' q /\ stk_of tb' q = stk_of tb q.
  Lemma grows_trans a b c : grows a b -> grows b c -> grows a c.
  Proof. intros H H' q V. destruct (H q V) as [A B]. destruct (H' q A) as [C D]. split; congruence. Qed.
  Lemma grows_refl a : grows a a.
  Proof. intros q V. auto. Qed.
  Lemma grows_same a b : rt_prefix b = rt_prefix a -> grows a b.
  Proof. intros H q V. unfold valid, stk_of. rewrite H. auto. Qed.
  Lemma dec_grows a b t : grows a b -> valid a (fst (fst t)) -> dec b t = dec a t.
  Proof. intros G V. unfold dec. rewrite (proj2 (G _ V)). auto. Qed.
  Lemma valid_ne tb p : valid tb p -> id_to_tuple (rt_prefix tb) <> [].
  Proof. unfold valid. destruct (id_to_tuple (rt_prefix tb)); cbn; [lia|congruence]. Qed.

  Lemma ret_step tp tb : rJ tb -> valid tb (fst (fst tp)) ->
    match a_ret (dec tb tp) with
    | Ok o => exists tb' r, rp_final_tr E tp tb = Ok (r, tb') /\ rJ tb' /\ grows tb tb' /\ num1 (rabs tb) o = (rabs tb', r)
    | _ => forall x, rp_final_tr E tp tb <> Ok x
    end.
  Proof.
    intros J V. destruct tp as [[p i] s]. cbn [fst] in V. unfold a_ret, rp_final_tr, dec. cbn [fst snd].
    destruct (nth_fst E i) as [f| |]; cbn [rbind]; try discriminate.
    destruct (is_final f s) as [b| |] eqn:Eb; cbn [unwrap_r rbind]; try discriminate.
    destruct b; cbn [andb]; [|exists tb, None; split; [auto|split; [auto|split; [apply grows_refl|auto]]]].
    pose proof (stk_zero tb p J V) as Z. rewrite stk_find by auto. cbn [rbind].
    destruct (stk_of tb p) as [|top rest] eqn:Es.
    { replace p with 0 by (symmetry; apply Z; auto). cbn. exists tb, None. split; [auto|split; [auto|split; [apply grows_refl|auto]]]. }
    replace (0 <? p) with true by (symmetry; apply Nat.ltb_lt; destruct p; [|lia]; exfalso; destruct Z as [_ Z]; specialize (Z eq_refl); discriminate).
    destruct (prefix_id tb rest) as [tb1 p'] eqn:P1. destruct (prefix_ok _ _ _ _ J (or_introl (valid_ne _ _ V)) P1) as (J1 & V1 & S1 & T1 & G1 & R1).
    destruct (tuple_id tb1 (p', fst top, snd top)) as [tb2 n] eqn:P2. destruct (tuple_ok _ (p', fst top, snd top) _ _ J1 V1 P2) as (J2 & Pr2 & F2).
    destruct (final_weight f s) as [[w|]| |] eqn:Ew; cbn [unwrap_r rbind]; try discriminate.
    - eexists tb2, _. split; [reflexivity|]. split; auto. split; [exact (grows_trans _ _ _ G1 (grows_same _ _ Pr2))|].
      cbn [num1 tn ti to tw]. rewrite <- R1. unfold dec in F2. cbn [fst snd] in F2. rewrite S1 in F2. use F2. auto.
    - unfold is_final in Eb. rewrite Ew in Eb. discriminate.
  Qed.

  Lemma tr_step tp tb t : rJ tb -> valid tb (fst (fst tp)) ->
    match a_tr (dec tb tp) t with
    | Ok o => exists tb' r, rp_tr E tp t tb = Ok (r, tb') /\ rJ tb' /\ grows tb tb' /\ num1 (rabs tb) o = (rabs tb', r)
    | _ => forall x, rp_tr E tp t tb <> Ok x
    end.
  Proof.
    intros J V. destruct tp as [[p i] s]. cbn [fst] in V. unfold a_tr, rp_tr, dec. cbn [fst snd].
    destruct (terminal_range E (ol t)) as [r| |]; cbn [rbind]; try discriminate.
    destruct (tuple_id tb (p, i, ns t)) as [tb0 n0] eqn:P0. destruct (tuple_ok _ (p, i, ns t) _ _ J V P0) as (J0 & Pr0 & F0).
    assert (KEEP : exists tb' r0, Ok (Some (Tr (il t) (ol t) (wgt t) n0), tb0) = Ok (r0, tb') /\ rJ tb' /\ grows tb tb' /\
      num1 (rabs tb) (Some (TT (il t) (ol t) (wgt t) (stk_of tb p, i, ns t))) = (rabs tb', r0)).
    { exists tb0, (Some (Tr (il t) (ol t) (wgt t) n0)). split; auto. split; auto. split; [exact (grows_same _ _ Pr0)|].
      cbn [num1 tn ti to tw]. unfold dec in F0. cbn [fst snd] in F0. use F0. auto. }
    destruct r; auto. destruct (lookup (re_hash E) (ol t)) as [j|]; auto. clear KEEP.
    rewrite stk_find by auto. cbn [rbind].
    destruct (prefix_id tb ((i, ns t) :: stk_of tb p)) as [tb1 p'] eqn:P1.
    destruct (prefix_ok _ _ _ _ J (or_introl (valid_ne _ _ V)) P1) as (J1 & V1 & S1 & T1 & G1 & R1).
    destruct (nth_fst E j) as [f| |]; cbn [rbind]; try discriminate. destruct (vstart f) as [q|].
    - destruct (tuple_id tb1 (p', j, q)) as [tb2 n] eqn:P2. destruct (tuple_ok _ (p', j, q) _ _ J1 V1 P2) as (J2 & Pr2 & F2).
      eexists tb2, _. split; [reflexivity|]. split; auto. split; [exact (grows_trans _ _ _ G1 (grows_same _ _ Pr2))|].
      cbn [num1 tn ti to tw]. rewrite <- R1. unfold dec in F2. cbn [fst snd] in F2. rewrite S1 in F2. use F2. auto.
    - exists tb1, None. split; auto. split; auto. split; [exact G1|]. cbn. rewrite R1. auto.
  Qed.

  Definition numl (b : bimap atuple) (l : list (ttr K atuple)) : bimap atuple * list (tr K) :=
    let (b', is) := find_ids atuple_eqb b (map tn l) in
    (b', map (fun p => Tr (ti (fst p)) (to (fst p)) (tw (fst p)) (snd p)) (combine l is)).
  Lemma numl_cons b (o : option (ttr K atuple)) l : numl b (ocons o l) =
    (let (b1, r) := num1 b o in let (b2, m) := numl b1 l in (b2, ocons r m)).
  Proof.
    destruct o as [u|]; cbn [ocons num1]; [|destruct (numl b l); auto].
    unfold numl. cbn [map find_ids]. destruct (find_id atuple_eqb b (tn u)) as [b1 n].
    destruct (find_ids atuple_eqb b1 (map tn l)) as [b2 is]. auto.
  Qed.

  Lemma loop_step tp l : forall tb, rJ tb -> valid tb (fst (fst tp)) ->
    match a_loop (dec tb tp) l with
    | Ok o => exists tb' r, rp_trs_loop E tp l tb = Ok (r, tb') /\ rJ tb' /\ numl (rabs tb) o = (rabs tb', r)
    | _ => forall x, rp_trs_loop E tp l tb <> Ok x
    end.
  Proof.
    induction l as [|t l IH]; intros tb J V; cbn [a_loop rp_trs_loop].
    - exists tb, []. auto.
    - pose proof (tr_step tp tb t J V) as S. destruct (a_tr (dec tb tp) t) as [o| |]; cbn [rbind].
      + destruct S as (tb1 & r & E1 & J1 & G1 & N1). rewrite E1. cbn [rbind fst snd].
        assert (V1 : valid tb1 (fst (fst tp))) by (apply G1, V).
        specialize (IH tb1 J1 V1). rewrite (dec_grows tb tb1 tp G1 V) in IH.
        destruct (a_loop (dec tb tp) l) as [o2| |]; cbn [rbind].
        * destruct IH as (tb2 & r2 & E2 & J2 & N2). rewrite E2. cbn [rbind fst snd]. eexists tb2, _. split; [reflexivity|]. split; auto.
          rewrite numl_cons, N1, N2. auto.
        * intros x. destruct (rp_trs_loop E tp l tb1) eqn:Q; try discriminate. exfalso. eapply IH; eauto.
        * intros x. destruct (rp_trs_loop E tp l tb1) eqn:Q; try discriminate. exfalso. eapply IH; eauto.
      + intros x. destruct (rp_tr E tp t tb) eqn:Q; try discriminate. exfalso. eapply S; eauto.
      + intros x. destruct (rp_tr E tp t tb) eqn:Q; try discriminate. exfalso. eapply S; eauto.
  Qed.

  Lemma trs_step id tb : rJ tb ->
    match compute_trs a_op id (rabs tb) with
    | Ok (r, b) => exists tb', rp_trs E id tb = Ok (r, tb') /\ rJ tb' /\ b = rabs tb'
    | _ => forall x, rp_trs E id tb <> Ok x
    end.
  Proof.
    intros J. cbn [compute_trs a_op table_op]. unfold rp_trs.
    destruct (find_tuple (rt_tuple tb) id) as [tp| |] eqn:F.
    2, 3: destruct (find_tuple (rabs tb) id) as [a| |] eqn:F'; cbn [rbind]; try discriminate;
       destruct (rfind_back _ _ _ J F') as (t & X & _); congruence.
    destruct (rfind _ _ _ J F) as [V F']. rewrite F'. cbn [rbind]. unfold a_trs.
    pose proof (ret_step tp tb J V) as S. destruct (a_ret (dec tb tp)) as [o| |]; cbn [rbind].
    2, 3: intros x; destruct (rp_final_tr E tp tb) eqn:Q; try discriminate; exfalso; eapply S; eauto.
    destruct S as (tb1 & r & E1 & J1 & G1 & N1). rewrite E1. cbn [rbind fst snd]. cbn [dec fst snd].
    destruct (nth_fst E (snd (fst tp))) as [f| |]; cbn [rbind]; try discriminate.
    destruct (get_trs f (snd tp)) as [l| |]; cbn [rbind]; try discriminate.
    assert (V1 : valid tb1 (fst (fst tp))) by (apply G1, V).
    pose proof (loop_step tp l tb1 J1 V1) as IH. rewrite (dec_grows tb tb1 tp G1 V) in IH.
    fold (dec tb tp).
    destruct (a_loop (dec tb tp) l) as [o2| |]; cbn [rbind].
    2, 3: intros x; destruct (rp_trs_loop E tp l tb1) eqn:Q; try discriminate; exfalso; eapply IH; eauto.
    destruct IH as (tb2 & r2 & E2 & J2 & N2). rewrite E2. cbn [rbind fst snd].
    pose proof (numl_cons (rabs tb) o o2) as NC. rewrite N1, N2 in NC. unfold numl in NC at 1.
    destruct (find_ids atuple_eqb (rabs tb) (map tn (ocons o o2))) as [b is]. injection NC as A B. exists tb2. rewrite B. auto.
  Qed.

  Lemma fin_step id tb : rJ tb ->
    match compute_final_weight a_op id (rabs tb) with
    | Ok (r, b) => exists tb', rp_fin E id tb = Ok (r, tb') /\ rJ tb' /\ b = rabs tb'
    | _ => forall x, rp_fin E id tb <> Ok x
    end.
  Proof.
    intros J. cbn [compute_final_weight a_op table_op]. unfold rp_fin.
    destruct (find_tuple (rt_tuple tb) id) as [tp| |] eqn:F.
    2, 3: destruct (find_tuple (rabs tb) id) as [a| |] eqn:F'; cbn [rbind]; try discriminate;
       destruct (rfind_back _ _ _ J F') as (t & X & _); congruence.
    destruct (rfind _ _ _ J F) as [V F']. rewrite F'. cbn [rbind]. unfold a_fin, dec. cbn [fst snd].
    pose proof (stk_zero tb _ J V) as Z. destruct (Nat.eqb_spec (fst (fst tp)) 0) as [H|H].
    - rewrite (proj2 Z H). destruct (nth_fst E (snd (fst tp))) as [f| |]; cbn [rbind]; try discriminate.
      destruct (final_weight f (snd tp)); cbn [rbind]; try discriminate. eauto.
    - destruct (stk_of tb (fst (fst tp))); [exfalso; tauto|]. cbn [rbind]. eauto.
  Qed.

  Lemma start_step tb : rJ tb ->
    match compute_start a_op (rabs tb) with
    | Ok (r, b) => exists tb', rp_start E tb = Ok (r, tb') /\ rJ tb' /\ b = rabs tb'
    | _ => forall x, rp_start E tb <> Ok x
    end.
  Proof.
    intros J. cbn [compute_start a_op table_op]. unfold rp_start, a_start. destruct (re_fsts E); cbn [rbind]; [eauto|].
    destruct (nth_fst E (re_root E)) as [f| |]; cbn [rbind]; try discriminate.
    destruct (vstart f) as [s|]; [|eauto].
    destruct (prefix_id tb []) as [tb1 p'] eqn:P1. destruct (prefix_ok _ _ _ _ J (or_intror eq_refl) P1) as (J1 & V1 & S1 & T1 & G1 & R1).
    destruct (tuple_id tb1 (p', re_root E, s)) as [tb2 n] eqn:P2. destruct (tuple_ok _ (p', re_root E, s) _ _ J1 V1 P2) as (J2 & Pr2 & F2).
    unfold dec in F2. cbn [fst snd] in F2. rewrite S1, R1 in F2. use F2. eauto.
  Qed.

  (** ** What the transfer lemmas ask for *)
  Lemma rp_hstart o s o' : rJ o -> compute_start (rp_op E) o = Ok (s, o') -> rJ o' /\ compute_start a_op (rabs o) = Ok (s, rabs o').
  Proof.
    intros J H. cbn [rp_op compute_start] in H. pose proof (start_step o J) as S. destruct (compute_start a_op (rabs o)) as [[r b]| |].
    - destruct S as (tb' & E1 & J1 & ->). rewrite H in E1. injection E1 as <- <-. auto.
    - exfalso. eapply S; eauto.
    - exfalso. eapply S; eauto.
  Qed.
  Lemma rp_htrs i o s o' : rJ o -> compute_trs (rp_op E) i o = Ok (s, o') -> rJ o' /\ compute_trs a_op i (rabs o) = Ok (s, rabs o').
  Proof.
    intros J H. cbn [rp_op compute_trs] in H. pose proof (trs_step i o J) as S. destruct (compute_trs a_op i (rabs o)) as [[r b]| |].
    - destruct S as (tb' & E1 & J1 & ->). rewrite H in E1. injection E1 as <- <-. auto.
    - exfalso. eapply S; eauto.
    - exfalso. eapply S; eauto.
  Qed.
  Lemma rp_hfin i o s o' : rJ o -> compute_final_weight (rp_op E) i o = Ok (s, o') -> rJ o' /\ compute_final_weight a_op i (rabs o) = Ok (s, rabs o').
  Proof.
    intros J H. cbn [rp_op compute_final_weight] in H. pose proof (fin_step i o J) as S. destruct (compute_final_weight a_op i (rabs o)) as [[r b]| |].
    - destruct S as (tb' & E1 & J1 & ->). rewrite H in E1. injection E1 as <- <-. auto.
    - exfalso. eapply S; eauto.
    - exfalso. eapply S; eauto.
  Qed.
  Lemma rp_lstart o r : rJ o -> compute_start a_op (rabs o) = Ok r -> exists r', compute_start (rp_op E) o = Ok r'.
  Proof.
    intros J H. pose proof (start_step o J) as S. rewrite H in S. destruct r. destruct S as (tb' & E1 & _). eauto.
  Qed.
  Lemma rp_ltrs i o r : rJ o -> compute_trs a_op i (rabs o) = Ok r -> exists r', compute_trs (rp_op E) i o = Ok r'.
  Proof.
    intros J H. pose proof (trs_step i o J) as S. rewrite H in S. destruct r. destruct S as (tb' & E1 & _). eauto.
  Qed.
  Lemma rp_lfin i o r : rJ o -> compute_final_weight a_op i (rabs o) = Ok r -> exists r', compute_final_weight (rp_op E) i o = Ok r'.
  Proof.
    intros J H. pose proof (fin_step i o J) as S. rewrite H in S. destruct r. destruct S as (tb' & E1 & _). eauto.
  Qed.
End Table.
