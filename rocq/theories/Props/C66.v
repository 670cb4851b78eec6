(** C66: delayed epsilon removal, computed in full, keeps the weighted relation and has no
    epsilon transition. *)
From Coq Require Import List Arith NArith ZArith Bool Lia Permutation.
From Verif Require Import Base.Util Base.Semiring Base.Machine Base.PathSum Base.PropSpec Base.Instances
  Model.Props Model.AlgoProps Model.VectorFst Model.History Model.Dfs Model.Rational Model.Queues Model.ShortestDistance Model.RmEpsilon
  Model.Lazy Model.RandGen Model.RmEpsilonFst
  Proofs.PropsFacts Proofs.VectorFacts Proofs.VectorProps Proofs.TrOpsFacts Proofs.HistoryFacts Proofs.SdFacts Proofs.SdRun Proofs.SdLive Proofs.AutoQueueFacts
  Proofs.ReverseDist Proofs.EpsFacts Proofs.ExpandFacts Proofs.RmEpsFacts Proofs.LazyEps Proofs.RmEpsLazy Proofs.LazyFacts Proofs.ClosedB Proofs.Lazy2Facts
  Props.C16 Props.C28 Props.C37 Props.C61.
Import ListNotations.
Local Open Scope K_scope.

Section C66.
  Context {K : SR} (L : sr_laws K).
  Implicit Types f g : vfst K.
  Notation eps := epsilon_filter.

  Lemma finite_choice {A} (d : A) (R : nat -> A -> Prop) n : (forall s, (s < n)%nat -> exists a, R s a) ->
    exists F, forall s, (s < n)%nat -> R s (F s).
  Proof.
    induction n as [|n IH]; intros H; [exists (fun _ => d); intros; lia|].
    destruct IH as (F & HF); [intros; apply H; lia|]. destruct (H n) as (a & Ha); [lia|].
    exists (fun s => if Nat.eqb s n then a else F s). intros s Hs. destruct (Nat.eqb_spec s n) as [->|]; auto. apply HF. lia.
  Qed.

  Section One.
    Variables (f : vfst K) (pathp : bool) (start : nat).
    Hypothesis C : closed f.
    Hypothesis Es : vstart f = Some start.
    Hypothesis Rm : removable f.
    Notation n := (num_states f).
    Notation RO := (rest_ok code_queue (cq_ok f eps) f).

    Lemma new_rest : RO (rmst_new code_queue (QS fifo_new)).
    Proof.
      apply rest_new. apply (fresh_cq_ok f eps (QS fifo_new) []); [constructor; constructor|]. intros s t c d _ E. destruct s; discriminate.
    Qed.

    (** What the operation answers for one state. *)
    Definition answer (s : nat) (l : list (tr K)) (w : option K) : Prop :=
      exists trs fin D, l = rev trs /\ w = (if keqb fin 0 then None else Some fin) /\ closure_of f s trs fin D /\ closure_labels f s trs.

    Lemma answer_eps s l w t : answer s l w -> In t l -> eps t = false /\ (ns t < n)%nat.
    Proof.
      intros (trs & fin & D & -> & _ & (Cl & _) & _) Ht. apply in_rev in Ht. destruct (Cl t Ht) as (E & q & u & Hu & _ & <-). split; auto. apply (proj1 C q u Hu).
    Qed.

    Lemma both_answer k s o l w o' : (s < n)%nat -> RO o -> compute_both (rm_eps_op true pathp f k) s o = Ok (l, w, o') ->
      RO o' /\ answer s l w /\ forall t, In t l -> (ns t < n)%nat.
    Proof.
      intros Hs Ro. cbn [compute_both rm_eps_op]. unfold rm_lazy_state. destruct Rm as (Pos & Nz & Ca & H).
      destruct (expand code_queue true pathp k s f o) as [R0|] eqn:E0; [|discriminate].
      destruct (expand_ok L code_queue (cq_ok f eps) Pos f pathp k s start o R0 C Es (code_queue_spec f eps) Nz Ca H Hs Ro E0) as (trs & fin & st' & D & -> & Ro' & Cl & Lb).
      intros [= <- <- <-]. assert (A : answer s (rev trs) (if keqb fin 0 then None else Some fin)) by (exists trs, fin, D; auto).
      split; auto. split; auto. intros t Ht. eapply answer_eps; eauto.
    Qed.

    Hypothesis Hw : no_endless_growth K \/ kept_acyclic f eps.

    Lemma both_stops s o : (s < n)%nat -> RO o -> exists N r, forall k, (N <= k)%nat -> compute_both (rm_eps_op true pathp f k) s o = Ok r.
    Proof.
      intros Hs Ro. destruct Rm as (Pos & Nz & Ca & H).
      destruct (expand_stops L code_queue (cq_ok f eps) f pathp s start o C Es (code_queue_spec f eps) Ca Hw Hs Ro) as (N & R0 & E0).
      destruct (expand_ok L code_queue (cq_ok f eps) Pos f pathp N s start o R0 C Es (code_queue_spec f eps) Nz Ca H Hs Ro E0) as (trs & fin & st' & D & -> & _).
      exists N. eexists. intros k Hk. cbn [compute_both rm_eps_op]. unfold rm_lazy_state. rewrite (expand_mono code_queue f pathp N k s f o _ E0 Hk). reflexivity.
    Qed.

    Lemma answer_exists s : (s < n)%nat -> exists l w, answer s l w.
    Proof.
      intros Hs. destruct (both_stops s _ Hs new_rest) as (N & [[l w] o'] & H). exists l, w.
      eapply both_answer; [exact Hs|apply new_rest|apply (H N (le_n N))].
    Qed.

    Variable g : vfst K.
    Hypothesis B : built2 (fun s => (s < n)%nat) answer start g.

    Lemma g_trs s t : In t (trs_of g s) -> reach (mach g) start s /\ eps t = false /\
      exists q u, reach (kmach f eps) s q /\ In u (trs_of f q) /\ eps u = false /\ elt_of t = elt_of u.
    Proof.
      intros Ht. destruct (b2_dec _ _ _ _ B s) as [R|R].
      - split; auto. destruct (b2_reach _ _ _ _ B s R) as (_ & A). pose proof (answer_eps _ _ _ _ A Ht) as [E _]. split; auto.
        destruct A as (trs & fin & D & El & _ & _ & Lb). rewrite El in Ht. apply in_rev in Ht. apply Lb. apply in_map. auto.
      - destruct (b2_rest _ _ _ _ B s R) as [E _]. rewrite E in Ht. destruct Ht.
    Qed.

    Lemma kept_reach a b : reach (kmach f eps) a b -> reach (mach f) a b.
    Proof. apply ConnectFacts.reach_mono. intros s t Ht. cbn in Ht. apply filter_In in Ht. apply Ht. Qed.

    (** One transition of the result is a path of the argument. *)
    Lemma g_step s t : In t (trs_of g s) -> exists u, In u (trs_of f s) /\ reach (mach f) (ns u) (ns t).
    Proof.
      intros Ht. destruct (g_trs s t Ht) as (_ & _ & q & u & Hq & Hu & _ & E). unfold elt_of in E. injection E as _ _ ->.
      inversion Hq as [|? v ? Hv Hr]; subst.
      - exists u. split; auto. constructor.
      - cbn in Hv. apply filter_In in Hv as [Hv _]. exists v. split; auto. eapply reach_trans; [apply kept_reach; exact Hr|].
        apply reach_step with u; [auto|constructor].
    Qed.
    Lemma g_reach a b : reach (mach g) a b -> reach (mach f) a b.
    Proof.
      induction 1 as [|s t u Ht H IH]; [constructor|]. cbn in Ht. destruct (g_step s t Ht) as (v & Hv & Hr).
      apply reach_step with v; auto. eapply reach_trans; eauto.
    Qed.
    Lemma g_cycle s : on_cycle (mach g) s -> on_cycle (mach f) s.
    Proof.
      intros (t & Ht & Hr). cbn in Ht. destruct (g_step s t Ht) as (v & Hv & Hr'). exists v. split; auto.
      eapply reach_trans; [exact Hr'|]. apply g_reach. auto.
    Qed.
    (** Every state of the argument is met through epsilons from one of the result. *)
    Lemma f_reach q : reach (mach f) start q -> exists s, reach (mach g) start s /\ reach (kmach f eps) s q.
    Proof.
      intros H. assert (G : forall a b, reach (mach f) a b -> (exists s, reach (mach g) start s /\ reach (kmach f eps) s a) ->
        exists s, reach (mach g) start s /\ reach (kmach f eps) s b); [|apply (G start q H); exists start; split; constructor].
      clear - B. induction 1 as [|p t u Ht H IH]; auto. intros (s & Hs & Hp). apply IH. cbn in Ht. destruct (eps t) eqn:Et.
      - exists s. split; auto. eapply reach_trans; [exact Hp|]. apply reach_step with t; [cbn; apply filter_In; auto|constructor].
      - destruct (b2_reach _ _ _ _ B s Hs) as (_ & (trs & fin & D & El & _ & _ & Lb)).
        assert (I : In (elt_of t) (map elt_of trs)) by (apply Lb; exists p, t; auto).
        apply in_map_iff in I as (v & Ev & Hv). exists (ns t). split; [|constructor]. eapply reach_trans; [exact Hs|].
        unfold elt_of in Ev. injection Ev as _ _ <-. apply reach_step with v; [|constructor]. cbn. rewrite El. apply -> in_rev. auto.
    Qed.

    Lemma g_rel x y : exists v, settles (sums (mach f) x y) v /\ settles (sums (mach g) x y) v.
    Proof.
      destruct (finite_choice ([], None) (fun s (a : list (tr K) * option K) => answer s (fst a) (snd a) /\
        (reach (mach g) start s -> a = (trs_of g s, fin_of g s))) n) as (F & HF).
      { intros s Hs. destruct (b2_dec _ _ _ _ B s) as [R|R].
        - exists (trs_of g s, fin_of g s). split; auto. apply (b2_reach _ _ _ _ B s R).
        - destruct (answer_exists s Hs) as (l & w & A). exists (l, w). split; auto. contradiction. }
      set (m := Mach (Some start) (fun s => if Nat.ltb s n then fst (F s) else []) (fun s => snd (F s))).
      destruct (all_closed L f start m C Es) as (_ & Rl).
      - apply Rm.
      - cbn. auto.
      - intros s Hs. destruct (HF s Hs) as ((trs & fin & D & E1 & E2 & Cl & _) & _). exists trs, fin, D. split; auto. cbn [m mtrs mfin].
        replace (s <? n) with true by (symmetry; apply Nat.ltb_lt; auto). split; auto. rewrite E2. destruct (keqbP L fin 0) as [->|]; auto.
      - intros s Hs. cbn [m mtrs]. replace (s <? n) with false by (symmetry; apply Nat.ltb_ge; auto). auto.
      - destruct (Rl x y) as (v & S1 & (k & S2)). exists v. split; [exact S1|]. exists k. intros j Hj. rewrite <- (S2 j Hj).
        unfold sums. apply ksum_map_ext. intros i _. unfold rel. cbn [mach mstart m]. rewrite (b2_start _ _ _ _ B).
        symmetry. fold (mach g). apply (wt_ren L (mach g) m (fun s => s) (fun s => reach (mach g) start s)).
        + intros s t Hs Ht. eapply reach_trans; [exact Hs|]. apply reach_step with t; [auto|constructor].
        + intros s Hs. destruct (b2_reach _ _ _ _ B s Hs) as (Hn & _). destruct (HF s Hn) as (_ & E). cbn [m mtrs].
          replace (s <? n) with true by (symmetry; apply Nat.ltb_lt; auto); rewrite (E Hs). cbn [fst mach mtrs]. rewrite (map_ext _ (fun t : tr K => t)); [rewrite map_id; auto|]. intros []; auto.
        + intros s Hs. destruct (b2_reach _ _ _ _ B s Hs) as (Hn & _). destruct (HF s Hn) as (_ & E). cbn [m mfin]. rewrite (E Hs). auto.
        + constructor.
    Qed.

    Lemma g_bits : vprops g = rmepsilon_properties (vprops f) true -> fsound f -> fsound g.
    Proof.
      intros Ep Sf b Hb. rewrite Ep in Hb. unfold rmepsilon_properties in Hb.
      assert (Ne : forall s t, In t (mtrs (mach g) s) -> eps t = false) by (intros s t Ht; apply (g_trs s t Ht)).
      assert (Ac : has (vprops f) ACCEPTOR = true -> forall s t, In t (mtrs (mach g) s) -> il t = ol t).
      { intros Ha s t Ht. destruct (g_trs s t Ht) as (_ & _ & q & u & _ & Hu & _ & E). unfold elt_of in E. injection E as E1 E2 _.
        rewrite E1, E2. apply (Sf ACCEPTOR Ha q u Hu). }
      repeat first [rewrite has_copyif in Hb | rewrite has_when in Hb]. rewrite has_mask in Hb. cbn [negb orb andb] in Hb.
      repeat rewrite ?orb_true_iff, ?andb_true_iff, ?orb_false_r in Hb. rewrite !inb_In in Hb.
      destruct Hb as [[[[Hb|Hb]|Hb]|Hb]|Hb].
      - destruct Hb as [<-|[]]. cbn. intros s t Ht [Hi Ho]. apply (Ne s) in Ht. unfold eps in Ht. rewrite Hi, Ho in Ht. discriminate.
      - destruct Hb as [Hi Hb]. destruct Hi as [<-|[<-|[<-|[]]]].
        + exact (Ac Hb).
        + cbn. intros s Hs. apply (Sf ACYCLIC Hb s). apply g_cycle. auto.
        + cbn. rewrite (b2_start _ _ _ _ B). intros s [= <-] Hc. apply (Sf INITIAL_ACYCLIC Hb start Es). apply g_cycle. auto.
      - destruct Hb as [Ha Hb]. destruct Hb as [<-|[<-|[]]]; cbn; intros s t Ht Hi; pose proof (Ne s t Ht) as Et; pose proof (Ac Ha s t Ht) as Eq; unfold eps in Et;
          rewrite ?Eq, ?Hi in Et; rewrite <- ?Eq, ?Hi in Et; discriminate.
      - discriminate.
      - destruct Hb as [[Ha [<-|[]]] Hb]. pose proof (Sf ACCESSIBLE Ha) as Sa. pose proof (Sf NOT_ACCEPTOR Hb) as (q & t & Ht & Hne). cbn in Sa, Ht.
        destruct (Sa q (trs_of_in f q t Ht)) as (s0 & E0 & Hq). cbn in E0. rewrite Es in E0. injection E0 as <-.
        destruct (f_reach q Hq) as (s & Hs & Hp). destruct (b2_reach _ _ _ _ B s Hs) as (_ & (trs & fin & D & El & _ & _ & Lb)).
        assert (I : In (elt_of t) (map elt_of trs)).
        { apply Lb. exists q, t. split; auto. split; auto. split; auto. unfold eps. destruct (Nat.eqb_spec (il t) 0), (Nat.eqb_spec (ol t) 0); auto. congruence. }
        apply in_map_iff in I as (v & Ev & Hv). unfold elt_of in Ev. injection Ev as E1 E2 _. exists s, v. split; [|congruence].
        cbn. rewrite El. apply -> in_rev. auto.
    Qed.
  End One.

  (** [RmEpsilonFst::new(f)?.compute()]: the whole of the machine built on demand. *)
  Theorem C66_rm_epsilon_fst :
    forall f pathp, closed f -> vstart f <> None -> removable f -> no_endless_growth K \/ kept_acyclic f eps ->
    (** it comes to an end without failing *)
    (forall fuel, (num_states f <= fuel)%nat -> exists N, forall k, (N <= k)%nat -> exists g, rm_epsilon_fst true pathp k fuel f = Some (Ok g)) /\
    forall k fuel g, rm_epsilon_fst true pathp k fuel f = Some (Ok g) ->
      vstart g = vstart f /\ closed g /\ visymt g = visymt f /\ vosymt g = vosymt f /\
      (** the relation *)
      (forall x y, exists v, settles (sums (mach f) x y) v /\ settles (sums (mach g) x y) v) /\
      (** no epsilons; a transition's labels and target are those of one of [f] behind epsilons *)
      (forall s t, In t (trs_of g s) -> ~ (il t = O /\ ol t = O) /\
         exists q u, reach (kmach f eps) s q /\ In u (trs_of f q) /\ il u = il t /\ ol u = ol t /\ ns u = ns t) /\
      (** numbers that cannot be reached stay empty, and the last one can be reached *)
      (forall s, ~ accessible (mach g) s -> trs_of g s = [] /\ fin_of g s = None) /\
      (exists s, accessible (mach g) s /\ num_states g = S s) /\ (num_states g <= num_states f)%nat /\
      (** the bits *)
      ((forall b, has (vprops f) b = true -> holds b (num_states f) (mach f)) ->
       forall b, has (vprops g) b = true -> holds b (num_states g) (mach g)).
  Proof.
    intros f pathp C Es Rm Hw. destruct (vstart f) as [start|] eqn:Es'; [clear Es|congruence]. rename Es' into Es.
    pose proof (proj2 C start Es) as Hst.
    assert (StE : forall k, compute_start2 (rm_eps_op true pathp f k) (rmst_new code_queue (QS fifo_new)) = Ok (Some start, rmst_new code_queue (QS fifo_new))).
    { intros k. cbn. rewrite Es. auto. }
    pose proof (fun k => both_answer f pathp start C Es Rm k) as Bo. split.
    - intros fuel Hf.
      destruct (compute2_total map_cache_ops map_inv map_cache_laws map_cache_new map_cache_empty (rm_eps_op true pathp f)
        (rest_ok code_queue (cq_ok f eps) f) (fun s => (s < num_states f)%nat) (answer f) (rmst_new code_queue (QS fifo_new)) (new_rest f) start Hst StE Bo
        (both_stops f pathp start C Es Rm Hw) (num_states f) (fun s H => H) (visymt f) (vosymt f) fuel Hf) as (N & HN).
      exists N. intros k Hk. destruct (HN k Hk) as (g & z & E). exists g. unfold rm_epsilon_fst. rewrite E. auto.
    - intros k fuel g. unfold rm_epsilon_fst. destruct (compute2 _ _ _ _ _ _) as [[[g0 z]| |]|] eqn:E; try discriminate. intros [= ->].
      destruct (compute2_built map_cache_ops map_inv map_cache_laws map_cache_new map_cache_empty (rm_eps_op true pathp f)
        (rest_ok code_queue (cq_ok f eps) f) (fun s => (s < num_states f)%nat) (answer f) (rmst_new code_queue (QS fifo_new)) (new_rest f) start Hst StE Bo
        k fuel (visymt f) (vosymt f) g z E) as (B & E1 & E2 & E3).
      split; [apply B|]. split; [apply B|]. split; auto. split; auto. split; [exact (g_rel f pathp start C Es Rm Hw g B)|].
      split; [|split; [|split; [|split]]].
      + intros s t Ht. destruct (g_trs f start C g B s t Ht) as (_ & Et & q & u & Hq & Hu & _ & Eu). unfold elt_of in Eu. injection Eu as U1 U2 U3. split.
        * intros [Hi Ho]. unfold eps in Et. rewrite Hi, Ho in Et. discriminate.
        * exists q, u. auto.
      + intros s Hs. apply (b2_rest _ _ _ _ B). intros R. apply Hs. exists start. split; auto. apply B.
      + destruct (b2_last _ _ _ _ B) as (s & Hs & En). exists s. split; auto. exists start. split; auto. apply B.
      + destruct (b2_last _ _ _ _ B) as (s & Hs & En). destruct (b2_reach _ _ _ _ B s Hs) as (Hn & _). lia.
      + exact (g_bits f start C Es g B E3).
  Qed.

  (** A machine without a start state gives a new, empty one. *)
  Theorem C66_no_start : forall f pathp k fuel, vstart f = None -> rm_epsilon_fst true pathp k fuel f = Some (Ok vnew).
  Proof. intros f pathp k fuel E. unfold rm_epsilon_fst, compute2, l2_start. cbn. rewrite E. reflexivity. Qed.
End C66.
Print Assumptions C66_rm_epsilon_fst.
Print Assumptions C66_no_start.

Local Close Scope K_scope.

(** The machine of C37, with an epsilon cycle and an epsilon self-loop: state 1 is only reached
    by epsilon transitions and stays empty. The second is a transducer whose states are all
    known to be accessible: that it is no acceptor is kept. *)
Definition c66_calls : list (op tropN) :=
  [OAddStates 3; OSetStart 0; OAddTr 0 (Tr 0 0 (Some 2) 1); OAddTr 1 (Tr 1 2 (Some 4) 2); OSetFinal 2 (Some 5)].

Example C66_witness : exists f g, run vnew c37_calls = Ok f /\ closed f /\ vstart f <> None /\ removable f /\ no_endless_growth tropN /\
  rm_epsilon_fst true true 100 4 f = Some (Ok g) /\ num_states g = 4 /\ trs_of g 1 = [] /\ trs_of g 0 = [Tr 1 2 (Some 6) 2; Tr 0 3 (Some 10) 3] /\
  sums (mach f) [] [3] 8 = Some 26 /\ sums (mach g) [] [3] 8 = Some 26 /\ sums (mach g) [1; 1] [2; 3; 2] 3 = Some 17 /\ sums (mach f) [1; 1] [2; 3; 2] 8 = Some 17 /\
  has (vprops g) NO_EPSILONS = true.
Proof.
  assert (E : exists f g, run vnew c37_calls = Ok f /\ rm_epsilon_fst true true 100 4 f = Some (Ok g)).
  { eexists _, _. split; [vm_compute; reflexivity|]. vm_compute. reflexivity. }
  destruct E as (f & g & E & Eg). exists f, g. destruct C37_witness as (f' & g' & E' & C & Rm & _ & V & _). rewrite E in E'. injection E' as <-.
  split; [exact E|]. split; [exact C|]. split; [exact V|]. split; [exact Rm|]. split; [exact (proj1 C16_growth)|]. split; [exact Eg|].
  clear C Rm V. vm_compute in E. injection E as <-. vm_compute in Eg. injection Eg as <-.
  repeat match goal with |- _ /\ _ => split end; vm_compute; reflexivity.
Qed.

Example C66_bits_test : exists f g, run vnew c66_calls = Ok f /\ has (vprops f) ACCESSIBLE = false /\
  rm_epsilon_fst true true 100 4 (with_bits f) = Some (Ok g) /\
  has (vprops g) NOT_ACCEPTOR = true /\ has (vprops g) ACYCLIC = true /\ has (vprops g) NO_I_EPSILONS = false.
Proof. eexists _, _. split; [vm_compute; reflexivity|]. repeat match goal with |- _ /\ _ => split end; vm_compute; reflexivity. Qed.
