(** C37: epsilon removal keeps the weighted relation. *)
From Coq Require Import List Arith NArith ZArith Bool Lia.
From Verif Require Import Base.Util Base.Semiring Base.Machine Base.PathSum Base.PropSpec Base.Instances
  Model.Props Model.VectorFst Model.History Model.Dfs Model.Rational Model.Queues Model.ShortestDistance Model.RmEpsilon
  Proofs.VectorFacts Proofs.VectorProps Proofs.TrOpsFacts Proofs.HistoryFacts Proofs.SdFacts Proofs.SdRun Proofs.SdLive Proofs.AutoQueueFacts
  Proofs.ReverseDist Proofs.EpsFacts Proofs.ExpandFacts Proofs.RmEpsFacts Proofs.LazyEps Proofs.RmEpsLazy Props.C16 Props.C28.
Import ListNotations.
Local Open Scope K_scope.

(** The total weight of the paths of at most [k] transitions that read [x] and write [y]. *)
Definition sums {K : SR} (m : machine K) (x y : list nat) (k : nat) : K := ksum (map (fun j => rel m j x y) (seq O (S k))).

Section C37.
  Context {K : SR} (L : sr_laws K).
  Implicit Types f g : vfst K.
  Notation eps := epsilon_filter.

  (** What the call needs of the weights: zero is not a sum or a product of other values
      ([positive]), no epsilon transition weighs zero, epsilon self-loops add nothing to the
      empty path, and either sums are idempotent or epsilon transitions form no cycle. *)
  Definition removable f : Prop :=
    positive K /\ nonzero_eps f /\ loops_idle f eps /\ (idempotent_plus K \/ kept_acyclic f eps).

  Lemma rm_epsilon_any :
    forall f idem pathp fuel R,
    cnt f -> closed f ->
    (has (vprops f) ACYCLIC = true -> forall s, ~ on_cycle (mach f) s) ->
    removable f ->
    rm_epsilon idem pathp true fuel f = Some R ->
    exists g, R = Ok g /\
      (forall x y, exists v, settles (sums (mach f) x y) v /\ settles (sums (mach g) x y) v) /\
      (vstart f <> None ->
         (forall s t, In t (trs_of g s) -> ~ (il t = O /\ ol t = O)) /\
         (forall s, (s < num_states g)%nat -> accessible (mach g) s /\ coaccessible (mach g) s)) /\
      ((forall b, has (vprops f) b = true -> holds b (num_states f) (mach f)) ->
       forall b, has (vprops g) b = true -> holds b (num_states g) (mach g)).
  Proof.
    intros f idem pathp fuel R Cn C Sn (Pos & Nz & Ca & H). unfold rm_epsilon.
    destruct (auto_queue_fresh idem pathp f eps C Sn) as (q & sccs & -> & Fr & Mo). unfold rm_epsilon_with.
    destruct (vstart f) as [start|] eqn:Es.
    - pose proof (fresh_cq_ok f eps q sccs Fr Mo) as Oq. pose proof (code_queue_spec f eps) as QS.
      destruct (noneps_ok f start C Es) as (nin & -> & Ln & Ns & Ni).
      destruct (order_ok f start C Es Sn) as (order & -> & Ho).
      destruct (rm_states code_queue true pathp fuel nin (rev order) f (rmst_new code_queue q)) as [R0|] eqn:E; [|discriminate].
      destruct (states_ok L code_queue (cq_ok f eps) Pos f start Es QS Nz Ca H pathp fuel nin (rev order) f (rmst_new code_queue q) R0)
        as (g0 & -> & G & Fe & _); auto.
      { apply good_0; auto. } { apply rest_new. auto. } { intros s Hs. apply in_rev, Ho in Hs. auto. }
      destruct (finish_ok L code_queue (cq_ok f eps) f start C Es Cn QS Nz Ca H nin g0) as (g & Eg & A1 & A2 & A3 & A4); auto.
      { intros s t Hs Ht. destruct (Nat.lt_ge_cases s (num_states f)) as [Hl|Hl].
        - apply (Fe s t); auto. apply -> in_rev. apply Ho. auto.
        - rewrite nth_overflow in Hs by lia. discriminate. }
      rewrite Eg. intros [= <-]. exists g. split; [auto|]. split; [exact A4|]. split; auto.
    - intros [= <-]. exists f. split; auto. split; [|split; [congruence|auto]].
      intros x y. exists 0. assert (Z : forall k, sums (mach f) x y k = 0).
      { intros k. unfold sums. apply (ksum_map_zero L). intros j _. unfold rel. cbn. rewrite Es. auto. }
      split; exists O; auto.
  Qed.

  Theorem C37_rm_epsilon :
    forall calls f idem pathp fuel R,
    run vnew calls = Ok f -> closed f ->
    (has (vprops f) ACYCLIC = true -> forall s, ~ on_cycle (mach f) s) ->
    removable f ->
    rm_epsilon idem pathp true fuel f = Some R ->
    exists g, R = Ok g /\
      (forall x y, exists v, settles (sums (mach f) x y) v /\ settles (sums (mach g) x y) v) /\
      (vstart f <> None ->
         (forall s t, In t (trs_of g s) -> ~ (il t = O /\ ol t = O)) /\
         (forall s, (s < num_states g)%nat -> accessible (mach g) s /\ coaccessible (mach g) s)) /\
      ((forall b, has (vprops f) b = true -> holds b (num_states f) (mach f)) ->
       forall b, has (vprops g) b = true -> holds b (num_states g) (mach g)).
  Proof.
    intros calls f idem pathp fuel R Ef. apply rm_epsilon_any. eapply (run_cnt L); [|exact Ef]. constructor.
  Qed.

  (** Epsilon distances are found in finitely many steps. *)
  Lemma rm_epsilon_any_stops :
    forall f idem pathp,
    cnt f -> closed f ->
    (has (vprops f) ACYCLIC = true -> forall s, ~ on_cycle (mach f) s) ->
    removable f -> no_endless_growth K \/ kept_acyclic f eps ->
    exists fuel R, rm_epsilon idem pathp true fuel f = Some R.
  Proof.
    intros f idem pathp Cn C Sn (Pos & Nz & Ca & H) Hw. unfold rm_epsilon.
    destruct (auto_queue_fresh idem pathp f eps C Sn) as (q & sccs & -> & Fr & Mo). unfold rm_epsilon_with.
    destruct (vstart f) as [start|] eqn:Es; [|exists O; eauto].
    pose proof (fresh_cq_ok f eps q sccs Fr Mo) as Oq. pose proof (code_queue_spec f eps) as QS.
    destruct (noneps_ok f start C Es) as (nin & -> & Ln & Ns & Ni).
    destruct (order_ok f start C Es Sn) as (order & -> & Ho).
    destruct (states_stop L code_queue (cq_ok f eps) Pos f start Es QS Nz Ca H pathp nin (rev order) Hw f (rmst_new code_queue q)) as (fuel & R & E); auto.
    { apply good_0; auto. } { apply rest_new. auto. } { intros s Hs. apply in_rev, Ho in Hs. auto. }
    exists fuel. rewrite E. destruct R; eauto.
  Qed.

  Theorem C37_rm_epsilon_stops :
    forall calls f idem pathp,
    run vnew calls = Ok f -> closed f ->
    (has (vprops f) ACYCLIC = true -> forall s, ~ on_cycle (mach f) s) ->
    removable f -> no_endless_growth K \/ kept_acyclic f eps ->
    exists fuel R, rm_epsilon idem pathp true fuel f = Some R.
  Proof.
    intros calls f idem pathp Ef. apply rm_epsilon_any_stops. eapply (run_cnt L); [|exact Ef]. constructor.
  Qed.

  (** The lazy variant expands each requested state on the unchanged machine, with one retained
      state and a first-in first-out queue. [served f st]: some calls, from the new state, have
      left [st]. *)
  Inductive served pathp f : rmst K code_queue -> Prop :=
  | served_new : served pathp f (rmst_new code_queue (QS fifo_new))
  | served_call st s fuel trs fin st' : served pathp f st -> (s < num_states f)%nat ->
      rm_lazy_state code_queue true pathp fuel s f st = Some (Ok (trs, fin, st')) -> served pathp f st'.

  Theorem C37_lazy :
    forall f pathp, closed f -> vstart f <> None -> removable f ->
    (** no call fails *)
    (forall st s fuel R, served pathp f st -> (s < num_states f)%nat ->
       rm_lazy_state code_queue true pathp fuel s f st = Some R -> exists trs fin st', R = Ok (trs, fin, st')) /\
    (** and a machine whose states were all served, whenever that was, has the relation of [f] *)
    forall m : machine K, mstart m = vstart f ->
    (forall s, (s < num_states f)%nat -> exists st fuel trs fin st', served pathp f st /\
       rm_lazy_state code_queue true pathp fuel s f st = Some (Ok (trs, fin, st')) /\ mtrs m s = trs /\ mfin m s = fin) ->
    (forall s, (num_states f <= s)%nat -> mtrs m s = []) ->
    (forall s t, In t (mtrs m s) -> ~ (il t = O /\ ol t = O)) /\
    forall x y, exists v, settles (sums (mach f) x y) v /\ settles (sums m x y) v.
  Proof.
    intros f pathp C Es (Pos & Nz & Ca & H). destruct (vstart f) as [start|] eqn:Es'; [clear Es|congruence]. rename Es' into Es.
    assert (Oq : cq_ok f eps (QS fifo_new) (fun _ => O) None).
    { apply (fresh_cq_ok f eps (QS fifo_new) []); [constructor; constructor|]. intros s t c d _ E. destruct s; discriminate. }
    pose proof (code_queue_spec f eps) as QS. set (n := num_states f) in *.
    assert (X : forall st s fuel R, rest_ok code_queue (cq_ok f eps) f st -> (s < n)%nat -> rm_lazy_state code_queue true pathp fuel s f st = Some R ->
      exists trs fin st' D, R = Ok (rev trs, if keqb fin 0 then None else Some fin, st') /\ rest_ok code_queue (cq_ok f eps) f st' /\ closure_of f s trs fin D).
    { intros st s fuel R Ro Hs E. unfold rm_lazy_state in E. destruct (expand code_queue true pathp fuel s f st) as [R0|] eqn:E0; [|discriminate].
      destruct (expand_ok L code_queue (cq_ok f eps) Pos f pathp fuel s start st R0 C Es QS Nz Ca H Hs Ro E0) as (trs & fin & st' & D & -> & Ro' & Cl & _).
      injection E as <-. exists trs, fin, st', D. auto. }
    assert (Sv : forall st, served pathp f st -> rest_ok code_queue (cq_ok f eps) f st).
    { induction 1 as [|st s fuel trs fin st' _ IH Hs E]; [apply rest_new; auto|].
      destruct (X st s fuel _ IH Hs E) as (trs' & fin' & st2 & D & E2 & Ro & _). injection E2 as _ _ ->. auto. }
    split.
    { intros st s fuel R Hv Hs E. destruct (X st s fuel R (Sv st Hv) Hs E) as (trs & fin & st' & D & -> & _). eauto. }
    intros m Em Hm Hb. apply (all_closed L f start m C Es H); [congruence| |exact Hb].
    intros s Hs. destruct (Hm s Hs) as (st & fuel & trs & fin & st' & Hv & E & E1 & E2).
    destruct (X st s fuel _ (Sv st Hv) Hs E) as (trs' & fin' & st2 & D & E3 & _ & Cl). injection E3 as X1 X2 X3.
    exists trs', fin', D. split; auto. split; [congruence|]. rewrite E2, X2. destruct (keqbP L fin' 0) as [Ez|]; [rewrite Ez|]; auto.
  Qed.
End C37.
Print Assumptions C37_rm_epsilon.
Print Assumptions C37_rm_epsilon_stops.
Print Assumptions C37_lazy.

Local Close Scope K_scope.

(** A machine with an epsilon cycle, an epsilon self-loop and two epsilon paths to one state. *)
Definition c37_calls : list (op tropN) :=
  [OAddStates 4; OSetStart 0; OAddTr 0 (Tr 0 0 (Some 2) 1); OAddTr 1 (Tr 0 0 (Some 1) 0); OAddTr 1 (Tr 1 2 (Some 4) 2);
   OAddTr 0 (Tr 0 0 (Some 9) 2); OAddTr 2 (Tr 0 0 (Some 0) 2); OAddTr 2 (Tr 0 3 (Some 1) 3); OAddTr 3 (Tr 0 0 (Some 1) 1);
   OSetFinal 2 (Some 5)].

Lemma tropN_positive : positive tropN.
Proof.
  split; [discriminate|]. split; intros [a|] [b|]; cbn; auto; discriminate.
Qed.

Example C37_witness : exists f g, run vnew c37_calls = Ok f /\ closed f /\ removable f /\
  (has (vprops f) ACYCLIC = true -> forall s, ~ on_cycle (mach f) s) /\ vstart f <> None /\
  rm_epsilon true true true 100 f = Some (Ok g) /\ num_states g = 3 /\
  sums (mach f) [] [3] 8 = Some 26 /\ sums (mach g) [] [3] 8 = Some 26 /\ sums (mach g) [1; 1] [2; 3; 2] 3 = Some 17 /\ sums (mach f) [1; 1] [2; 3; 2] 8 = Some 17.
Proof.
  assert (E : exists f g, run vnew c37_calls = Ok f /\ rm_epsilon true true true 100 f = Some (Ok g)).
  { eexists _, _. split; [vm_compute; reflexivity|]. vm_compute. reflexivity. }
  destruct E as (f & g & E & Eg). exists f, g. vm_compute in E. injection E as <-. vm_compute in Eg. injection Eg as <-.
  split; [reflexivity|]. split.
  { split; [|intros s [= <-]; cbn; lia]. intros s t. do 4 (destruct s as [|s]; [cbn; intros H; repeat destruct H as [<-|H]; try destruct H; vm_compute; lia|]). destruct s; intros []. }
  split.
  { split; [apply tropN_positive|]. split; [|split; [intros s t _ _ _; apply tropN_bounded|left; apply tropN_idem]].
    intros s t. do 4 (destruct s as [|s]; [cbn; intros H; repeat destruct H as [<-|H]; try destruct H; discriminate|]). destruct s; intros []. }
  split; [vm_compute; discriminate|]. split; [discriminate|]. repeat split; vm_compute; reflexivity.
Qed.

(** An epsilon transition of weight zero: the distances stop there, the walk does not. With a
    second epsilon transition behind it the walk reads a distance that was never stored. *)
Theorem C37_zero_weight_refuted :
  exists (calls : list (op tropN)) f, run vnew calls = Ok f /\ closed f /\ rm_epsilon true true true 100 f = Some Panic.
Proof.
  exists [OAddStates 3; OSetStart 0; OAddTr 0 (Tr 0 0 None 1); OAddTr 1 (Tr 0 0 (Some 7) 2); OSetFinal 2 (Some 5); OSetFinal 0 (Some 5)].
  eexists. split; [vm_compute; reflexivity|]. split; [|vm_compute; reflexivity].
  split; [|intros s [= <-]; cbn; lia]. intros s t. do 3 (destruct s as [|s]; [cbn; intros H; repeat destruct H as [<-|H]; try destruct H; vm_compute; lia|]). destruct s; intros [].
Qed.

(** Or it reads the distance left by an earlier expansion: the empty pair weighs infinity
    before and 8 after. *)
Theorem C37_stale_distance_refuted :
  exists (calls : list (op tropN)) f g, run vnew calls = Ok f /\ closed f /\ rm_epsilon true true true 100 f = Some (Ok g) /\
    (forall s, ~ on_cycle (mach f) s) /\ settles (sums (mach f) [] []) None /\ settles (sums (mach g) [] []) (Some 8).
Proof.
  exists [OAddStates 4; OSetStart 0; OAddTr 0 (Tr 0 0 None 1); OAddTr 1 (Tr 0 0 (Some 7) 3); OSetFinal 3 (Some 5); OAddTr 0 (Tr 1 1 (Some 0) 2);
    OAddTr 2 (Tr 0 0 (Some 3) 3)].
  eexists _, _. split; [vm_compute; reflexivity|]. split.
  { split; [|intros s [= <-]; cbn; lia]. intros s t. do 4 (destruct s as [|s]; [cbn; intros H; repeat destruct H as [<-|H]; try destruct H; vm_compute; lia|]). destruct s; intros []. }
  split; [vm_compute; reflexivity|]. split.
  { refine (top_sorted_acyclic _ _). intros s t. do 4 (destruct s as [|s]; [cbn; intros H; repeat destruct H as [<-|H]; try destruct H; vm_compute; lia|]). destruct s; intros []. }
  match goal with |- settles (sums (mach ?u) _ _) _ /\ settles (sums (mach ?v) _ _) _ => set (f := u); set (g := v) end.
  assert (C : closed f).
  { split; [|intros s [= <-]; cbn; lia]. intros s t. do 4 (destruct s as [|s]; [cbn; intros H; repeat destruct H as [<-|H]; try destruct H; vm_compute; lia|]). destruct s; intros []. }
  split.
  - exists 4. intros j Hj. change (tot (mach f) j 0 [] [] = None).
    rewrite (tot_settled tropN_laws 4 (mach f)); [vm_compute; reflexivity| | |lia|exact Hj].
    + intros s t Ht. apply (proj1 C s t Ht).
    + apply (acyclic_low f f C eq_refl). refine (top_sorted_acyclic (kmach f epsilon_filter) _). intros s t Ht. cbn [kmach mtrs] in Ht. apply filter_In in Ht as [Ht _]. revert s t Ht.
      intros s t. do 4 (destruct s as [|s]; [cbn; intros H; repeat destruct H as [<-|H]; try destruct H; vm_compute; lia|]). destruct s; intros [].
  - exists 0. intros j Hj. change (tot (mach g) j 0 [] [] = Some 8).
    rewrite (free_tot tropN_laws (mach g) (fun s => s < 2)); [vm_compute; reflexivity| |lia|cbn; lia].
    intros s t Hs. destruct s as [|[|s]]; [| |lia]; cbn; intros H; repeat destruct H as [<-|H]; try destruct H; vm_compute; split; (lia || reflexivity).
Qed.

(** Without a start state the machine is returned as it is. *)
Theorem C37_no_start_refuted :
  exists (calls : list (op tropN)) f s t, run vnew calls = Ok f /\ closed f /\ rm_epsilon true true true 100 f = Some (Ok f) /\
    In t (trs_of f s) /\ il t = 0 /\ ol t = 0.
Proof.
  exists [OAddStates 1; OAddTr 0 (Tr 0 0 (Some 1) 0)]. eexists _, 0, _. split; [vm_compute; reflexivity|]. split.
  { split; [|discriminate]. intros s t. destruct s as [|s]; [cbn; intros H; repeat destruct H as [<-|H]; try destruct H; vm_compute; lia|]. destruct s; intros []. }
  split; [vm_compute; reflexivity|]. split; [left; reflexivity|]. auto.
Qed.
Print Assumptions C37_zero_weight_refuted.
Print Assumptions C37_stale_distance_refuted.
Print Assumptions C37_no_start_refuted.
