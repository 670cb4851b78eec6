(** C09: invert and project act on the relation as advertised. *)
From Coq Require Import List Arith NArith Bool.
From Verif Require Import Base.Util Base.Semiring Base.Machine Base.PropSpec Base.Instances
  Model.Props Model.VectorFst Model.TrOps Model.History Model.AlgoProps Model.Relabel
  Proofs.VectorFacts Proofs.DelStates Proofs.VectorProps Proofs.TrOpsFacts Proofs.HistoryFacts Proofs.RelabelFacts.
Import ListNotations.
Local Open Scope K_scope.

Section C09.
  Context {K : SR} (L : lsr_laws K).
  Implicit Types f : vfst K.

  (** [f] is any machine built by a history of calls. *)
  Theorem C09_invert :
    forall calls f, run vnew calls = Ok f ->
    exists f', invert f = Ok f' /\
      num_states f' = num_states f /\
      (forall s, trs_of f' s = map (fun t => Tr (ol t) (il t) (wgt t) (ns t)) (trs_of f s)) /\
      (forall s, fin_of f' s = fin_of f s) /\ vstart f' = vstart f /\
      forall n x y, rel (mach f') n y x = rel (mach f) n x y.
  Proof.
    intros calls f E. assert (C : cnt f) by (eapply run_cnt; eauto; constructor).
    destruct (invert_eq f C) as (q & Eq). eexists. split; [exact Eq|].
    pose proof (rstate_mmap (fun t => Tr (ol t) (il t) (wgt t) (ns t)) f q (invert_properties (vprops f))) as M.
    set (f' := set_all _ _) in *.
    split; [unfold num_states; simpl; apply map_length|]. destruct M as (MS & MT & MF).
    split; [exact MT|]. split; [exact MF|]. split; [reflexivity|].
    assert (W : forall n s x y, wt (mach f') n s y x = wt (mach f) n s x y).
    { induction n; intros s x y; simpl.
      - rewrite (MF s : fin_of f' s = _). rewrite andb_comm. reflexivity.
      - rewrite (MT s : trs_of f' s = _), map_map. apply ksum_map_ext. intros t _. simpl.
        destruct (strip (ol t) y), (strip (il t) x); auto. rewrite IHn. auto. }
    intros n x y. unfold rel. cbn [mach mstart]. change (vstart f') with (vstart f).
    destruct (vstart f); auto.
  Qed.

  (** Inverting twice restores every state, counter, the start and the symbol tables. *)
  Theorem C09_invert_involutive :
    forall calls f, run vnew calls = Ok f ->
    exists f' f'', invert f = Ok f' /\ invert f' = Ok f'' /\
      vstates f'' = vstates f /\ vstart f'' = vstart f /\ visymt f'' = visymt f /\ vosymt f'' = vosymt f.
  Proof.
    intros calls f E. assert (C : cnt f) by (eapply run_cnt; eauto; constructor).
    destruct (invert_eq f C) as (q & Eq). eexists.
    assert (C' : cnt (set_all (VF (map (rstate (fun t => Tr (ol t) (il t) (wgt t) (ns t))) (vstates f))
             (vstart f) (visymt f) (vosymt f) q) (invert_properties (vprops f)))).
    { unfold cnt. simpl. apply Forall_map. apply Forall_forall. intros. apply cnt_rstate. }
    destruct (invert_eq _ C') as (q' & Eq'). eexists.
    split; [exact Eq|]. split; [exact Eq'|]. simpl. repeat split; auto.
    rewrite map_map. transitivity (map (fun x => x) (vstates f)); [|apply map_id].
    apply map_ext_in. intros st Hst. eapply Forall_forall in C; eauto. destruct C as [C1 C2].
    unfold rstate. simpl. rewrite map_map. simpl.
    assert (map (fun t => Tr (il t) (ol t) (wgt t) (ns t)) (vtrs st) = vtrs st) as ->.
    { rewrite <- (map_id (vtrs st)) at 2. apply map_ext. intros []; reflexivity. }
    destruct st; simpl in *; congruence.
  Qed.

  (** Projection yields an acceptor; its weight on a string sums the paths of [f] reading
      (writing) that string. *)
  Theorem C09_project :
    forall calls f pt, run vnew calls = Ok f ->
    exists f', project f pt = Ok f' /\
      num_states f' = num_states f /\ vstart f' = vstart f /\ (forall s, fin_of f' s = fin_of f s) /\
      (forall s t, In t (trs_of f' s) -> il t = ol t) /\
      forall n x z, rel (mach f') n x z =
        match vstart f with
        | None => 0
        | Some s => if leqb x z
                    then ksum (map (fun p => if leqb (match pt with ProjectInput => ilabs p
                                                      | ProjectOutput => olabs p end) x
                                             then apw (mach f) s p else 0) (paths (mach f) n s))
                    else 0
        end.
  Proof.
    intros calls f pt E. assert (C : cnt f) by (eapply run_cnt; eauto; constructor).
    destruct (project_eq f pt C) as (q & Eq). eexists. split; [exact Eq|].
    pose proof (rstate_mmap (fun t => match pt with
       | ProjectInput => Tr (il t) (il t) (wgt t) (ns t)
       | ProjectOutput => Tr (ol t) (ol t) (wgt t) (ns t) end) f q (project_properties (vprops f) pt)) as M.
    set (f' := set_all _ _) in *. set (g := fun t : tr K => _) in M.
    assert (Gn : forall t, ns (g t) = ns t) by (intros t; unfold g; destruct pt; auto).
    assert (Gw : forall t, wgt (g t) = wgt t) by (intros t; unfold g; destruct pt; auto).
    split; [unfold num_states; simpl; apply map_length|]. pose proof M as (MS & MT & MF).
    split; [reflexivity|]. split; [exact MF|]. split.
    - intros s t Ht. rewrite (MT s : trs_of f' s = _) in Ht. apply in_map_iff in Ht as (t0 & <- & _).
      unfold g. destruct pt; reflexivity.
    - intros n x z. unfold rel. cbn [mach mstart]. change (vstart f') with (vstart f).
      destruct (vstart f) as [s|]; auto. rewrite (mmap_wt L g Gn Gw _ _ M).
      assert (I : forall p, ilabs (map g p) = match pt with ProjectInput => ilabs p | ProjectOutput => olabs p end).
      { intros p. unfold ilabs, olabs, g. induction p; destruct pt; simpl; auto; f_equal; auto. }
      assert (O : forall p, olabs (map g p) = match pt with ProjectInput => ilabs p | ProjectOutput => olabs p end).
      { intros p. unfold ilabs, olabs, g. induction p; destruct pt; simpl; auto; f_equal; auto. }
      destruct (leqb x z) eqn:Exz.
      + apply leqb_true in Exz. subst z. apply ksum_map_ext. intros p _. rewrite I, O, andb_diag. auto.
      + apply (ksum_map_zero L). intros p _. rewrite I, O.
        match goal with |- (if leqb ?u x && leqb ?u z then _ else _) = _ =>
          destruct (leqb u x) eqn:E1, (leqb u z) eqn:E2; simpl; auto end.
        apply leqb_true in E1, E2. assert (x = z) by congruence.
        apply leqb_true in H. congruence.
  Qed.

  (** Bits stay sound. *)
  Theorem C09_bits_sound :
    forall calls f, run vnew calls = Ok f ->
    (forall b, has (vprops f) b = true -> holds b (num_states f) (mach f)) ->
    (forall f', invert f = Ok f' -> forall b, has (vprops f') b = true -> holds b (num_states f') (mach f')) /\
    (forall pt f', project f pt = Ok f' -> forall b, has (vprops f') b = true -> holds b (num_states f') (mach f')).
  Proof.
    intros calls f E S. assert (C : cnt f) by (eapply run_cnt; eauto; constructor). split.
    - intros f' E'. apply (invert_fsound f f' C S E').
    - intros pt f' E'. apply (project_fsound f pt f' C S E').
  Qed.
End C09.
Print Assumptions C09_invert.
Print Assumptions C09_invert_involutive.
Print Assumptions C09_project.
Print Assumptions C09_bits_sound.

Definition c09_calls : list (op natSR) :=
  [OAddStates 3; OSetStart 0; OAddTr 0 (Tr 1 7 2 1); OAddTr 0 (Tr 1 0 3 1); OAddTr 1 (Tr 0 5 1 2);
   OSetFinal 2 10].
Example C09_witness : exists f fi fp, run vnew c09_calls = Ok f /\ invert f = Ok fi /\
  project f ProjectInput = Ok fp /\
  rel (mach f) 2 [1] [7; 5] = 20 /\ rel (mach fi) 2 [7; 5] [1] = 20 /\
  rel (mach fp) 2 [1] [1] = 50 /\ rel (mach fp) 2 [1] [] = 0 /\
  has (vprops fp) ACCEPTOR = true /\ has (vprops f) ACCEPTOR = false.
Proof.
  eexists. eexists. eexists. split; [vm_compute; reflexivity|]. split; [vm_compute; reflexivity|].
  split; [vm_compute; reflexivity|]. repeat split; vm_compute; reflexivity.
Qed.
