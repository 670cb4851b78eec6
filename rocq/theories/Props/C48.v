(** C48: condensation keeps exactly what runs between strongly connected components. *)
From Coq Require Import List Arith NArith ZArith Bool Lia.
From Verif Require Import Base.Util Base.Semiring Base.Machine Base.PropSpec Base.Instances
  Model.Props Model.VectorFst Model.TrOps Model.Dfs Model.Visitors Model.History
  Proofs.PropsFacts Proofs.VectorFacts Proofs.DelStates Proofs.TrOpsFacts Proofs.VectorProps Proofs.HistoryFacts Proofs.OpFacts Proofs.ConnectFacts
  Props.C06 Props.C36.
Import ListNotations.

(** The component of a state, as the returned vector has it. *)
Definition comp (scc : list Z) (s : nat) : nat := Z.to_nat (nth s scc (-1)%Z).

(** The weights to be summed up for component [c], in the order of the states. *)
Definition member_finals {K : SR} (f : vfst K) (scc : list Z) (c : nat) : list K :=
  flat_map (fun s => if comp scc s =? c then match fin_of f s with Some w => [w] | None => [] end else []) (seq 0 (num_states f)).

(** The transitions that leave component [c], in the order of the states. *)
Definition leaving {K : SR} (f : vfst K) (scc : list Z) (c : nat) : list (tr K) :=
  flat_map (fun s => if comp scc s =? c then
      map (fun t => Tr (il t) (ol t) (wgt t) (comp scc (ns t))) (filter (fun t => negb (comp scc (ns t) =? c)) (trs_of f s)) else [])
    (seq 0 (num_states f)).

Section C48.
  Context {K : SR} (L : lsr_laws K).
  Implicit Types (f g : vfst K).

  Definition add_fin (o : option K) (w : K) : option K := Some match o with Some u => kplus u w | None => w end.

  Definition inner (scc : list Z) (c : nat) (r : res (vfst K)) (t : tr K) : res (vfst K) :=
    h <-- r ;;
    match nth_error scc (ns t) with
    | None => Panic
    | Some z => if Nat.eqb (Z.to_nat z) c then Ok h else add_tr h c (Tr (il t) (ol t) (wgt t) (Z.to_nat z))
    end.
  Definition outer f (scc : list Z) (r : res (vfst K)) (s : nat) : res (vfst K) :=
    g <-- r ;;
    let c := Z.to_nat (nth s scc 0%Z) in
    match vstart f with
    | None => Panic
    | Some q =>
        let g := if Nat.eqb s q then set_start_unchecked g c else g in
        g1 <-- match fin_of f s with
               | None => Ok g
               | Some w => match nth_error (vstates g) c with
                           | None => Panic
                           | Some st => set_final g c (match vfin st with Some u => kplus u w | None => w end)
                           end
               end ;;
        fold_left (inner scc c) (trs_of f s) (Ok g1)
    end.

  Lemma inner_ok scc c l : (forall t, In t l -> ns t < length scc) -> forall g, c < num_states g -> fsound g -> cnt g ->
    exists h, fold_left (inner scc c) l (Ok g) = Ok h /\ eff g h /\ fsound h /\ cnt h /\ (forall q, fin_of h q = fin_of g q) /\
      forall q, trs_of h q = trs_of g q ++ if q =? c then
        map (fun t => Tr (il t) (ol t) (wgt t) (comp scc (ns t))) (filter (fun t => negb (comp scc (ns t) =? c)) l) else [].
  Proof.
    induction l as [|t l IH]; intros Hl g Hc So Cn; cbn [fold_left].
    - exists g. split; auto. split; [repeat split; auto|]. repeat (split; auto). intros q. destruct (q =? c); cbn; rewrite app_nil_r; auto.
    - unfold inner at 2. cbn [rbind]. destruct (nth_error scc (ns t)) as [z|] eqn:Ez.
      2:{ apply nth_error_None in Ez. specialize (Hl t (or_introl eq_refl)). lia. }
      assert (Cz : comp scc (ns t) = Z.to_nat z) by (unfold comp; rewrite (List.nth_error_nth _ _ _ Ez); auto).
      cbn [filter]. rewrite Cz. destruct (Nat.eqb_spec (Z.to_nat z) c) as [Ec|Ec]; cbn [negb].
      + apply IH; auto. intros; apply Hl; right; auto.
      + destruct (add_tr_eff g c (Tr (il t) (ol t) (wgt t) (Z.to_nat z)) Hc) as (g1 & E & X & T & F). rewrite E.
        pose proof (fsound_add_tr L _ _ _ _ So E) as S1. destruct X as (X1 & X2 & X3 & X4 & X5).
        destruct (IH (fun t H => Hl t (or_intror H)) g1) as (h & Eh & (Y1 & Y2 & Y3 & Y4 & Y5) & Sh & Ch & Fh & Th); auto; [lia|].
        exists h. split; auto. split; [repeat split; try congruence; auto|]. repeat (split; auto).
        * intros q. rewrite Fh. apply F.
        * intros q. rewrite Th, T. destruct (Nat.eqb_spec q c) as [->|]; auto. cbn [map]. rewrite Cz, <- app_assoc. auto.
  Qed.

  Definition osum (o : option K) (l : list K) : option K := fold_left add_fin l o.

  Lemma outer_ok f scc q0 l : closed f -> vstart f = Some q0 -> length scc = num_states f ->
    (forall s, s < num_states f -> (0 <= nth s scc (-1))%Z) -> (forall s, In s l -> s < num_states f) ->
    forall g, (forall s, s < num_states f -> comp scc s < num_states g) -> fsound g -> cnt g ->
    exists h, fold_left (outer f scc) l (Ok g) = Ok h /\ num_states h = num_states g /\ visymt h = visymt g /\ vosymt h = vosymt g /\ fsound h /\ cnt h /\
      vstart h = (if existsb (Nat.eqb q0) l then Some (comp scc q0) else vstart g) /\
      (forall c, fin_of h c = osum (fin_of g c) (flat_map (fun s => if comp scc s =? c then match fin_of f s with Some w => [w] | None => [] end else []) l)) /\
      (forall c, trs_of h c = trs_of g c ++ flat_map (fun s => if comp scc s =? c then
         map (fun t => Tr (il t) (ol t) (wgt t) (comp scc (ns t))) (filter (fun t => negb (comp scc (ns t) =? c)) (trs_of f s)) else []) l).
  Proof.
    intros C Es Ln Nn. induction l as [|s l IH]; intros Hl g Hg So Cn; cbn [fold_left].
    - exists g. split; auto. repeat (split; auto). intros c. cbn. rewrite app_nil_r. auto.
    - unfold outer at 2. cbn [rbind]. rewrite Es.
      assert (Hs : s < num_states f) by (apply Hl; left; auto).
      assert (Ec : Z.to_nat (nth s scc 0%Z) = comp scc s) by (unfold comp; f_equal; apply nth_indep; lia). rewrite Ec.
      pose proof (Hg s Hs) as Hc. set (c := comp scc s) in *.
      set (g0 := if s =? q0 then set_start_unchecked g c else g).
      assert (G0 : num_states g0 = num_states g /\ visymt g0 = visymt g /\ vosymt g0 = vosymt g /\ fsound g0 /\ cnt g0 /\
        vstart g0 = (if s =? q0 then Some c else vstart g) /\ (forall q, fin_of g0 q = fin_of g q) /\ (forall q, trs_of g0 q = trs_of g q)).
      { unfold g0. destruct (s =? q0); repeat (split; auto). apply (set_start_sound g c So). }
      clearbody g0. destruct G0 as (A1 & A2 & A3 & A4 & A5 & A6 & A7 & A8).
      assert (G1 : exists g1, match fin_of f s with
               | None => Ok g0
               | Some w => match nth_error (vstates g0) c with
                           | None => Panic
                           | Some st => set_final g0 c (match vfin st with Some u => kplus u w | None => w end)
                           end
               end = Ok g1 /\ eff g0 g1 /\ fsound g1 /\ (forall q, trs_of g1 q = trs_of g0 q) /\
               (forall q, fin_of g1 q = if c =? q then osum (fin_of g0 q) (match fin_of f s with Some w => [w] | None => [] end) else fin_of g0 q)).
      { destruct (fin_of f s) as [w|].
        - destruct (nth_state g0 c) as (st & E1 & _ & E3); [lia|]. rewrite E1.
          destruct (set_final_eff g0 c (match vfin st with Some u => kplus u w | None => w end)) as (g1 & E & X & T & F); [lia|].
          exists g1. split; auto. split; auto. split; [eapply (fsound_set_final L); eauto|]. split; auto. intros q. rewrite F, Nat.eqb_sym.
          destruct (Nat.eqb_spec c q) as [->|]; auto. cbn. rewrite E3. auto.
        - exists g0. split; auto. split; [repeat split; auto|]. repeat (split; auto). intros q. destruct (c =? q); auto. }
      destruct G1 as (g1 & -> & (B1 & B2 & B3 & B4 & B5) & B6 & B7 & B8). cbn [rbind].
      destruct (inner_ok scc c (trs_of f s)) with (g := g1) as (g2 & -> & (D1 & D2 & D3 & D4 & D5) & D6 & D7 & D8 & D9); auto; [|lia|].
      { intros t Ht. rewrite Ln. apply (proj1 C s t Ht). }
      destruct (IH (fun s H => Hl s (or_intror H)) g2) as (h & Eh & F1 & F2 & F3 & F4 & F5 & F6 & F7 & F8); auto.
      { intros u Hu. specialize (Hg u Hu). lia. }
      exists h. split; auto. split; [lia|]. split; [congruence|]. split; [congruence|]. split; auto. split; auto. split; [|split].
      + rewrite F6. cbn [existsb]. rewrite (Nat.eqb_sym q0 s). destruct (existsb (Nat.eqb q0) l) eqn:X; [rewrite orb_true_r; auto|].
        rewrite orb_false_r, D2, B2, A6. destruct (Nat.eqb_spec s q0) as [->|]; auto.
      + intros q. rewrite F7, D8, B8, A7. cbn [flat_map]. unfold osum. rewrite fold_left_app. fold c. destruct (c =? q); auto.
      + intros q. rewrite F8, D9, B7, A8. cbn [flat_map]. fold c. rewrite (Nat.eqb_sym c q), <- app_assoc. auto.
        destruct (Nat.eqb_spec q c) as [->|]; auto.
  Qed.

  Lemma condense_outer f v z l : visit_scc f any_filter = Ok v -> sv_scc v = z :: l ->
    condense f = (o <-- fold_left (outer f (sv_scc v)) (seq 0 (length (sv_scc v))) (Ok (add_states vnew (Z.to_nat (fold_left Z.max l z) + 1))) ;; Ok (sv_scc v, o)).
  Proof. intros E El. unfold condense. rewrite E. cbn [rbind]. rewrite El. reflexivity. Qed.

  Lemma osum_none (l : list K) : osum None l = match l with [] => None | w :: l' => Some (fold_left kplus l' w) end.
  Proof.
    destruct l as [|w l]; auto. unfold osum. cbn [fold_left add_fin]. revert w. induction l as [|x l IH]; intros w; cbn [fold_left]; auto. apply IH.
  Qed.

  Lemma max_spec (l : list Z) : forall z, In (fold_left Z.max l z) (z :: l) /\ forall y, In y (z :: l) -> (y <= fold_left Z.max l z)%Z.
  Proof.
    induction l as [|x l IH]; intros z; cbn [fold_left].
    - split; [left; auto|]. intros y [<-|[]]. lia.
    - destruct (IH (Z.max z x)) as [H1 H2]. split.
      + destruct H1 as [H1|H1]; [|right; right; auto]. destruct (Z.max_spec z x) as [[_ E]|[_ E]]; rewrite E in H1; [right; left|left]; rewrite <- E at 1; congruence.
      + intros y [<-|[<-|Hy]]; [specialize (H2 _ (or_introl eq_refl)); lia..|]. apply H2. right. auto.
  Qed.

  Lemma leaving_in f scc c t : In t (leaving f scc c) <->
    exists s u, s < num_states f /\ comp scc s = c /\ In u (trs_of f s) /\ comp scc (ns u) <> c /\ t = Tr (il u) (ol u) (wgt u) (comp scc (ns u)).
  Proof.
    unfold leaving. rewrite in_flat_map. split.
    - intros (s & Hs & Ht). apply in_seq in Hs. destruct (Nat.eqb_spec (comp scc s) c) as [E|]; [|destruct Ht].
      apply in_map_iff in Ht as (u & <- & Hu). apply filter_In in Hu as [Hu N]. apply negb_true_iff, Nat.eqb_neq in N. exists s, u. repeat (split; auto). lia.
    - intros (s & u & Hs & E & Hu & N & ->). exists s. split; [apply in_seq; lia|]. rewrite E, Nat.eqb_refl. apply in_map_iff. exists u. split; auto.
      apply filter_In. split; auto. apply negb_true_iff, Nat.eqb_neq. auto.
  Qed.

  Lemma graph_any f : forall a b, reach (graph f any_filter) a b <-> reach (mach f) a b.
  Proof.
    assert (E : forall s, filter any_filter (trs_of f s) = trs_of f s) by (intros s; induction (trs_of f s) as [|t l IH]; cbn; congruence).
    intros a b. split; apply reach_mono; intros s; cbn; rewrite E; apply incl_refl.
  Qed.

  (** One state for every component, in topological order; the transitions between different
      components and nothing else; final weights added up; one component reaches another
      exactly when their states do. *)
  Theorem C48_condense :
    forall f s0, closed f -> vstart f = Some s0 ->
    exists scc g, condense f = Ok (scc, g) /\
      length scc = num_states f /\
      (forall s u, s < num_states f -> u < num_states f -> (comp scc s = comp scc u <-> reach (mach f) s u /\ reach (mach f) u s)) /\
      (forall c, c < num_states g <-> exists s, s < num_states f /\ comp scc s = c) /\
      vstart g = Some (comp scc s0) /\
      (forall c, trs_of g c = leaving f scc c) /\
      (forall c, fin_of g c = match member_finals f scc c with [] => None | w :: l => Some (fold_left kplus l w) end) /\
      (forall c t, In t (trs_of g c) -> c < ns t) /\
      (forall s u, s < num_states f -> u < num_states f -> (reach (mach g) (comp scc s) (comp scc u) <-> reach (mach f) s u)) /\
      closed g /\ cnt g /\ bits_true g /\ visymt g = None /\ vosymt g = None.
  Proof.
    intros f s0 C Es. destruct (C36_scc f any_filter C) as (v & Ev & V1 & V2 & V3 & V4 & V5 & _); [congruence|].
    pose proof (proj2 C s0 Es) as H0. destruct (sv_scc v) as [|z l] eqn:El; [cbn in V1; lia|]. rewrite (condense_outer f v z l Ev El). rewrite <- El in *.
    set (scc := sv_scc v) in *. destruct (max_spec l z) as [M1 M2]. rewrite <- El in M1, M2. set (mx := fold_left Z.max l z) in *.
    assert (Val : forall s, s < num_states f -> exists j, j < sv_nscc v /\ nth s scc (-1)%Z = Z.of_nat j /\ comp scc s = j).
    { intros s Hs. destruct (V2 s Hs) as (j & Hj & E). exists j. unfold comp. rewrite E. repeat (split; auto). apply Nat2Z.id. }
    assert (Eqc : forall s u, s < num_states f -> u < num_states f -> (comp scc s = comp scc u <-> reach (mach f) s u /\ reach (mach f) u s)).
    { intros s u Hs Hu. rewrite <- !graph_any, <- V3 by auto. destruct (Val s Hs) as (j & _ & E1 & E2), (Val u Hu) as (k & _ & E3 & E4). rewrite E1, E2, E3, E4. lia. }
    assert (Mon : forall s u, s < num_states f -> u < num_states f -> reach (mach f) s u -> comp scc s <= comp scc u).
    { intros s u Hs Hu R. apply graph_any in R. specialize (V4 s u Hs Hu R). destruct (Val s Hs) as (j & _ & E1 & E2), (Val u Hu) as (k & _ & E3 & E4). lia. }
    assert (Hn : forall c, c < Z.to_nat mx + 1 <-> exists s, s < num_states f /\ comp scc s = c).
    { intros c. destruct (In_nth _ _ (-1)%Z M1) as (sm & Hm & Em). rewrite V1 in Hm. destruct (Val sm Hm) as (jm & Jm & E1 & E2). split.
      - intros Hc. destruct (V5 c) as (s & Hs & E); [lia|]. exists s. split; auto. unfold comp. rewrite E. apply Nat2Z.id.
      - intros (s & Hs & <-). destruct (Val s Hs) as (j & Hj & E3 & E4). specialize (M2 (nth s scc (-1)%Z)). rewrite E3 in M2.
        assert (In (Z.of_nat j) scc) by (rewrite <- E3; apply nth_In; lia). specialize (M2 H). lia. }
    destruct (add_states_eff (@vnew K) (Z.to_nat mx + 1)) as (A1 & A2 & A3 & A4 & A5 & A6 & A7).
    destruct (outer_ok f scc s0 (seq 0 (length scc)) C Es V1) with (g := add_states (@vnew K) (Z.to_nat mx + 1)) as (g & -> & G1 & G2 & G3 & G4 & G5 & G6 & G7 & G8).
    - intros s Hs. destruct (Val s Hs) as (j & _ & -> & _). lia.
    - intros s Hs. apply in_seq in Hs. lia.
    - intros s Hs. rewrite A1. apply Hn. eauto.
    - apply (fsound_add_states vnew). apply fsound_new.
    - apply A5. constructor.
    - cbn [rbind]. exists scc, g.
      assert (Ng : num_states g = Z.to_nat mx + 1) by (rewrite G1, A1; reflexivity).
      assert (Tg : forall c, trs_of g c = leaving f scc c).
      { intros c. rewrite G8, A6, V1. destruct c; reflexivity. }
      assert (Cs : forall s t, s < num_states f -> In t (trs_of f s) -> ns t < num_states f) by (intros s t _ Ht; apply (proj1 C s t Ht)).
      assert (Up : forall c t, In t (trs_of g c) -> c < ns t).
      { intros c t Ht. rewrite Tg in Ht. apply leaving_in in Ht as (s & u & Hs & <- & Hu & N & ->). cbn [ns].
        assert (comp scc s <= comp scc (ns u)) by (apply Mon; eauto; econstructor; [exact Hu|constructor]). lia. }
      split; auto. split; auto. split; auto. split; [rewrite Ng; auto|]. split.
      { rewrite G6. replace (existsb (Nat.eqb s0) (seq 0 (length scc))) with true; auto. symmetry. apply existsb_exists. exists s0.
        split; [apply in_seq; lia|apply Nat.eqb_refl]. }
      split; auto. split.
      { intros c. rewrite G7, A7, V1, <- osum_none. destruct c; reflexivity. }
      split; auto. split.
      { intros s u Hs Hu. split.
        - intros R. remember (comp scc s) as c eqn:Ec. remember (comp scc u) as d eqn:Ed. revert s u Hs Hu Ec Ed.
          induction R as [c|c t d Ht R IH]; intros s u Hs Hu Ec Ed.
          + apply (Eqc s u); auto. congruence.
          + cbn [mach mtrs] in Ht. rewrite Tg in Ht. apply leaving_in in Ht as (s' & w & Hs' & E' & Hw & N & ->). cbn [ns] in *.
            assert (R1 : reach (mach f) s s') by (apply (Eqc s s'); auto; congruence).
            assert (R2 : reach (mach f) (ns w) u) by (apply IH; auto; apply (Cs s' w); auto).
            apply (reach_trans _ _ _ _ R1). econstructor; [exact Hw|exact R2].
        - intros R. induction R as [s|s t u Ht R IH]; [constructor|]. cbn [mach mtrs] in Ht. assert (Hn' := Cs s t Hs Ht). specialize (IH Hn' Hu).
          destruct (Nat.eq_dec (comp scc (ns t)) (comp scc s)) as [E|N]; [rewrite <- E; auto|].
          change (comp scc (ns t)) with (ns (Tr (il t) (ol t) (wgt t) (comp scc (ns t)))) in IH. econstructor; [|exact IH]. cbn [mach mtrs]. rewrite Tg. apply leaving_in. exists s, t. repeat (split; auto). }
      split; [|repeat (split; auto)].
      split.
      + intros c t Ht. rewrite Tg in Ht. apply leaving_in in Ht as (s & u & Hs & _ & Hu & _ & ->). cbn [ns]. rewrite Ng. apply Hn. exists (ns u). split; auto. eapply Cs; eauto.
      + intros c. rewrite G6. replace (existsb (Nat.eqb s0) (seq 0 (length scc))) with true; [|symmetry; apply existsb_exists; exists s0; split; [apply in_seq; lia|apply Nat.eqb_refl]].
        intros E. injection E as <-. rewrite Ng. apply Hn. eauto.
  Qed.

  (** Without a start state: the empty machine gives the empty machine, any other panics. *)
  Theorem C48_no_start :
    forall f, vstart f = None -> condense f = if num_states f =? 0 then Ok ([], vnew) else Panic.
  Proof.
    intros f Es. unfold condense, visit_scc, dfs_visit. rewrite Es. cbn [rbind scc_visitor_new sv_scc].
    destruct (num_states f) as [|n] eqn:En; [reflexivity|]. cbn [v_end scc_visitor_fns rbind]. cbn [sv_scc scc_visitor_new repeat map length seq fold_left rbind Nat.eqb].
    generalize (length (map (fun x : Z => x) [])). intros _. match goal with |- context [fold_left ?h ?l Panic] => assert (X : forall k, fold_left h k Panic = Panic) by (induction k; auto); rewrite (X l) end. reflexivity.
  Qed.
End C48.
Print Assumptions C48_condense.
Print Assumptions C48_no_start.

(** Components {0, 1}, {2} and {3}, the last unreachable; two final weights add up. *)
Definition c48_calls : list (op natSR) :=
  [OAddStates 4; OSetStart 0; OAddTr 0 (Tr 1 1 1 1); OAddTr 1 (Tr 1 2 5 0); OAddTr 1 (Tr 2 2 1 2); OAddTr 2 (Tr 7 7 1 2); OAddTr 0 (Tr 3 3 4 2);
   OAddTr 3 (Tr 2 2 1 1); OSetFinal 0 2; OSetFinal 1 3].
Example C48_witness : exists f g, run vnew c48_calls = Ok f /\ closed f /\ vstart f = Some 0 /\
  condense f = Ok ([1; 1; 2; 0]%Z, g) /\
  map (fun s => (vfin s, vtrs s)) (vstates g) =
    [(None, [Tr 2 2 1 1]); (Some 5, [Tr 3 3 4 2; Tr 2 2 1 2]); (None, [])].
Proof.
  do 2 eexists. split; [vm_compute; reflexivity|]. split.
  { split; [|cbn; intros s H; inversion H; vm_compute; lia].
    intros s t. destruct s as [|[|[|[|s]]]]; cbn; try tauto; try (destruct s; simpl; tauto);
    intros H; repeat destruct H as [<-|H]; try destruct H; vm_compute; lia. }
  split; [reflexivity|]. split; vm_compute; reflexivity.
Qed.
