(** C71: looking one transition ahead rules out exactly the pairs of states with no way on. *)
From Coq Require Import List Arith NArith Bool Lia Sorted.
From Verif Require Import Base.Util Base.Semiring Base.Machine Base.PropSpec Base.Instances
  Model.Props Model.VectorFst Model.TrOps Model.History Model.Matchers Model.LookAhead Model.TrLookAhead
  Proofs.VectorFacts Proofs.VectorProps Proofs.HistoryFacts Proofs.ComposeFacts Proofs.NSearch Props.C01 Props.C06 Props.C20 Props.C38.
Import ListNotations.
Local Open Scope K_scope.

(** ** Specification *)
Section Spec.
  Context {K : SR} (mt : mtype) (f : vfst K) (ms : nat) (lf : vfst K) (ls : nat).
  (** The label matched on: the input label on the matcher's side when it matches input, against
      the output label of the other machine; and the other way round. *)
  Definition here (u : tr K) : nat := match mt with MOutput => ol u | _ => il u end.
  Definition there (t : tr K) : nat := match mt with MOutput => il t | _ => ol t end.
  (** Both may end; or one may move alone; or both have a transition with the same label. *)
  Definition way_on : Prop :=
    (exists a b, fin_of f ms = Some a /\ fin_of lf ls = Some b) \/
    (exists u, In u (trs_of f ms) /\ here u = O) \/ (exists t, In t (trs_of lf ls) /\ there t = O) \/
    (exists t u, In t (trs_of lf ls) /\ In u (trs_of f ms) /\ there t <> O /\ here u = there t).
  (** The weights of these ways, and the transitions of the other machine that are followed. *)
  Definition w_end : list K := match fin_of f ms, fin_of lf ls with Some a, Some b => [a * b] | _, _ => [] end.
  Definition w_here : list K := map wgt (filter (fun u => Nat.eqb (here u) 0) (trs_of f ms)).
  Definition w_there (l : list (tr K)) : list K := map wgt (filter (fun t => Nat.eqb (there t) 0) l).
  Definition partners (t : tr K) : list (tr K) := if Nat.eqb (there t) 0 then [] else filter (fun u => Nat.eqb (here u) (there t)) (trs_of f ms).
  Definition w_pairs (l : list (tr K)) : list K := flat_map (fun t => map (fun u => wgt t * wgt u) (partners t)) l.
  Definition followed_trs (l : list (tr K)) : list (tr K) := flat_map (fun t => map (fun _ => t) (partners t)) l.
End Spec.
(** A string some successful path spells with the labels [lab]. *)
Inductive spells {K : SR} (m : machine K) (lab : tr K -> nat) : nat -> list nat -> Prop :=
| spells_end s w : mfin m s = Some w -> spells m lab s []
| spells_go s t x : In t (mtrs m s) -> spells m lab (ns t) x -> spells m lab s (if Nat.eqb (lab t) 0 then x else lab t :: x).

Section C71.
  Context {K : SR} (L : lsr_laws K).
  Implicit Types f lf : vfst K.

  Lemma rearr (a b c d : K) : a + b + (c + d) = a + c + (b + d).
  Proof. rewrite <- !(kplus_assoc _ L). f_equal. rewrite !(kplus_assoc _ L). f_equal. apply (kplus_comm _ L). Qed.

  Section Loop.
    Context (fl : laflags) f (mt : mtype) (ms : nat) (Hmt : mt = MInput \/ mt = MOutput) (Hs : (ms < num_states f)%nat)
      (So : StronglySorted le (map (side mt) (trs_of f ms))).
    Notation P := (partners mt f ms).

    Lemma items_of (t : tr K) : there mt t <> O -> sm_items f mt ms (Lab (there mt t)) = Ok (map ITr (P t)).
    Proof.
      intros N. rewrite sm_items_eq by auto. unfold partners. destruct (Nat.eqb_spec (there mt t) 0); [contradiction|].
      destruct (there mt t) eqn:E; [contradiction|]. cbn [app]. f_equal.
    Qed.
    Lemma label_of (t : tr K) : match mt with MInput => Ok (ol t) | MOutput => Ok (il t) | _ => Err end = Ok (there mt t).
    Proof. destruct Hmt as [->| ->]; auto. Qed.

    Lemma match_all (t : tr K) : both_flags fl = true -> forall us st, let st' := fold_left (tla_match fl t) (map ITr us) st in
      tl_n st' = (tl_n st + length us)%nat /\ tl_found st' = tl_found st /\
      lm_weight (tl_data st') = lm_weight (tl_data st) + ksum (map (fun u => wgt t * wgt u) us) /\
      (tl_n st' = 1%nat -> lm_prefix (tl_data st') = match us with [] => lm_prefix (tl_data st) | _ => Some t end).
    Proof.
      intros Hb. unfold both_flags in Hb. apply andb_prop in Hb as [Hw Hp].
      induction us as [|u us IH]; intros st st'; cbn [map fold_left length ksum] in *.
      - subst st'. split; [lia|]. split; auto. split; auto. symmetry. apply (kplus_0_r L).
      - destruct (IH (tla_match fl t st (ITr u))) as (A & B & C & D). fold st' in A, B, C, D.
        unfold tla_match at 1 in A. cbn [tl_n] in A. split; [lia|]. split; auto. split.
        + rewrite C. unfold tla_match, tla_add. rewrite Hw, Hp. cbn [andb tl_data item_weight]. destruct (Nat.eqb _ 1); cbn [lm_weight]; rewrite <- (kplus_assoc _ L); auto.
        + intros E. rewrite D by auto. destruct us; auto. unfold tla_match. cbn [tl_data]. rewrite Hp. cbn [length] in A. assert (tl_n st = O) as -> by lia. reflexivity.
    Qed.

    Lemma loop_both : both_flags fl = true -> forall trs st, exists st', tla_loop fl f mt ms mt trs st = Ok (tla_finish fl st') /\
      tl_n st' = (tl_n st + ((if fl_nonepspre fl then 0 else length (w_there mt trs)) + length (followed_trs mt f ms trs)))%nat /\
      (tl_found st' = true <-> tl_found st = true \/ w_there mt trs <> [] \/ followed_trs mt f ms trs <> []) /\
      lm_weight (tl_data st') = lm_weight (tl_data st) + (ksum (w_there mt trs) + ksum (w_pairs mt f ms trs)) /\
      (tl_n st' = 1%nat -> lm_prefix (tl_data st') = match followed_trs mt f ms trs with [] => lm_prefix (tl_data st) | t :: _ => Some t end).
    Proof.
      intros Hb. induction trs as [|t trs IH]; intros st.
      - exists st. cbn. split; auto. split; [destruct (fl_nonepspre fl); lia|]. split; [split; auto; intros [H|[H|H]]; congruence|].
        split; auto. rewrite (kplus_0_l _ L), (kplus_0_r L). auto.
      - cbn [tla_loop]. rewrite label_of. cbn [rbind]. rewrite Hb. cbn [negb].
        unfold w_there, followed_trs, w_pairs. cbn [filter flat_map].
        destruct (Nat.eqb_spec (there mt t) 0) as [E0|N0].
        + assert (P t = []) as -> by (unfold partners; rewrite E0; auto). cbn [map app length ksum].
          destruct (IH (TLA (if fl_nonepspre fl then tl_n st else S (tl_n st)) true (tla_add fl (tl_data st) (wgt t)))) as (st' & A & B & C & D & E).
          exists st'. split; auto. cbn [tl_n tl_found tl_data] in *. unfold w_there, followed_trs, w_pairs in *. split; [destruct (fl_nonepspre fl); lia|].
          split; [rewrite C; split; auto; right; left; discriminate|].
          unfold tla_add in D, E. unfold both_flags in Hb. apply andb_prop in Hb as [Hw _]. rewrite Hw in D, E. cbn [lm_weight lm_prefix] in D, E.
          split; auto. rewrite D, <- !(kplus_assoc _ L). auto.
        + rewrite items_of by auto. cbn [rbind]. set (us := P t) in *.
          destruct (map ITr us) as [|i its] eqn:Em.
          * destruct us as [|u us'] eqn:Eu; [|discriminate]. cbn [map app]. apply IH.
          * rewrite <- Em. destruct (match_all t Hb us st) as (A & B & C & D).
            set (st1 := fold_left (tla_match fl t) (map ITr us) st) in *.
            destruct (IH (TLA (tl_n st1) true (tl_data st1))) as (st' & A' & B' & C' & D' & E'). cbn [tl_n tl_found tl_data] in *.
            assert (Hu : us <> []) by (intros ->; discriminate Em).
            exists st'. split; auto. unfold w_there, followed_trs, w_pairs in *. rewrite !app_length, !map_length. rewrite ?map_length in B'. split; [lia|].
            split. { rewrite C'. split; auto. intros _. right. right. destruct us; [congruence|discriminate]. }
            split.
            -- rewrite D', C, (ksum_app L). rewrite <- !(kplus_assoc _ L). f_equal. rewrite !(kplus_assoc _ L). f_equal. apply (kplus_comm _ L).
            -- intros E1. rewrite E' by auto. destruct us as [|u us']; [congruence|]. cbn [map app]. cbn [length] in A.
               assert (tl_n st1 = 1%nat) as En by lia. rewrite (D En).
               destruct (flat_map _ trs) eqn:Ef; auto. exfalso. cbn [length] in B'. lia.
    Qed.

    Lemma loop_one : both_flags fl = false -> forall trs d, tla_loop fl f mt ms mt trs (TLA 0 false d) = Ok None /\ w_there mt trs = [] /\ followed_trs mt f ms trs = [] \/
      tla_loop fl f mt ms mt trs (TLA 0 false d) = Ok (Some d) /\ (w_there mt trs <> [] \/ followed_trs mt f ms trs <> []).
    Proof.
      intros Hb trs d. induction trs as [|t trs IH]; [left; auto|].
      cbn [tla_loop]. rewrite label_of. cbn [rbind]. rewrite Hb. cbn [negb tl_data]. unfold w_there, followed_trs in *. cbn [filter flat_map].
      destruct (Nat.eqb_spec (there mt t) 0) as [E0|N0].
      - right. split; auto. left. discriminate.
      - rewrite items_of by auto. cbn [rbind]. destruct (P t) as [|u us]; cbn [map app]; [exact IH|]. right. split; auto. right. discriminate.
    Qed.
  End Loop.

  Lemma followed_none mt f ms trs : followed_trs mt f ms trs = [] <-> forall t u, In t trs -> In u (trs_of f ms) -> there mt t <> O -> here mt u <> there mt t.
  Proof.
    unfold followed_trs. split.
    - intros E t u Ht Hu N Eq. assert (In t []) as []. rewrite <- E. apply in_flat_map. exists t. split; auto.
      apply in_map_iff. exists u. split; auto. unfold partners. destruct (Nat.eqb_spec (there mt t) 0); [contradiction|]. apply filter_In. split; auto. apply Nat.eqb_eq. auto.
    - intros H. apply flat_map_all_nil. intros t Ht. destruct (partners mt f ms t) as [|u us] eqn:E; auto. exfalso.
      assert (In u (partners mt f ms t)) as Hu by (rewrite E; left; auto). unfold partners in Hu. destruct (Nat.eqb_spec (there mt t) 0); [destruct Hu|].
      apply filter_In in Hu as [Hu Eq]. apply Nat.eqb_eq in Eq. apply (H t u); auto.
  Qed.
  Lemma zero_none {A} (g : tr K -> A) (lab : tr K -> nat) (l : list (tr K)) : map g (filter (fun t => Nat.eqb (lab t) 0) l) = [] <-> forall t, In t l -> lab t <> O.
  Proof.
    split.
    - intros E t Ht Z. assert (In (g t) []) as []. rewrite <- E. apply in_map, filter_In. split; auto. apply Nat.eqb_eq. auto.
    - intros H. destruct (filter _ l) as [|t r] eqn:E; auto. exfalso. assert (In t (filter (fun t => Nat.eqb (lab t) 0) l)) as Ht by (rewrite E; left; auto).
      apply filter_In in Ht as [Ht Z]. apply Nat.eqb_eq in Z. apply (H t Ht Z).
  Qed.
  Lemma no_way mt f ms lf ls : ~ way_on mt f ms lf ls <->
    w_end f ms lf ls = [] /\ w_here mt f ms = [] /\ w_there mt (trs_of lf ls) = [] /\ followed_trs mt f ms (trs_of lf ls) = [].
  Proof.
    unfold w_here, w_there. rewrite followed_none, !zero_none. unfold way_on, w_end. split.
    - intros H. split; [|split; [|split]].
      + destruct (fin_of f ms) as [a|]; auto. destruct (fin_of lf ls) as [b|]; auto. exfalso. apply H. left. eauto.
      + intros u Hu E. apply H. right. left. eauto.
      + intros t Ht E. apply H. right. right. left. eauto.
      + intros t u Ht Hu N E. apply H. right. right. right. exists t, u. auto.
    - intros (A & B & C & D) [(a & b & E1 & E2)|[(u & Hu & E)|[(t & Ht & E)|(t & u & Ht & Hu & N & E)]]].
      + rewrite E1, E2 in A. discriminate.
      + apply (B u Hu E).
      + apply (C t Ht E).
      + apply (D t u Ht Hu N E).
  Qed.

  (** When LOOKAHEAD_WEIGHT or LOOKAHEAD_PREFIX is missing the answer carries no data. With both, the number of
      ways ([w_here] together count as one; epsilons of the other machine only without
      LOOKAHEAD_NON_EPSILON_PREFIX) decides: one way gives weight one and the transition followed,
      if there is one; otherwise the weight is one plus that of all ways. *)
  Theorem C71_lookahead_fst :
    forall fl f mt ms lf ls, mt = MInput \/ mt = MOutput -> bits_true f -> sm_match_type f mt false = Ok mt ->
    (ms < num_states f)%nat -> (ls < num_states lf)%nat ->
    exists a, tla_lookahead_fst fl f mt ms lf ls = Ok a /\ (a = None <-> ~ way_on mt f ms lf ls) /\
      forall m, a = Some m ->
        (fl_weight fl && fl_prefix fl = false -> m = lamd_default) /\
        (fl_weight fl && fl_prefix fl = true ->
           let n := (length (w_end f ms lf ls) + (match w_here mt f ms with [] => 0 | _ => 1 end) +
                     ((if fl_nonepspre fl then 0 else length (w_there mt (trs_of lf ls))) + length (followed_trs mt f ms (trs_of lf ls))))%nat in
           (n = 1%nat -> lm_weight m = 1 /\ lm_prefix m = hd_error (followed_trs mt f ms (trs_of lf ls))) /\
           (n <> 1%nat -> lm_prefix m = None /\
              lm_weight m = 1 + (ksum (w_end f ms lf ls) + ksum (w_here mt f ms) + (ksum (w_there mt (trs_of lf ls)) + ksum (w_pairs mt f ms (trs_of lf ls)))))).
  Proof.
    intros fl f mt ms lf ls Hmt B Mt H1 H2.
    assert (So : StronglySorted le (map (side mt) (trs_of f ms))).
    { pose proof (C20_match_type f mt false B Hmt) as X. rewrite Mt in X. destruct Hmt as [->| ->]; apply X. }
    assert (EI : sm_items f mt ms NoLab = Ok (map ITr (filter (fun u => Nat.eqb (here mt u) 0) (trs_of f ms)))) by (rewrite sm_items_eq by auto; reflexivity).
    setoid_rewrite no_way. unfold tla_lookahead_fst. rewrite final_in by auto. cbn [rbind].
    assert (EB : match fin_of f ms with Some _ => final_weight lf ls | None => Ok None end = Ok (match fin_of f ms with Some _ => fin_of lf ls | None => None end)).
    { destruct (fin_of f ms); auto. apply final_in. auto. }
    rewrite EB. cbn [rbind]. clear EB. change (fl_weight fl && fl_prefix fl) with (both_flags fl).
    set (us := filter (fun u => Nat.eqb (here mt u) 0) (trs_of f ms)) in *.
    assert (Eh : w_here mt f ms = map wgt us) by reflexivity. rewrite Eh. clear Eh.
    destruct (both_flags fl) eqn:Hb.
    - assert (Hw : fl_weight fl = true /\ fl_prefix fl = true) by (apply andb_prop; exact Hb). destruct Hw as [Hw Hp].
      set (st0 := match fin_of f ms, match fin_of f ms with Some _ => fin_of lf ls | None => None end with
                  | Some x, Some y => TLA 1 true (tla_add fl lamd_default (x * y)) | _, _ => TLA 0 false (lamd_default (K := K)) end).
      assert (T : forall R, (match fin_of f ms, match fin_of f ms with Some _ => fin_of lf ls | None => None end with
                  | Some x, Some y => tla_rest fl f mt ms lf ls (TLA 1 true (tla_add fl lamd_default (x * y)))
                  | _, _ => tla_rest fl f mt ms lf ls (TLA 0 false lamd_default) end = R) <-> tla_rest fl f mt ms lf ls st0 = R).
      { intros R. subst st0. destruct (fin_of f ms); [destruct (fin_of lf ls)|]; tauto. }
      cbn [negb]. setoid_rewrite T. clear T.
      assert (S0 : tl_n st0 = length (w_end f ms lf ls) /\ (tl_found st0 = true <-> w_end f ms lf ls <> []) /\
                   lm_weight (tl_data st0) = 1 + ksum (w_end f ms lf ls) /\ lm_prefix (tl_data st0) = None).
      { subst st0. unfold w_end, tla_add. rewrite Hw. destruct (fin_of f ms) as [x|]; [destruct (fin_of lf ls) as [y|]|]; cbn; rewrite ?(kplus_0_r L);
          (split; [auto|split; [split; auto; try discriminate; congruence|auto]]). }
      destruct S0 as (N0 & F0 & W0 & P0). unfold tla_rest. rewrite EI. cbn [rbind]. rewrite Hb. cbn [negb].
      assert (IfF : forall (l : list (item K)), (match l with [] => false | _ => false end) = false) by (intros [|]; auto). rewrite IfF. clear IfF.
      set (st1 := match map ITr us with [] => st0 | _ => TLA (S (tl_n st0)) true (fold_left (fun d i => tla_add fl d (item_weight i)) (map ITr us) (tl_data st0)) end).
      assert (S1 : tl_n st1 = (length (w_end f ms lf ls) + match map wgt us with [] => 0 | _ => 1 end)%nat /\
                   (tl_found st1 = true <-> w_end f ms lf ls <> [] \/ map wgt us <> []) /\
                   lm_weight (tl_data st1) = 1 + (ksum (w_end f ms lf ls) + ksum (map wgt us)) /\ lm_prefix (tl_data st1) = None).
      { assert (G : forall (vs : list (tr K)) (d : lamd K), lm_weight (fold_left (fun d i => tla_add fl d (item_weight i)) (map ITr vs) d) = lm_weight d + ksum (map wgt vs) /\
                      lm_prefix (fold_left (fun d i => tla_add fl d (item_weight i)) (map ITr vs) d) = lm_prefix d).
        { induction vs as [|v vs IH]; intros d; cbn [map fold_left ksum]; [split; auto; symmetry; apply (kplus_0_r L)|].
          destruct (IH (tla_add fl d (item_weight (ITr v)))) as [-> ->]. unfold tla_add. rewrite Hw. cbn. split; auto. symmetry. apply (kplus_assoc _ L). }
        subst st1. destruct us as [|u us'].
        - cbn [map ksum]. rewrite N0, W0, P0, (kplus_0_r L). split; [lia|]. split; [rewrite F0; split; auto; intros [X|X]; auto; congruence|auto].
        - destruct (G (u :: us') (tl_data st0)) as [G1 G2]. cbn [map] in G1, G2 |- *. cbn [tl_n tl_found tl_data]. rewrite G1, G2, N0, W0, P0. split; [lia|].
          split; [split; auto; intros _; right; discriminate|]. split; auto. symmetry. apply (kplus_assoc _ L). }
      destruct S1 as (N1 & F1 & W1 & P1). rewrite Mt. cbn [rbind]. rewrite get_trs_in by auto. cbn [rbind].
      destruct (loop_both fl f mt ms Hmt H1 So Hb (trs_of lf ls) st1) as (st' & -> & N2 & F2 & W2 & P2).
      eexists. split; [reflexivity|]. unfold tla_finish. rewrite Hp. rewrite N1 in N2. rewrite F1 in F2. rewrite W1 in W2. rewrite P1 in P2.
      set (we := w_end f ms lf ls) in *. set (wt := w_there mt (trs_of lf ls)) in *. set (fo := followed_trs mt f ms (trs_of lf ls)) in *. set (wh := map wgt us) in *.
      split.
      + destruct (tl_found st') eqn:Ef.
        * split; [discriminate|]. intros (A1 & A2 & A3 & A4). destruct (proj1 F2 eq_refl) as [[X|X]|[X|X]]; contradiction.
        * split; auto. intros _. assert (D : forall A (l : list A), l = [] \/ l <> []) by (intros A [|]; [left; auto|right; discriminate]).
          destruct (D _ we); [|assert (false = true) by (apply F2; auto); discriminate]. destruct (D _ wh); [|assert (false = true) by (apply F2; auto); discriminate].
          destruct (D _ wt); [|assert (false = true) by (apply F2; auto); discriminate]. destruct (D _ fo); [|assert (false = true) by (apply F2; auto); discriminate]. auto.
      + intros m. destruct (tl_found st'); [|discriminate]. intros E. injection E as <-. split; [discriminate|]. intros _. rewrite <- N2.
        destruct (Nat.eqb_spec (tl_n st') 1) as [E1|N3]; cbn [lm_weight lm_prefix].
        * split; [|congruence]. intros _. split; [auto|]. rewrite (P2 E1). destruct fo; auto.
        * split; [congruence|]. intros _. split; auto. rewrite W2. symmetry. apply (kplus_assoc _ L).
    - unfold w_end. destruct (fin_of f ms) as [x|]; [destruct (fin_of lf ls) as [y|]|].
      1: { cbn [negb]. eexists. split; [reflexivity|]. split; [split; [discriminate|intros (X & _); discriminate]|]. intros m E. injection E as <-. split; [auto|discriminate]. }
      all: unfold tla_rest; rewrite EI; cbn [rbind]; rewrite Hb; cbn [negb tl_data]; destruct us as [|u us']; cbn [map]; cbv beta iota;
        [rewrite Mt; cbn [rbind]; rewrite get_trs_in by auto; cbn [rbind];
         destruct (loop_one fl f mt ms Hmt H1 So Hb (trs_of lf ls) lamd_default) as [(-> & E1 & E2)|(-> & E)];
         [eexists; split; [reflexivity|]; split; [split; auto|discriminate]
         |eexists; split; [reflexivity|]; split; [split; [discriminate|intros (_ & _ & X & Y); destruct E; contradiction]|];
          intros m Em; injection Em as <-; split; [auto|discriminate]]
        |eexists; split; [reflexivity|]; split; [split; [discriminate|intros (_ & X & _); discriminate]|]; intros m Em; injection Em as <-; split; [auto|discriminate]].
  Qed.

  (** A pair of states that is ruled out has no pair of successful paths that agree. *)
  Theorem C71_sound :
    forall fl f mt ms lf ls x, mt = MInput \/ mt = MOutput -> bits_true f -> sm_match_type f mt false = Ok mt ->
    (ms < num_states f)%nat -> (ls < num_states lf)%nat -> tla_lookahead_fst fl f mt ms lf ls = Ok None ->
    spells (mach f) (here mt) ms x -> spells (mach lf) (there mt) ls x -> False.
  Proof.
    intros fl f mt ms lf ls x Hmt B Mt H1 H2 E S1 S2. destruct (C71_lookahead_fst fl f mt ms lf ls Hmt B Mt H1 H2) as (a & Ea & Na & _).
    rewrite E in Ea. injection Ea as <-. apply (proj1 Na eq_refl). unfold way_on. clear - S1 S2.
    inversion S1 as [s w Fw|s u y Hu Sy]; subst; inversion S2 as [s' w' Fw'|s' t y' Ht Sy' Ey]; subst; cbn in *.
    - left. eauto.
    - destruct (Nat.eqb_spec (there mt t) 0); [|discriminate]. right. right. left. eauto.
    - destruct (Nat.eqb_spec (here mt u) 0); [|discriminate]. right. left. eauto.
    - destruct (Nat.eqb_spec (here mt u) 0); [right; left; eauto|]. destruct (Nat.eqb_spec (there mt t) 0); [right; right; left; eauto|].
      right. right. right. exists t, u. match goal with E : _ :: _ = _ :: _ |- _ => injection E as ? ? end. auto.
  Qed.

  (** A label: itself, or epsilon. *)
  Theorem C71_lookahead_label :
    forall f mt s l, mt = MInput \/ mt = MOutput -> bits_true f -> sm_match_type f mt false = Ok mt -> (s < num_states f)%nat ->
    exists r, tla_lookahead_label f mt s l = Ok r /\ (r = true <-> l = O \/ exists u, In u (trs_of f s) /\ here mt u = l).
  Proof.
    intros f mt s l Hmt B Mt H1. assert (So : StronglySorted le (map (side mt) (trs_of f s))).
    { pose proof (C20_match_type f mt false B Hmt) as X. rewrite Mt in X. destruct Hmt as [->| ->]; apply X. }
    unfold tla_lookahead_label. rewrite sm_items_eq by auto. cbn [rbind]. eexists. split; [reflexivity|].
    destruct l as [|l]; [cbn; tauto|]. cbn [app]. change (@side K mt) with (@here K mt).
    destruct (filter (fun t => Nat.eqb (here mt t) (S l)) (trs_of f s)) as [|u r] eqn:Ef; cbn [map].
    - split; [discriminate|]. intros [X|(u & Hu & Eu)]; [discriminate|]. exfalso. assert (In u []) as []. rewrite <- Ef. apply filter_In. split; auto. apply Nat.eqb_eq. auto.
    - split; auto. intros _. right. exists u. assert (In u (filter (fun t => Nat.eqb (here mt t) (S l)) (trs_of f s))) as Hu by (rewrite Ef; left; auto).
      apply filter_In in Hu as [Hu Eu]. apply Nat.eqb_eq in Eu. auto.
  Qed.
End C71.
Print Assumptions C71_lookahead_fst.
Print Assumptions C71_sound.
Print Assumptions C71_lookahead_label.

(** ** Machines *)
(** The matcher's machine at state 0: an epsilon, two transitions on 5; the other one writes 5
    twice, 6 and an epsilon. *)
Definition c71_f : vfst natSR := match run vnew [OAddStates 2; OSetStart 0; OAddTr 0 (Tr 0 1 (1 : natSR) 1); OAddTr 0 (Tr 5 1 (2 : natSR) 1); OAddTr 0 (Tr 5 1 (3 : natSR) 1);
  OAddTr 1 (Tr 7 1 (4 : natSR) 1); OSetFinal 1 (2 : natSR)] with Ok f => f | _ => vnew end.
Definition c71_lf : vfst natSR := match run vnew [OAddStates 3; OSetStart 0; OAddTr 0 (Tr 1 5 (10 : natSR) 1); OAddTr 0 (Tr 1 6 (20 : natSR) 1); OAddTr 0 (Tr 1 0 (30 : natSR) 1);
  OAddTr 1 (Tr 1 7 (40 : natSR) 2); OAddTr 2 (Tr 1 8 (50 : natSR) 2)] with Ok f => f | _ => vnew end.
Definition fl_both : laflags := LAF true true false false false.
Example C71_witness :
  run vnew [OAddStates 2; OSetStart 0; OAddTr 0 (Tr 0 1 (1 : natSR) 1); OAddTr 0 (Tr 5 1 (2 : natSR) 1); OAddTr 0 (Tr 5 1 (3 : natSR) 1);
    OAddTr 1 (Tr 7 1 (4 : natSR) 1); OSetFinal 1 (2 : natSR)] = Ok c71_f /\
  bits_true c71_f /\ sm_match_type c71_f MInput false = Ok MInput /\
  tla_lookahead_fst fl_both c71_f MInput 0 c71_lf 0 = Ok (Some (LMD (1 + (1 + 30 + 10 * 2 + 10 * 3))%nat None)) /\
  tla_lookahead_fst fl_both c71_f MInput 1 c71_lf 1 = Ok (Some (LMD (1 : natSR) (Some (Tr 1 7 (40 : natSR) 2)))) /\
  tla_lookahead_fst fl_both c71_f MInput 1 c71_lf 2 = Ok None /\
  ~ way_on MInput c71_f 1 c71_lf 2.
Proof.
  assert (R : run vnew [OAddStates 2; OSetStart 0; OAddTr 0 (Tr 0 1 (1 : natSR) 1); OAddTr 0 (Tr 5 1 (2 : natSR) 1); OAddTr 0 (Tr 5 1 (3 : natSR) 1);
    OAddTr 1 (Tr 7 1 (4 : natSR) 1); OSetFinal 1 (2 : natSR)] = Ok c71_f) by (vm_compute; reflexivity).
  split; [exact R|]. assert (B : bits_true c71_f) by (eapply (run_fsound natSR_laws); [apply fsound_new| |exact R]; vm_compute; tauto).
  split; auto. split; [vm_compute; reflexivity|]. split; [vm_compute; reflexivity|]. split; [vm_compute; reflexivity|].
  assert (E : tla_lookahead_fst fl_both c71_f MInput 1 c71_lf 2 = Ok None) by (vm_compute; reflexivity). split; auto.
  apply no_way. split; [vm_compute; reflexivity|]. split; [vm_compute; reflexivity|]. split; vm_compute; reflexivity.
Qed.

(** The weight is not that of the ways: it starts from one. With LOOKAHEAD_WEIGHT alone it is always one. *)
Theorem C71_weight_refuted :
  (exists (f lf : vfst natSR) m, tla_lookahead_fst fl_both f MInput 0 lf 0 = Ok (Some m) /\ lm_prefix m = None /\
     lm_weight m <> (ksum (w_end f 0 lf 0) + ksum (w_here MInput f 0) + (ksum (w_there MInput (trs_of lf 0)) + ksum (w_pairs MInput f 0 (trs_of lf 0))))) /\
  (exists (f lf : vfst natSR) m, tla_lookahead_fst (LAF true false false false false) f MInput 0 lf 0 = Ok (Some m) /\ lm_weight m = 1 /\
     ksum (w_end f 0 lf 0) + ksum (w_here MInput f 0) + (ksum (w_there MInput (trs_of lf 0)) + ksum (w_pairs MInput f 0 (trs_of lf 0))) = 81%nat).
Proof.
  split; exists c71_f, c71_lf; eexists; (split; [vm_compute; reflexivity|]).
  - split; [reflexivity|]. vm_compute. discriminate.
  - split; [reflexivity|]. vm_compute. reflexivity.
Qed.
Print Assumptions C71_weight_refuted.
