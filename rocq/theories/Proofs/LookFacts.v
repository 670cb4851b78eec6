(** Composition over any filter: the pairs of transitions tried, and the sum over them. *)
From Coq Require Import List Arith NArith Bool Lia Sorted.
From Verif Require Import Base.Util Base.Semiring Base.Machine Model.Props Model.VectorFst Model.TrOps Model.Rational Model.Matchers
  Model.BiMap Model.Lazy Model.AlgoProps Model.Visitors Model.Compose Model.IntervalSet Model.Reachable Model.LabelReach Model.LookAhead.
From Verif Require Import Proofs.PropsFacts Proofs.VectorFacts Proofs.TrOpsFacts Proofs.HistoryFacts Proofs.OpFacts
  Proofs.BiMapFacts Proofs.LazyFacts Proofs.TableFacts Proofs.ComposeFacts.
From Verif Require Import Props.C06 Props.C20.
Import ListNotations.

Section Gen.
  Context {K : SR} {FS E : Type} (F : cflt K FS E).
  Implicit Types (f : vfst K).
  Notation pr := (qtr K * qtr K)%type.

  Definition gout (e : E) (p : pr) : res (option (ttr K (gtuple FS))) :=
    r <-- cf_filter F e (fst p) (snd p) ;;
    match r with
    | None => Ok None
    | Some (fs, a1, a2, _) => rmap Some (gadd_tr a1 a2 fs)
    end.
  Fixpoint gouts (e : E) (ps : list pr) : res (list (ttr K (gtuple FS))) :=
    match ps with
    | [] => Ok []
    | p :: ps =>
        o <-- gout e p ;;
        l <-- gouts e ps ;;
        Ok (match o with Some u => u :: l | None => l end)
    end.

  Lemma gouts_app e p q : gouts e (p ++ q) = (l <-- gouts e p ;; l' <-- gouts e q ;; Ok (l ++ l')).
  Proof.
    induction p as [|x p IH]; cbn [app gouts rbind].
    - destruct (gouts e q); auto.
    - destruct (gout e x) as [o| |]; auto. cbn [rbind]. rewrite IH. destruct (gouts e p); auto. cbn [rbind].
      destruct (gouts e q); auto. cbn [rbind]. destruct o; auto.
  Qed.

  Definition item_tr (sa : nat) (mi : bool) (x : item K) : qtr K :=
    match x with ITr t => qtr_of t | ILoop => if mi then QT NoLab (Lab 0) kone sa else QT (Lab 0) NoLab kone sa end.
  Definition mkp (t : qtr K) (mi : bool) (a : qtr K) : pr := if mi then (t, a) else (a, t).

  Lemma gselected_eq e sa t mi items : gselected F e sa t mi items = gouts e (map (fun x => mkp t mi (item_tr sa mi x)) items).
  Proof.
    induction items as [|x items IH]; auto. cbn [gselected map gouts].
    replace (into_tr x sa (if mi then MInput else MOutput)) with (Ok (item_tr sa mi x)) by (destruct x, mi; auto).
    cbn [rbind]. unfold gout. replace (fst (mkp t mi (item_tr sa mi x))) with (if mi then t else item_tr sa mi x) by (destruct mi; auto).
    replace (snd (mkp t mi (item_tr sa mi x))) with (if mi then item_tr sa mi x else t) by (destruct mi; auto).
    destruct (cf_filter F e _ _) as [[[[[fs a1] a2] d]|]| |]; cbn [rbind]; auto.
    - destruct (gadd_tr a1 a2 fs); cbn [rbind rmap]; auto. rewrite IH. auto.
    - rewrite IH. destruct (gouts _ _); auto.
  Qed.

  Definition pairs_in f1 f2 (s1 s2 : nat) : list pr :=
    map (fun t2 => (QT (Lab 0) NoLab kone s1, qtr_of t2)) (filter ieps (trs_of f2 s2)) ++
    flat_map (fun t1 => (if oeps t1 then [(qtr_of t1, QT NoLab (Lab 0) kone s2)] else []) ++
                        map (fun t2 => (qtr_of t1, qtr_of t2)) (filter (fun t2 => Nat.eqb (il t2) (ol t1)) (trs_of f2 s2)))
      (trs_of f1 s1).
  Definition pairs_out f1 f2 (s1 s2 : nat) : list pr :=
    map (fun t1 => (qtr_of t1, QT NoLab (Lab 0) kone s2)) (filter oeps (trs_of f1 s1)) ++
    flat_map (fun t2 => (if ieps t2 then [(QT (Lab 0) NoLab kone s1, qtr_of t2)] else []) ++
                        map (fun t1 => (qtr_of t1, qtr_of t2)) (filter (fun t1 => Nat.eqb (ol t1) (il t2)) (trs_of f1 s1)))
      (trs_of f2 s2).
  Definition mi_of (mt : mtype) f1 f2 (s1 s2 : nat) : bool :=
    match mt with MInput => true | MOutput => false | _ => Nat.leb (length (trs_of f1 s1)) (length (trs_of f2 s2)) end.
  Definition pairs mt f1 f2 s1 s2 : list pr := if mi_of mt f1 f2 s1 s2 then pairs_in f1 f2 s1 s2 else pairs_out f1 f2 s1 s2.

  Lemma gexpand_in f1 f2 e s1 s2 : s1 < num_states f1 -> s2 < num_states f2 -> StronglySorted le (map il (trs_of f2 s2)) ->
    (forall lab, cf_items2 F e s2 lab = sm_items f2 MInput s2 lab) ->
    gexpand F f1 f2 e s2 s1 true = gouts e (pairs_in f1 f2 s1 s2).
  Proof.
    intros H1 H2 S I. unfold gexpand. rewrite get_trs_in by auto. cbn [rbind gmatch_trs].
    unfold gmatch_tr at 1. cbn [qol]. rewrite I, sm_items_eq by auto. cbn [rbind app side]. rewrite gselected_eq, map_map.
    unfold pairs_in. rewrite gouts_app. cbn [item_tr mkp]. change (fun t : tr K => il t =? 0) with (@ieps K).
    destruct (gouts e (map _ (filter ieps (trs_of f2 s2)))) as [l0| |]; cbn [rbind]; auto.
    match goal with |- rbind ?a _ = rbind ?b _ => replace a with b; [auto|] end.
    induction (trs_of f1 s1) as [|t1 l IH]; auto. cbn [map gmatch_trs flat_map]. rewrite <- IH, gouts_app. clear IH.
    unfold gmatch_tr at 1. cbn [qol qtr_of]. rewrite I, sm_items_eq by auto. cbn [rbind side].
    rewrite gselected_eq. rewrite map_app, map_map. unfold oeps. cbn [mkp item_tr].
    destruct (ol t1); cbn [Nat.eqb map app mkp item_tr]; auto.
  Qed.
  Lemma gexpand_out f1 f2 e s1 s2 : s1 < num_states f1 -> s2 < num_states f2 -> StronglySorted le (map ol (trs_of f1 s1)) ->
    (forall lab, cf_items1 F e s1 lab = sm_items f1 MOutput s1 lab) ->
    gexpand F f1 f2 e s1 s2 false = gouts e (pairs_out f1 f2 s1 s2).
  Proof.
    intros H1 H2 S I. unfold gexpand. rewrite get_trs_in by auto. cbn [rbind gmatch_trs].
    unfold gmatch_tr at 1. cbn [qil]. rewrite I, sm_items_eq by auto. cbn [rbind app side]. rewrite gselected_eq, map_map.
    unfold pairs_out. rewrite gouts_app. cbn [item_tr mkp]. change (fun t : tr K => ol t =? 0) with (@oeps K).
    destruct (gouts e (map _ (filter oeps (trs_of f1 s1)))) as [l0| |]; cbn [rbind]; auto.
    match goal with |- rbind ?a _ = rbind ?b _ => replace a with b; [auto|] end.
    induction (trs_of f2 s2) as [|t2 l IH]; auto. cbn [map gmatch_trs flat_map]. rewrite <- IH, gouts_app. clear IH.
    unfold gmatch_tr at 1. cbn [qil qtr_of]. rewrite I, sm_items_eq by auto. cbn [rbind side].
    rewrite gselected_eq. rewrite map_app, map_map. unfold ieps. cbn [mkp item_tr].
    destruct (il t2); cbn [Nat.eqb map app mkp item_tr]; auto.
  Qed.

  Lemma gtrs_eq mt f1 f2 fs s1 s2 e : mt_ok mt f1 f2 -> s1 < num_states f1 -> s2 < num_states f2 ->
    cf_set F s1 s2 fs = Ok e ->
    (mt <> MInput -> forall lab, cf_items1 F e s1 lab = sm_items f1 MOutput s1 lab) ->
    (mt <> MOutput -> forall lab, cf_items2 F e s2 lab = sm_items f2 MInput s2 lab) ->
    gcompute_trs F mt f1 f2 (fs, s1, s2) = gouts e (pairs mt f1 f2 s1 s2).
  Proof.
    intros (M & M1 & M2) H1 H2 He I1 I2. unfold gcompute_trs. rewrite He. cbn [rbind].
    unfold match_input. rewrite !num_trs_in by auto. cbn [rbind]. unfold pairs, mi_of.
    destruct M as [->|[->| ->]]; cbn [rbind].
    - destruct (_ <=? _); [apply gexpand_in|apply gexpand_out]; auto; solve [apply M2; discriminate|apply M1; discriminate|apply I2; discriminate|apply I1; discriminate].
    - apply gexpand_out; auto; solve [apply M1; discriminate|apply I1; discriminate].
    - apply gexpand_in; auto; solve [apply M2; discriminate|apply I2; discriminate].
  Qed.

  (** Where the pairs come from. *)
  Definition pair_kind f1 f2 (s1 s2 : nat) (p : pr) : Prop :=
    (exists t1, In t1 (trs_of f1 s1) /\ ol t1 = 0 /\ p = (qtr_of t1, QT NoLab (Lab 0) kone s2)) \/
    (exists t2, In t2 (trs_of f2 s2) /\ il t2 = 0 /\ p = (QT (Lab 0) NoLab kone s1, qtr_of t2)) \/
    (exists t1 t2, In t1 (trs_of f1 s1) /\ In t2 (trs_of f2 s2) /\ ol t1 = il t2 /\ p = (qtr_of t1, qtr_of t2)).
  Lemma pairs_kind mt f1 f2 s1 s2 p : In p (pairs mt f1 f2 s1 s2) -> pair_kind f1 f2 s1 s2 p.
  Proof.
    unfold pairs, pairs_in, pairs_out, pair_kind. destruct (mi_of _ _ _ _ _); intros H; apply in_app_or in H as [H|H].
    - apply in_map_iff in H as (t & <- & H). apply filter_In in H as [H H']. apply Nat.eqb_eq in H'. eauto 8.
    - apply in_flat_map in H as (t1 & H1 & H). apply in_app_or in H as [H|H].
      + unfold oeps in H. destruct (Nat.eqb_spec (ol t1) 0) as [E0|]; [|destruct H]. destruct H as [<-|[]]. eauto 8.
      + apply in_map_iff in H as (t & <- & H). apply filter_In in H as [H H']. apply Nat.eqb_eq in H'. right. right. exists t1, t. auto.
    - apply in_map_iff in H as (t & <- & H). apply filter_In in H as [H H']. apply Nat.eqb_eq in H'. eauto 8.
    - apply in_flat_map in H as (t2 & H1 & H). apply in_app_or in H as [H|H].
      + unfold ieps in H. destruct (Nat.eqb_spec (il t2) 0) as [E0|]; [|destruct H]. destruct H as [<-|[]]. eauto 8.
      + apply in_map_iff in H as (t & <- & H). apply filter_In in H as [H H']. apply Nat.eqb_eq in H'. right. right. exists t, t2. auto.
  Qed.

  Definition gone (e : E) (p : pr) : list (ttr K (gtuple FS)) := match gout e p with Ok (Some u) => [u] | _ => [] end.
  Lemma gouts_ok e ps : (forall p, In p ps -> exists o, gout e p = Ok o) -> gouts e ps = Ok (flat_map (gone e) ps).
  Proof.
    induction ps as [|p ps IH]; auto. intros H. cbn [gouts flat_map]. unfold gone at 1.
    destruct (H p (or_introl eq_refl)) as [o ->]. cbn [rbind]. rewrite IH by (intros; apply H; right; auto). cbn [rbind].
    destruct o; auto.
  Qed.
End Gen.

Local Open Scope K_scope.
Section Sum.
  Context {K : SR} (L : lsr_laws K).
  Context (f1 f2 : vfst K).
  Notation pr := (qtr K * qtr K)%type.

  Definition pair_sum3 (s1 s2 : nat) (h : pr -> K) : K :=
    ksum (map (fun t1 => if oeps t1 then h (qtr_of t1, QT NoLab (Lab O) kone s2) else 0) (trs_of f1 s1)) +
    (ksum (map (fun t2 => if ieps t2 then h (QT (Lab O) NoLab kone s1, qtr_of t2) else 0) (trs_of f2 s2)) +
     ksum (map (fun t1 => ksum (map (fun t2 => if Nat.eqb (ol t1) (il t2) then h (qtr_of t1, qtr_of t2) else 0) (trs_of f2 s2))) (trs_of f1 s1))).

  Lemma pairs_sum mt s1 s2 h : ksum (map h (pairs mt f1 f2 s1 s2)) = pair_sum3 s1 s2 h.
  Proof.
    unfold pairs, pair_sum3. destruct (mi_of mt f1 f2 s1 s2).
    - unfold pairs_in. rewrite map_app, (ksum_app L), map_map, (ksum_filter L), (ksum_fm L).
      rewrite (kplus_assoc _ L). rewrite (kplus_comm _ L (ksum _) (ksum (map (fun t2 : tr K => if ieps t2 then _ else _) _))).
      rewrite <- (kplus_assoc _ L). f_equal.
      rewrite <- (ksum_map_plus L). apply ksum_map_ext. intros t1 _. rewrite map_app, (ksum_app L). f_equal.
      + destruct (oeps t1); auto. cbn. apply (kplus_0_r L).
      + rewrite map_map, (ksum_filter L). apply ksum_map_ext. intros t2 _. rewrite Nat.eqb_sym. auto.
    - unfold pairs_out. rewrite map_app, (ksum_app L), map_map, (ksum_filter L), (ksum_fm L). f_equal.
      rewrite (ksum_swap L). rewrite <- (ksum_map_plus L). apply ksum_map_ext. intros t2 _. rewrite map_app, (ksum_app L). f_equal.
      + destruct (ieps t2); auto. cbn. apply (kplus_0_r L).
      + rewrite map_map, (ksum_filter L). apply ksum_map_ext. intros t1 _. auto.
  Qed.

  (** What one pair contributes. *)
  Section V.
    Context {FS E : Type} (F : cflt K FS E) (mt : mtype).
    Definition G (k : nat) (t : gtuple FS) (x z : list nat) : K :=
      gwt (gcompute_trs F mt f1 f2) (gcompute_final F f1 f2) k t x z.
    Definition gterm (H : gtuple FS -> list nat -> list nat -> K) (x z : list nat) (u : ttr K (gtuple FS)) : K :=
      match strip (ti u) x, strip (to u) z with Some x', Some z' => tw u * H (tn u) x' z' | _, _ => 0 end.
    Definition gval (e : E) (k : nat) (x z : list nat) (p : pr) : K :=
      match gout F e p with Ok (Some u) => gterm (G k) x z u | _ => 0 end.

    Lemma G_list t e ps k x z : gcompute_trs F mt f1 f2 t = gouts F e ps -> (forall p, In p ps -> exists o, gout F e p = Ok o) ->
      G (S k) t x z = ksum (map (gval e k x z) ps).
    Proof.
      intros Et Ho. unfold G at 1. cbn [gwt]. unfold trs_at. rewrite Et, gouts_ok by auto.
      rewrite (ksum_fm L). apply ksum_map_ext. intros p Hp. unfold gone, gval.
      destruct (gout F e p) as [[u|]| |]; auto. cbn [map ksum]. apply (kplus_0_r L).
    Qed.
    Lemma G_step fs s1 s2 e k x z : gcompute_trs F mt f1 f2 (fs, s1, s2) = gouts F e (pairs mt f1 f2 s1 s2) ->
      (forall p, pair_kind f1 f2 s1 s2 p -> exists o, gout F e p = Ok o) ->
      G (S k) (fs, s1, s2) x z = ksum (map (gval e k x z) (pairs mt f1 f2 s1 s2)).
    Proof.
      intros Et Ho. apply G_list; auto. intros. eapply Ho, pairs_kind; eauto.
    Qed.
  End V.
End Sum.
