(** C74: composing with a sigma matcher is composing with the machine in which every sigma
    transition is spelled out, label by label. *)
From Coq Require Import List Arith NArith ZArith Bool Lia Sorted Permutation.
From Verif Require Import Base.Util Base.Semiring Base.Machine Base.PropSpec Base.Instances Base.TropZ
  Model.Props Model.VectorFst Model.TrOps Model.History Model.Rational Model.Matchers
  Model.BiMap Model.Lazy Model.Visitors Model.AlgoProps Model.Compose Model.LookAhead Model.SigmaCompose
  Proofs.PropsFacts Proofs.VectorFacts Proofs.HistoryFacts Proofs.TrOpsFacts Proofs.OpFacts Proofs.VectorProps Proofs.BiMapFacts Proofs.LazyFacts
  Proofs.TableFacts Proofs.ConnectFacts Proofs.ComposeFacts
  Proofs.LookFacts Proofs.LookAlt Proofs.LookBuild Proofs.ClosedB
  Props.C03 Props.C04 Props.C06 Props.C14 Props.C19 Props.C20 Props.C72.
Import ListNotations.
Local Open Scope K_scope.

Section C74.
  Context {K : SR} (L : lsr_laws K) (comm : commutative_times K).
  Implicit Types (f g : vfst K).

  (** What a sigma transition is for the label [x]. *)
  Definition as_label (rw : bool) (g x : nat) (t : tr K) : tr K :=
    Tr x (if rw && Nat.eqb (ol t) g then x else ol t) (wgt t) (ns t).
  (** Whether the sigma transitions of a state stand for the label [x]. *)
  Definition stands (sc : sigcfg) (l : list (tr K)) (x : nat) : bool :=
    negb (Nat.eqb x 0) && negb (Nat.eqb x (sc_label sc)) && negb (existsb (fun t => Nat.eqb (il t) x) l) &&
    match sc_allowed sc with None => true | Some a => existsb (Nat.eqb x) a end.
  (** The transitions with the copies of the sigma transitions for the labels of an alphabet. *)
  Definition spell (A : list nat) (sc : sigcfg) (rw : bool) (l : list (tr K)) : list (tr K) :=
    l ++ flat_map (fun x => if stands sc l x then map (as_label rw (sc_label sc) x) (filter (fun t => Nat.eqb (il t) (sc_label sc)) l) else [])
           (nodup Nat.eq_dec A).
  Fixpoint ins (t : tr K) (l : list (tr K)) : list (tr K) :=
    match l with [] => [t] | u :: r => if Nat.leb (il t) (il u) then t :: l else u :: ins t r end.
  Definition isort (l : list (tr K)) : list (tr K) := fold_right ins [] l.
  (** The labels that the first machine writes. *)
  Definition written f : list nat := flat_map (fun st => map ol (vtrs st)) (vstates f).
  Definition rewrites (sc : sigcfg) f : bool :=
    match sc_mode sc with RwAuto => has (vprops f) ACCEPTOR | RwAlways => true | RwNever => false end.
  (** The second machine, spelled out over what the first one writes and sorted. *)
  Definition spelled (sc : sigcfg) f1 f2 : vfst K :=
    VF (map (fun st => let l := isort (spell (written f1) sc (rewrites sc f2) (vtrs st)) in VS (vfin st) l (count ieps l) (count oeps l)) (vstates f2))
       (vstart f2) (visymt f2) (vosymt f2) (mask [I_LABEL_SORTED]).

  Lemma ins_perm t l : Permutation (ins t l) (t :: l).
  Proof. induction l as [|u l IH]; cbn; auto. destruct (Nat.leb _ _); auto. rewrite IH. apply perm_swap. Qed.
  Lemma isort_perm l : Permutation (isort l) l.
  Proof. induction l as [|t l IH]; cbn; auto. rewrite ins_perm. auto. Qed.
  Lemma isort_in t l : In t (isort l) <-> In t l.
  Proof. split; apply Permutation_in; [|apply Permutation_sym]; apply isort_perm. Qed.
  Lemma ins_sorted t l : StronglySorted le (map il l) -> StronglySorted le (map il (ins t l)).
  Proof.
    induction l as [|u l IH]; cbn; intros S; [repeat constructor|]. inversion S as [|? ? S' F]; subst. destruct (Nat.leb_spec (il t) (il u)); cbn.
    - constructor; auto. constructor; auto. eapply Forall_impl; [|exact F]. cbn. lia.
    - constructor; auto. rewrite Forall_forall in *. intros y Hy. apply in_map_iff in Hy as (v & <- & Hv).
      apply (Permutation_in _ (ins_perm t l)) in Hv as [<-|Hv]; [lia|]. apply F. apply in_map. auto.
  Qed.
  Lemma isort_sorted l : StronglySorted le (map il (isort l)).
  Proof. induction l; cbn; [constructor|]. apply ins_sorted. auto. Qed.
  Lemma perm_filter {A} (p : A -> bool) l m : Permutation l m -> Permutation (filter p l) (filter p m).
  Proof.
    induction 1; cbn; auto.
    - destruct (p x); auto.
    - destruct (p x), (p y); auto. apply perm_swap.
    - etransitivity; eauto.
  Qed.
  Lemma perm_fm {A B} (F G : A -> list B) l : (forall a, In a l -> Permutation (F a) (G a)) -> Permutation (flat_map F l) (flat_map G l).
  Proof. induction l as [|a l IH]; cbn; intros H; auto. apply Permutation_app; auto. Qed.
  Lemma perm_fm2 {A B} (F : A -> list B) l m : Permutation l m -> Permutation (flat_map F l) (flat_map F m).
  Proof.
    induction 1; cbn; auto.
    - apply Permutation_app_head. auto.
    - rewrite !app_assoc. apply Permutation_app_tail. apply Permutation_app_comm.
    - etransitivity; eauto.
  Qed.

  Section One.
    Context (sc : sigcfg) (rw : bool) (A : list nat).
    Notation g := (sc_label sc).
    Context (G0 : g <> O).

    Definition copies (l : list (tr K)) (x : nat) : list (tr K) :=
      if stands sc l x then map (as_label rw g x) (filter (fun t => Nat.eqb (il t) g) l) else [].
    Lemma copies_il l x t : In t (copies l x) -> il t = x /\ x <> O /\ exists u, In u l /\ il u = g /\ ns t = ns u.
    Proof.
      unfold copies, stands. destruct (Nat.eqb_spec x 0) as [|N]; cbn [negb andb]; [intros []|]. destruct (_ && _); [|intros []].
      intros H. apply in_map_iff in H as (u & <- & Hu). apply filter_In in Hu as [Hu Q]. apply Nat.eqb_eq in Q. cbn. eauto 6.
    Qed.
    Lemma spell_in l t : In t (spell A sc rw l) <-> In t l \/ exists x, In x A /\ In t (copies l x).
    Proof.
      unfold spell. rewrite in_app_iff, in_flat_map. split; intros [H|(x & Hx & H)]; auto; right; exists x; (split; [|exact H]).
      - eapply nodup_In; eauto.
      - apply nodup_In; auto.
    Qed.
    Lemma spell_all l : forallb ieps (isort (spell A sc rw l)) = forallb ieps l.
    Proof.
      apply eq_true_iff_eq. rewrite !forallb_forall. split; intros H t Ht.
      - apply H, isort_in, spell_in. auto.
      - apply isort_in, spell_in in Ht as [Ht|(x & _ & Ht)]; auto. apply copies_il in Ht as (_ & _ & u & Hu & E & _).
        apply H in Hu. unfold ieps in Hu. rewrite E in Hu. apply Nat.eqb_eq in Hu. contradiction.
    Qed.
    Lemma spell_some l : existsb ieps (isort (spell A sc rw l)) = existsb ieps l.
    Proof.
      apply eq_true_iff_eq. rewrite !existsb_exists. split; intros (t & Ht & Q); exists t; (split; [|exact Q]).
      - apply isort_in, spell_in in Ht as [Ht|(x & _ & Ht)]; auto. apply copies_il in Ht as (E & N & _). unfold ieps in Q. apply Nat.eqb_eq in Q. congruence.
      - apply isort_in, spell_in. auto.
    Qed.

    (** What a sigma matcher finds for a label. *)
    Definition sel (l : list (tr K)) (x : nat) : list (tr K) := filter (fun t => Nat.eqb (il t) x) l ++ copies l x.
    Lemma copies_filter l x y : filter (fun t => Nat.eqb (il t) x) (copies l y) = if Nat.eqb y x then copies l y else [].
    Proof.
      assert (H : forall t, In t (copies l y) -> il t = y) by (intros t Ht; apply copies_il in Ht; tauto).
      induction (copies l y) as [|t r IH]; cbn; [destruct (Nat.eqb y x); auto|]. rewrite (H t (or_introl eq_refl)).
      rewrite IH by (intros; apply H; right; auto). destruct (Nat.eqb y x); auto.
    Qed.
    Lemma fm_filter l x B : NoDup B -> (In x B \/ x = O) -> filter (fun t => Nat.eqb (il t) x) (flat_map (copies l) B) = copies l x.
    Proof.
      assert (Z : copies l O = []) by reflexivity.
      assert (Q : forall B, ~ In x B -> filter (fun t => Nat.eqb (il t) x) (flat_map (copies l) B) = []).
      { induction B0 as [|y B0 IH]; cbn; auto. intros N. rewrite filter_app, copies_filter, IH by tauto. destruct (Nat.eqb_spec y x); auto. subst. tauto. }
      intros ND [H| ->].
      - induction ND as [|y B N ND IH]; [destruct H|]. cbn. rewrite filter_app, copies_filter. destruct (Nat.eqb_spec y x).
        + subst. rewrite Q by auto. apply app_nil_r.
        + cbn. apply IH. destruct H; [contradiction|auto].
      - rewrite Z. induction B as [|y B IH]; cbn; auto. rewrite filter_app, copies_filter. inversion ND; subst. rewrite IH by auto. destruct (Nat.eqb_spec y 0); auto. subst. auto.
    Qed.
    Lemma sel_perm l x : In x A \/ x = O -> Permutation (sel l x) (filter (fun t => Nat.eqb (il t) x) (isort (spell A sc rw l))).
    Proof.
      intros H. rewrite (perm_filter _ _ _ (isort_perm _)). unfold spell. rewrite filter_app. apply Permutation_app_head.
      change (flat_map _ (nodup Nat.eq_dec A)) with (flat_map (copies l) (nodup Nat.eq_dec A)).
      rewrite fm_filter; auto; [apply NoDup_nodup|]. destruct H; auto. left. apply nodup_In. auto.
    Qed.

    Lemma plain_plain (l : list (item K)) : plain_items (map SPlain l) = Ok l.
    Proof. induction l as [|i l IH]; cbn; auto. rewrite IH. auto. Qed.
    Lemma plain_sigma x (l : list (tr K)) : (forall t, In t l -> il t = g) ->
      plain_items (map (rewrite_sigma rw MInput (Lab g) x) l) = Ok (map ITr (map (as_label rw g x) l)).
    Proof.
      induction l as [|t l IH]; intros H; auto. cbn [map plain_items]. rewrite IH by (intros; apply H; right; auto).
      pose proof (H t (or_introl eq_refl)) as E. unfold rewrite_sigma, as_label. destruct rw; cbn [mtype_eqb plain_item qil qol proper rbind qw qns qlab_eqb andb].
      - rewrite E, Nat.eqb_refl. destruct (Nat.eqb (ol t) g); reflexivity.
      - reflexivity.
    Qed.
  End One.

  Lemma rewrites_eq sc f : rewrite_both sc f = rewrites sc f.
  Proof. unfold rewrite_both, rewrites. destruct (sc_mode sc); auto. apply contains_1. Qed.

  Definition loop_of (x : nat) : list (item K) := match x with O => [ILoop] | _ => [] end.
  Lemma sigma_items_eq sc f s x : sc_label sc <> O -> (s < num_states f)%nat -> StronglySorted le (map il (trs_of f s)) -> x <> sc_label sc ->
    sigma_items sc f s (Lab x) = Ok (loop_of x ++ map ITr (sel sc (rewrites sc f) (trs_of f s) x)).
  Proof.
    intros G0 H SS N. unfold sigma_items. rewrite num_trs_in by auto. cbn [rbind]. rewrite rewrites_eq. set (rw := rewrites sc f). set (l := trs_of f s) in *.
    assert (EI : forall lab, sm_items f MInput s lab = _) by (intros lab; apply (sm_items_eq f MInput s lab); auto). cbn [side] in EI.
    assert (LE : forall p : tr K -> bool, (length (filter p l) <= length l)%nat).
    { intros p. clear. induction l as [|t l IH]; cbn; auto. destruct (p t); cbn; lia. }
    unfold sig_new, has_sigma. cbn [qlab_eqb]. destruct (Nat.eqb_spec x (sc_label sc)); [contradiction|]. cbn [andb negb].
    rewrite !EI. destruct (sc_label sc) as [|g'] eqn:Eg; [contradiction|]. rewrite <- Eg in *. cbn [app rbind].
    fold l. set (sg := filter (fun t => Nat.eqb (il t) (sc_label sc)) l).
    destruct x as [|x].
    - cbn [app rbind]. edestruct (sig_drain_plain (sm_items f MInput) s (Lab 0) (Lab (sc_label sc)) MInput) as (it & E); [|rewrite E].
      { cbn. rewrite map_length. specialize (LE (fun t => Nat.eqb (il t) 0)). lia. }
      cbn [rbind fst]. rewrite plain_plain. unfold sel. cbn. rewrite app_nil_r. reflexivity.
    - cbn [app loop_of]. unfold sel. destruct (filter (fun t => Nat.eqb (il t) (S x)) l) as [|e ex] eqn:Ef.
      + cbn [map rbind app]. assert (EX : existsb (fun t => Nat.eqb (il t) (S x)) l = false).
        { destruct (existsb _ l) eqn:Q; auto. apply existsb_exists in Q as (t & Ht & Q). assert (W : In t (filter (fun t => Nat.eqb (il t) (S x)) l)) by (apply filter_In; auto).
          rewrite Ef in W. destruct W. }
        assert (EA : exists al, sigma_allowed (sc_allowed sc) (Lab (S x)) = al /\ match sc_allowed sc with None => true | Some a => existsb (Nat.eqb (S x)) a end = al)
          by (unfold sigma_allowed; destruct (sc_allowed sc); eauto).
        destruct EA as (al & EA1 & EA2). unfold copies, stands. rewrite EX, EA1, EA2. destruct (Nat.eqb_spec (S x) (sc_label sc)); [contradiction|]. cbn [Nat.eqb negb andb qlab_eqb].
        fold sg. assert (HG : forall t, In t sg -> il t = sc_label sc) by (intros t Ht; apply filter_In in Ht as [_ Q]; apply Nat.eqb_eq in Q; auto).
        destruct al.
        * destruct sg as [|t sg'] eqn:Es.
          -- cbn [map andb rbind]. rewrite Nat.add_comm. reflexivity.
          -- cbn [map andb]. destruct (sig_drain_sigma (sm_items f MInput) s (S x) (Lab (sc_label sc)) MInput true rw (t :: sg') (length l + 2)) as (it & E).
             { rewrite <- Es. unfold sg. specialize (LE (fun t => Nat.eqb (il t) (sc_label sc))). lia. }
             cbn [map] in E. cbn [rbind]. rewrite E. cbn [rbind fst]. apply (plain_sigma sc rw (S x) (t :: sg')); auto.
        * rewrite !andb_false_r. cbn [map andb rbind]. rewrite Nat.add_comm. reflexivity.
      + cbn [map rbind app]. edestruct (sig_drain_plain (sm_items f MInput) s (Lab (S x)) (Lab (sc_label sc)) MInput) as (it & E).
        2: change (ITr e :: map ITr ex) with (map (@ITr K) (e :: ex)). 2: rewrite E.
        { rewrite map_length, <- Ef. specialize (LE (fun t => Nat.eqb (il t) (S x))). lia. }
        cbn [rbind fst]. rewrite plain_plain. unfold copies, stands.
        assert (EX : existsb (fun t => Nat.eqb (il t) (S x)) l = true).
        { assert (W : In e (filter (fun t => Nat.eqb (il t) (S x)) l)) by (rewrite Ef; left; auto). apply filter_In in W as [W W']. apply existsb_exists. eauto. }
        rewrite EX. rewrite !andb_false_r. cbn [andb]. rewrite app_nil_r. reflexivity.
  Qed.
  Lemma sigma_items_eps sc f s : sc_label sc <> O -> (s < num_states f)%nat -> StronglySorted le (map il (trs_of f s)) ->
    sigma_items sc f s NoLab = Ok (map ITr (filter ieps (trs_of f s))).
  Proof.
    intros G0 H SS. unfold sigma_items. rewrite num_trs_in by auto. cbn [rbind]. set (l := trs_of f s) in *.
    assert (EI : forall lab, sm_items f MInput s lab = _) by (intros lab; apply (sm_items_eq f MInput s lab); auto). cbn [side] in EI.
    unfold sig_new, has_sigma. cbn [qlab_eqb andb negb]. rewrite !EI. destruct (sc_label sc) as [|g'] eqn:Eg; [contradiction|]. rewrite <- Eg in *. cbn [app rbind].
    fold l. change (fun t : tr K => Nat.eqb (il t) 0) with (@ieps K).
    assert (LE : (length (filter ieps l) <= length l)%nat).
    { clear. induction l as [|t l IH]; cbn; auto. destruct (ieps t); cbn; lia. }
    destruct (filter ieps l) as [|e ex] eqn:Ef; cbn [map].
    - cbn [qlab_eqb negb andb]. rewrite !andb_false_r. cbn [andb rbind]. rewrite Nat.add_comm. reflexivity.
    - cbn [rbind]. edestruct (sig_drain_plain (sm_items f MInput) s NoLab (Lab (sc_label sc)) MInput) as (it & E).
      2: change (ITr e :: map ITr ex) with (map (@ITr K) (e :: ex)). 2: rewrite E.
      { rewrite map_length. lia. }
      cbn [rbind fst]. apply plain_plain.
  Qed.

  Lemma spelled_trs sc f1 f2 s : trs_of (spelled sc f1 f2) s = isort (spell (written f1) sc (rewrites sc f2) (trs_of f2 s)).
  Proof.
    unfold trs_of, spelled. cbn [vstates]. rewrite nth_error_map. destruct (nth_error (vstates f2) s); auto. cbn [option_map].
    unfold spell. cbn [app filter map]. induction (nodup Nat.eq_dec (written f1)) as [|x B IH]; auto. cbn [flat_map]. destruct (stands sc [] x); exact IH.
  Qed.
  Lemma spelled_fin sc f1 f2 s : fin_of (spelled sc f1 f2) s = fin_of f2 s.
  Proof. unfold fin_of, spelled. cbn [vstates]. rewrite nth_error_map. destruct (nth_error (vstates f2) s); auto. Qed.
  Lemma spelled_num sc f1 f2 : num_states (spelled sc f1 f2) = num_states f2.
  Proof. unfold num_states, spelled. cbn [vstates]. apply map_length. Qed.
  Lemma spelled_cnt sc f1 f2 : cnt (spelled sc f1 f2).
  Proof.
    unfold cnt, spelled. cbn [vstates]. apply Forall_forall. intros st H. apply in_map_iff in H as (st' & <- & _). split; reflexivity.
  Qed.
  Lemma spelled_bits sc f1 f2 : bits_true (spelled sc f1 f2).
  Proof.
    intros b Hb. unfold spelled in Hb. cbn [vprops] in Hb. rewrite has_mask in Hb. destruct b; try discriminate. cbn. intros s.
    change (mtrs (mach (spelled sc f1 f2)) s) with (trs_of (spelled sc f1 f2) s). rewrite spelled_trs. apply isort_sorted.
  Qed.
  Lemma spelled_closed sc f1 f2 : closed f2 -> closed (spelled sc f1 f2).
  Proof.
    intros [D1 D2]. split.
    - intros s t H. rewrite spelled_num. rewrite spelled_trs in H. apply isort_in, spell_in in H as [H|(x & _ & H)]; [eauto|].
      apply copies_il in H as (_ & _ & u & Hu & _ & ->). eauto.
    - intros s H. rewrite spelled_num. apply D2. exact H.
  Qed.
  Lemma in_written f s t : In t (trs_of f s) -> In (ol t) (written f).
  Proof.
    unfold trs_of, written. destruct (nth_error (vstates f) s) as [st|] eqn:E; [|intros []]. intros H. apply in_flat_map. exists st.
    split; [eapply nth_error_In; eauto|]. apply in_map. auto.
  Qed.

  Section Two.
    Context (sc : sigcfg) (flt : cfilter) (f1 f2 : vfst K) (mt : mtype).
    Context (C1 : cnt f1) (C2 : cnt f2) (D1 : closed f1) (D2 : closed f2) (B1 : bits_true f1) (B2 : bits_true f2).
    Context (G0 : sc_label sc <> O) (NW : ~ In (sc_label sc) (written f1)).
    Context (M : mt = MBoth \/ mt = MInput) (S1 : mt = MBoth -> forall s, StronglySorted le (map ol (trs_of f1 s))).
    Context (S2 : forall s, StronglySorted le (map il (trs_of f2 s))).
    Notation f3 := (spelled sc f1 f2).
    Notation SF := (sigma_cf sc flt f1 f2).
    Notation BF := (base_cf flt f1 f3).
    Notation ev fs s1 s2 := (env flt f1 f3 fs s1 s2).

    Lemma mt3 : mt_ok mt f1 f3.
    Proof.
      split; [tauto|]. split.
      - intros N. apply S1. tauto.
      - intros _ s. rewrite spelled_trs. apply isort_sorted.
    Qed.
    Lemma env3 fs s1 s2 : env flt f1 f2 fs s1 s2 = ev fs s1 s2.
    Proof. unfold env, stuck, none. rewrite spelled_fin, spelled_trs, spell_all, spell_some by auto. reflexivity. Qed.

    Definition spairs (s1 s2 : nat) : list (qtr K * qtr K) :=
      map (fun t2 => (QT (Lab 0) NoLab kone s1, qtr_of t2)) (filter ieps (trs_of f2 s2)) ++
      flat_map (fun t1 => (if oeps t1 then [(qtr_of t1, QT NoLab (Lab 0) kone s2)] else []) ++
                          map (fun t2 => (qtr_of t1, qtr_of t2)) (sel sc (rewrites sc f2) (trs_of f2 s2) (ol t1)))
        (trs_of f1 s1).
    Lemma spairs_perm s1 s2 : Permutation (spairs s1 s2) (pairs_in f1 f3 s1 s2).
    Proof.
      unfold spairs, pairs_in. rewrite spelled_trs. apply Permutation_app.
      - apply Permutation_map. pose proof (sel_perm sc (rewrites sc f2) (written f1) (trs_of f2 s2) O (or_intror eq_refl)) as X. unfold sel in X.
        change (copies sc (rewrites sc f2) (trs_of f2 s2) O) with (@nil (tr K)) in X. rewrite app_nil_r in X. exact X.
      - apply perm_fm. intros t1 H. apply Permutation_app_head, Permutation_map, sel_perm. left. eapply in_written; eauto.
    Qed.
    Lemma expand_in e s1 s2 : (s1 < num_states f1)%nat -> (s2 < num_states f2)%nat ->
      gexpand SF f1 f2 e s2 s1 true = gouts SF e (spairs s1 s2).
    Proof.
      intros H1 H2. unfold gexpand. rewrite get_trs_in by auto. cbn [rbind gmatch_trs].
      unfold gmatch_tr at 1. cbn [qol]. cbn [sigma_cf cf_items2]. rewrite sigma_items_eps by auto. cbn [rbind]. rewrite gselected_eq, map_map.
      unfold spairs. rewrite gouts_app. cbn [item_tr mkp].
      destruct (gouts SF e (map _ (filter ieps (trs_of f2 s2)))) as [l0| |]; cbn [rbind]; auto.
      match goal with |- rbind ?a _ = rbind ?b _ => replace a with b; [auto|] end.
      assert (HW : forall t, In t (trs_of f1 s1) -> ol t <> sc_label sc) by (intros t Ht E; apply NW; rewrite <- E; eapply in_written; eauto).
      induction (trs_of f1 s1) as [|t1 l IH]; auto. cbn [map gmatch_trs flat_map]. rewrite <- IH, gouts_app by (intros; apply HW; right; auto). clear IH.
      unfold gmatch_tr at 1. cbn [qol qtr_of]. cbn [sigma_cf cf_items2]. rewrite sigma_items_eq; auto; [|apply HW; left; auto]. cbn [rbind].
      rewrite gselected_eq. rewrite map_app, map_map. unfold oeps, loop_of. cbn [mkp item_tr].
      destruct (ol t1); cbn [Nat.eqb map app mkp item_tr]; auto.
    Qed.
    Lemma no_sigma s2 : filter (fun t => Nat.eqb (il t) (sc_label sc)) (trs_of f2 s2) = [] -> Permutation (trs_of f2 s2) (trs_of f3 s2).
    Proof.
      intros E. rewrite spelled_trs. rewrite (isort_perm (spell _ _ _ _)). unfold spell. rewrite E. cbn [map].
      replace (flat_map _ _) with (@nil (tr K)); [rewrite app_nil_r; auto|]. induction (nodup Nat.eq_dec (written f1)) as [|x B IH]; auto. cbn [flat_map].
      destruct (stands _ _ x); exact IH.
    Qed.
    Lemma pout_perm s1 s2 : Permutation (trs_of f2 s2) (trs_of f3 s2) -> Permutation (pairs_out f1 f2 s1 s2) (pairs_out f1 f3 s1 s2).
    Proof. intros P. unfold pairs_out. apply Permutation_app_head, perm_fm2. auto. Qed.

    (** The transitions of a pair of states: those of the spelled machine, in another order. *)
    Lemma sigma_step fs s1 s2 : (s1 < num_states f1)%nat -> (s2 < num_states f2)%nat ->
      exists ps d, sigma_trs sc flt mt f1 f2 (fs, s1, s2) = gouts SF (ev fs s1 s2) ps /\ Permutation ps (pairs d f1 f3 s1 s2).
    Proof.
      intros H1 H2. unfold sigma_trs. cbn [sigma_cf base_cf cf_set]. rewrite set_state_eq by auto. cbn [rbind]. rewrite env3. fold SF.
      assert (CASE : exists b, sigma_match_input sc mt f1 f2 s1 s2 = Ok b /\ (b = false -> mt = MBoth /\ filter (fun t => Nat.eqb (il t) (sc_label sc)) (trs_of f2 s2) = [])).
      { destruct M as [-> | ->]; cbn [sigma_match_input]; [|eexists; split; [reflexivity|discriminate]].
        rewrite !num_trs_in by auto. cbn [rbind]. unfold has_sigma. cbn [qlab_eqb]. rewrite sm_items_eq by auto. cbn [side].
        destruct (sc_label sc) as [|g'] eqn:Eg; [contradiction|]. cbn [app rbind].
        destruct (filter _ (trs_of f2 s2)) as [|t r]; cbn [map rbind]; eexists; (split; [reflexivity|]); [auto|discriminate]. }
      destruct CASE as (b & -> & Hb). cbn [rbind]. destruct b.
      - exists (spairs s1 s2), MInput. split; [apply expand_in; auto|]. apply spairs_perm.
      - destruct (Hb eq_refl) as [Em En]. exists (pairs_out f1 f2 s1 s2), MOutput. split; [|apply pout_perm, no_sigma, En].
        apply gexpand_out; auto.
    Qed.
    Lemma pair_out fs s1 s2 d p : (s1 < num_states f1)%nat -> (s2 < num_states f2)%nat -> In p (pairs d f1 f3 s1 s2) ->
      exists o, gout BF (ev fs s1 s2) p = Ok o /\ forall u, o = Some u -> valid f1 f2 (tn u).
    Proof.
      intros H1 H2 Hp. apply pairs_kind in Hp. pose proof (spelled_closed sc f1 f2 D2) as D3.
      destruct (next_ok f1 f3 D1 D3 s1 s2 p) as ((i & o & Ei & Eo) & N1 & N2); auto; [rewrite spelled_num; auto|]. rewrite spelled_num in N2.
      unfold gout. cbn [base_cf cf_filter rbind]. destruct (filter_tr flt _ _ _) as [fs'|] eqn:Ef; [|eexists; split; [reflexivity|discriminate]].
      unfold gadd_tr. rewrite Ei, Eo. cbn [rbind rmap proper]. eexists. split; [reflexivity|]. intros u [= <-]. cbn. split; [|auto].
      eapply (filter_lt f1 f3); eauto.
    Qed.
    Lemma sigma_trs_ok fs s1 s2 : (s1 < num_states f1)%nat -> (s2 < num_states f2)%nat ->
      exists ps d, sigma_trs sc flt mt f1 f2 (fs, s1, s2) = Ok (flat_map (gone BF (ev fs s1 s2)) ps) /\ Permutation ps (pairs d f1 f3 s1 s2).
    Proof.
      intros H1 H2. destruct (sigma_step fs s1 s2 H1 H2) as (ps & d & E & P). exists ps, d. split; auto. rewrite E.
      change (gouts SF) with (gouts BF). apply gouts_ok. intros p Hp. destruct (pair_out fs s1 s2 d p) as (o & Eo & _); eauto. eapply Permutation_in; eauto.
    Qed.
    Lemma sigma_final fs s1 s2 : (s1 < num_states f1)%nat -> (s2 < num_states f2)%nat ->
      gcompute_final SF f1 f2 (fs, s1, s2) = gcompute_final BF f1 f3 (fs, s1, s2).
    Proof.
      intros H1 H2. unfold gcompute_final. rewrite !final_in, spelled_fin by (auto; rewrite spelled_num; auto). cbn [rbind].
      destruct (fin_of f1 s1); auto. destruct (fin_of f2 s2); auto. cbn [sigma_cf base_cf cf_set]. rewrite !set_state_eq; auto; try apply spelled_cnt; rewrite spelled_num; auto.
    Qed.
    Lemma sigma_value k : forall fs s1 s2 x z, (s1 < num_states f1)%nat -> (s2 < num_states f2)%nat ->
      gwt (sigma_trs sc flt mt f1 f2) (gcompute_final SF f1 f2) k (fs, s1, s2) x z = G f1 f3 BF mt k (fs, s1, s2) x z.
    Proof.
      induction k as [|k IH]; intros fs s1 s2 x z H1 H2.
      - unfold G. cbn [gwt]. unfold fin_at. rewrite sigma_final by auto. reflexivity.
      - assert (H3 : (s2 < num_states f3)%nat) by (rewrite spelled_num; auto).
        rewrite (G_step L f1 f3 BF mt fs s1 s2 (ev fs s1 s2)).
        + rewrite (pairs_sum L). cbn [gwt]. unfold trs_at. destruct (sigma_trs_ok fs s1 s2 H1 H2) as (ps & d & E & P). rewrite E.
          rewrite (ksum_fm L). rewrite (ksum_perm_map L _ _ _ P), <- (pairs_sum L f1 f3 d). apply ksum_map_ext. intros p Hp.
          destruct (pair_out fs s1 s2 d p H1 H2 Hp) as (o & Eo & V). unfold gone, gval. rewrite Eo. destruct o as [u|]; auto. cbn [map ksum].
          rewrite (kplus_0_r L). unfold gterm. destruct (V u eq_refl) as (_ & V1 & V2). destruct (tn u) as [[a b] c]. cbn [fst snd] in *.
          destruct (strip (ti u) x); auto. destruct (strip (to u) z); auto. rewrite IH by auto. auto.
        + apply gtrs_eq; auto; [apply mt3|]. cbn [base_cf cf_set]. apply set_state_eq; auto. apply spelled_cnt.
        + intros p Hp. pose proof (spelled_closed sc f1 f2 D2) as D3. apply base_out; auto.
    Qed.
  End Two.

  (** The composition exists, and weighs every pair of strings as the plain composition with the
      spelled machine over the same filter. *)
  Theorem C74_sigma :
    forall sc flt conn fuel f1 f2, ready2 f1 f2 -> has (vprops f2) I_LABEL_SORTED = true -> sc_label sc <> O -> ~ In (sc_label sc) (written f1) ->
    (3 * num_states f1 * num_states f2 <= fuel)%nat ->
    exists g p, sigma_compose sc flt conn fuel f1 f2 = Some (Ok g) /\
      compose_with flt conn fuel f1 (spelled sc f1 f2) = Some (Ok p) /\
      (forall k x z, rel (mach g) k x z = rel (mach p) k x z) /\
      (conn = true -> forall s, (s < num_states g)%nat -> accessible (mach g) s /\ coaccessible (mach g) s) /\
      (vstart f1 <> None -> vstart f2 <> None -> visymt g = visymt f1 /\ vosymt g = vosymt f2).
  Proof.
    intros sc flt conn fuel f1 f2 (C1 & C2 & D1 & D2 & B1 & B2) SO G0 NW Hf.
    set (f3 := spelled sc f1 f2). set (SF := sigma_cf sc flt f1 f2).
    assert (S2 : forall s, StronglySorted le (map il (trs_of f2 s))) by exact (B2 _ SO).
    assert (T2 : forall b, sm_match_type f2 MInput b = Ok MInput).
    { intros b. unfold sm_match_type. cbn [mtype_eqb]. destruct b; [|cbn [rbind]; rewrite contains_1, SO; auto].
      replace (knows (vprops f2) (mask [I_LABEL_SORTED; NOT_I_LABEL_SORTED])) with true; [cbn [rbind]; rewrite contains_1, SO; auto|]. symmetry. unfold knows. rewrite contains_mask.
      intros b [<-|[<-|[]]]; rewrite has_known; cbn [opp]; rewrite SO; auto. apply orb_true_r. }
    assert (MT : exists mt, compose_match_type f1 f2 = Ok mt /\ compose_match_type f1 f3 = Ok mt /\ (mt = MBoth \/ mt = MInput)).
    { unfold compose_match_type. rewrite !T2. change (sm_match_type f3 MInput false) with (@Ok mtype MInput).
      pose proof (C20_match_type f1 MOutput false B1 (or_intror eq_refl)) as P1.
      destruct (sm_match_type f1 MOutput false) as [t1| |]; try discriminate; try contradiction. cbn [rbind mtype_eqb].
      destruct (mtype_eqb t1 MOutput); cbn [andb]; eexists; split; try reflexivity; split; try reflexivity; auto. }
    destruct MT as (mt & EM & EM3 & M).
    pose proof (match_type_ok f1 f2 mt B1 B2 EM) as (_ & M1 & _).
    assert (S1 : mt = MBoth -> forall s, StronglySorted le (map ol (trs_of f1 s))) by (intros ->; apply M1; discriminate).
    destruct (plain_value L comm f1 f3 flt mt fuel conn) as (p & Ep & Rp); auto.
    { split; [|split; [|split; [|split; [|split]]]]; auto; [apply spelled_cnt|apply spelled_closed; auto|apply spelled_bits]. }
    { unfold f3. rewrite spelled_num. auto. }
    unfold sigma_compose. replace (negb (sigma_new_ok MInput (Lab (sc_label sc)))) with false by (destruct (sc_label sc); [contradiction|reflexivity]).
    unfold sigma_match_type. rewrite T2. cbn [rbind mtype_eqb]. rewrite EM.
    pose (U := valid f1 f2).
    assert (US : forall t, gcompute_start SF f1 f2 = Ok (Some t) -> U t).
    { intros t. unfold gcompute_start. destruct (vstart f1) as [s1|] eqn:E1; [|discriminate]. destruct (vstart f2) as [s2|] eqn:E2; [|discriminate]. intros [= <-].
      split; [cbn; lia|]. split; [apply D1; auto|apply D2; auto]. }
    assert (UV : forall t, U t -> exists l, sigma_trs sc flt mt f1 f2 t = Ok l /\ forall u, In u l -> U (tn u)).
    { intros [[fs s1] s2] (Hfs & H1 & H2). cbn [fst snd] in *. 
      destruct (sigma_trs_ok sc flt f1 f2 mt C1 C2 D1 D2 G0 NW M S1 S2 fs s1 s2 H1 H2) as (ps & d & E & P). eexists. split; [exact E|].
      intros u Hu. apply in_flat_map in Hu as (q & Hq & Hu). apply (Permutation_in _ P) in Hq.
      destruct (pair_out sc flt f1 f2 D1 D2 fs s1 s2 d q H1 H2 Hq) as (o & Eo & V). unfold gone in Hu. rewrite Eo in Hu. destruct o; [|destruct Hu]. destruct Hu as [<-|[]]. apply V. auto. }
    assert (UT : forall t l u, U t -> sigma_trs sc flt mt f1 f2 t = Ok l -> In u l -> U (tn u)).
    { intros t l u Ht El Hu. destruct (UV t Ht) as (l' & El' & Q). apply Q. congruence. }
    assert (LT : forall t, U t -> exists l, sigma_trs sc flt mt f1 f2 t = Ok l).
    { intros t Ht. destruct (UV t Ht) as (l' & El' & _). eauto. }
    assert (LS : exists o, gcompute_start SF f1 f2 = Ok o).
    { unfold gcompute_start. destruct (vstart f1); [|eauto]. destruct (vstart f2); eauto. }
    assert (LF : forall t, U t -> exists w, gcompute_final SF f1 f2 t = Ok w).
    { intros [[fs s1] s2] (Hfs & H1 & H2). cbn [fst snd] in *. unfold gcompute_final. rewrite !final_in by auto. cbn [rbind].
      destruct (fin_of f1 s1); [|eauto]. destruct (fin_of f2 s2); [|eauto]. cbn [SF sigma_cf cf_set base_cf]. rewrite set_state_eq by auto. cbn. eauto. }
    pose (eqs := gtuple_eqb_spec Nat.eqb Nat.eqb_spec).
    pose proof (table_spec (gtuple_eqb Nat.eqb) eqs _ _ (gcompute_final SF f1 f2) (compose_properties (vprops f1) (vprops f2)) U US UT) as SP.
    pose proof (table_live (gtuple_eqb Nat.eqb) _ _ (gcompute_final SF f1 f2) (compose_properties (vprops f1) (vprops f2)) U US LS LT LF) as LV.
    fold (sigma_op sc flt mt f1 f2) in SP, LV.
    assert (Z : zok vec_cache_ops vec_inv (tI (gtuple_eqb Nat.eqb) U) (tS (gcompute_start SF f1 f2)) (tT (sigma_trs sc flt mt f1 f2))
      (tF (gcompute_final SF f1 f2)) (bm_new, vec_cache_new)).
    { apply zok_empty; [apply tI_new|apply vec_cache_empty]. }
    destruct (compute_total (sigma_op sc flt mt f1 f2) vec_cache_ops vec_inv _ _ _ _ _ vec_cache_laws SP _ LV
      (length (all_tuples f1 f2)) (table_bound (gtuple_eqb Nat.eqb) U (all_tuples f1 f2) (all_tuples_in f1 f2)) fuel (visymt f1) (vosymt f2) _ Z) as ((g & z') & Eg).
    { rewrite all_tuples_len. auto. }
    rewrite Eg.
    destruct (compute_ok (sigma_op sc flt mt f1 f2) vec_cache_ops vec_inv _ _ _ _ _ vec_cache_laws SP
      fuel (visymt f1) (vosymt f2) _ g z' Z Eg) as (_ & _ & BU & SY).
    pose proof BU as (Cg & Dg & BS).
    assert (SY' : vstart f1 <> None -> vstart f2 <> None -> visymt g = visymt f1 /\ vosymt g = vosymt f2).
    { intros N1 N2. assert (N : vstart g <> None).
      { intros N. rewrite N in BS. destruct BS as [_ BS]. cbn in BS. unfold gcompute_start in BS.
        destruct (vstart f1); [|congruence]. destruct (vstart f2); [|congruence]. discriminate. }
      destruct (SY N) as (A & B & _). auto. }
    assert (R : forall k x z, rel (mach g) k x z = rel (mach p) k x z).
    { intros k x z. rewrite (built_rel _ _ _ _ g BU), <- Rp. unfold grel, both_starts, gcompute_start. change (vstart f3) with (vstart f2).
      destruct (vstart f1) as [s1|] eqn:E1; auto. destruct (vstart f2) as [s2|] eqn:E2; auto.
      apply (sigma_value sc flt f1 f2 mt); auto; [apply D1; auto|apply D2; auto]. }
    destruct conn.
    - destruct (connect_rel L g Cg Dg) as (h & Eh & Rh & Uh). rewrite Eh. exists h, p. split; auto. split; auto. split; [intros k x z; rewrite Rh; apply R|]. split; auto.
      destruct (connect_eq g Dg Cg) as (d & g1 & Ec & Ed & Sub & _). rewrite Ec in Eh. injection Eh as Eh.
      assert (S' : is_submachine g d h) by (rewrite <- Eh; exact Sub). intros N1 N2. destruct S' as (_ & _ & _ & -> & ->). auto.
    - exists g, p. split; auto. split; auto. split; auto. split; [discriminate|auto].
  Qed.

  (** With a filter that keeps each pair of paths once: the composition of the machines. *)
  Theorem C74_once :
    forall sc flt conn fuel f1 f2, ready2 f1 f2 -> has (vprops f2) I_LABEL_SORTED = true -> sc_label sc <> O -> ~ In (sc_label sc) (written f1) ->
    once_filter flt -> (3 * num_states f1 * num_states f2 <= fuel)%nat ->
    exists g, sigma_compose sc flt conn fuel f1 f2 = Some (Ok g) /\
      forall k x z, rel (mach g) k x z = sum_pairs f1 (spelled sc f1 f2) k x z (once flt k).
  Proof.
    intros sc flt conn fuel f1 f2 R SO G0 NW Hflt Hf. destruct (C74_sigma sc flt conn fuel f1 f2 R SO G0 NW Hf) as (g & p & Eg & Ep & Rg & _).
    exists g. split; auto. intros k x z. rewrite Rg. destruct R as (C1 & C2 & D1 & D2 & B1 & B2).
    pose proof (spelled_cnt sc f1 f2) as C3. pose proof (spelled_closed sc f1 f2 D2) as D3. pose proof (spelled_bits sc f1 f2) as B3. revert Ep C3 D3 B3.
    assert (Hf3 : (3 * num_states f1 * num_states (spelled sc f1 f2) <= fuel)%nat) by (rewrite spelled_num; auto). revert Hf3.
    generalize (spelled sc f1 f2) as f3. intros f3 Hf3 Ep C3 D3 B3.
    pose proof (compose_gen L comm f1 f3 flt C1 C3 D1 D3 B1 B3 conn fuel Hf3) as Y. rewrite Ep in Y. destruct Y as (_ & Y & _).
    rewrite Y. apply sum_pairs_ext. intros s1 s2 p1 p2 E1 E2 P1 P2.
    unfold both_starts. rewrite E1, E2. unfold once.
    transitivity (nmul (b2n (leqb (olabs p1) (ilabs p2) && Nat.eqb (span flt p1 p2) k)) (apw (mach f1) s1 p1 * apw (mach f3) s2 p2)).
    - apply (accepting L); auto. intros A1 A2. destruct Hflt as [->|[->| ->]]; cbn [span]; rewrite (Nat.eqb_sym _ k).
      + rewrite ways_seq by (auto; lia). unfold seq_ok. cbn [Nat.eqb orb]. rewrite andb_true_r. auto.
      + rewrite ways_alt by (auto; lia). unfold alt_ok. cbn [Nat.eqb orb]. rewrite andb_true_r. auto.
      + rewrite ways_match by (auto; lia). cbn [match_ok]. rewrite andb_true_r. auto.
    - apply (nmul_b2n L).
  Qed.

  (** Refused: epsilon as sigma label, and a second machine not known to be sorted on input. *)
  Theorem C74_refused :
    forall sc flt conn fuel f1 f2, bits_true f2 -> sc_label sc = O \/ has (vprops f2) I_LABEL_SORTED = false ->
    sigma_compose sc flt conn fuel f1 f2 = Some Err.
  Proof.
    intros sc flt conn fuel f1 f2 B2 H. unfold sigma_compose. destruct (sc_label sc) as [|n] eqn:E; auto. cbn [sigma_new_ok mtype_eqb negb andb qlab_eqb Nat.eqb].
    destruct H as [H|H]; [discriminate|]. unfold sigma_match_type, sm_match_type. cbn [mtype_eqb].
    destruct (knows _ _); cbn [rbind]; auto. rewrite !contains_1, H. destruct (has (vprops f2) NOT_I_LABEL_SORTED); auto.
  Qed.
End C74.
Print Assumptions C74_sigma.
Print Assumptions C74_once.
Print Assumptions C74_refused.

(** 1, 2 and 3 are written; 1 has its own transition, 9 is sigma and may stand for 1 and 2 only. *)
Definition c74_1 : list (op tropZ) :=
  [OAddStates 2; OSetStart 0; OSetFinal 1 (Some 1%Z : tropZ); OAddTr 0 (Tr 7 1 (Some 2%Z : tropZ) 1); OAddTr 0 (Tr 7 2 (Some 3%Z : tropZ) 1);
   OAddTr 0 (Tr 7 3 (Some 0%Z : tropZ) 1)].
Definition c74_2 : list (op tropZ) :=
  [OAddStates 3; OSetStart 0; OSetFinal 2 (Some 4%Z : tropZ); OAddTr 0 (Tr 1 5 (Some 6%Z : tropZ) 1); OAddTr 0 (Tr 9 9 (Some 1%Z : tropZ) 1);
   OAddTr 1 (Tr 0 8 (Some 2%Z : tropZ) 2)].
Definition c74_f1 : vfst tropZ := match run vnew c74_1 with Ok f => f | _ => vnew end.
Definition c74_f2 : vfst tropZ := match run vnew c74_2 with Ok f => f | _ => vnew end.
Definition c74_sc (m : rwmode) : sigcfg := SC 9 m (Some [1; 2]%nat).
Example C74_witness :
  ready2 c74_f1 c74_f2 /\ has (vprops c74_f2) I_LABEL_SORTED = true /\ ~ In 9%nat (written c74_f1) /\ once_filter AltSequenceF /\
  map (fun t => (il t, ol t)) (trs_of (spelled (c74_sc RwAlways) c74_f1 c74_f2) 0) = [(1, 5); (2, 2); (9, 9)]%nat /\
  exists g h, sigma_compose (c74_sc RwAlways) AltSequenceF true 18 c74_f1 c74_f2 = Some (Ok g) /\
    sigma_compose (c74_sc RwAuto) AltSequenceF true 18 c74_f1 c74_f2 = Some (Ok h) /\
    map (fun z => rel (mach g) 2 [7]%nat z) [[5; 8]; [2; 8]; [1; 8]; [3; 8]; [9; 8]]%nat = [Some 15%Z; Some 11%Z; None; None; None] /\
    map (fun z => rel (mach h) 2 [7]%nat z) [[5; 8]; [2; 8]; [1; 8]; [3; 8]; [9; 8]]%nat = [Some 15%Z; None; None; None; Some 11%Z].
Proof.
  assert (E1 : run vnew c74_1 = Ok c74_f1) by (vm_compute; reflexivity).
  assert (E2 : run vnew c74_2 = Ok c74_f2) by (vm_compute; reflexivity).
  split.
  { split; [refine (run_cnt tropZ_laws c74_1 vnew c74_f1 _ E1); constructor|].
    split; [refine (run_cnt tropZ_laws c74_2 vnew c74_f2 _ E2); constructor|].
    split; [apply closedb_ok; vm_compute; reflexivity|]. split; [apply closedb_ok; vm_compute; reflexivity|].
    split; [eapply (run_fsound tropZ_laws); [apply fsound_new| |exact E1]; vm_compute; tauto|].
    eapply (run_fsound tropZ_laws); [apply fsound_new| |exact E2]; vm_compute; tauto. }
  split; [vm_compute; reflexivity|]. split; [vm_compute; intuition discriminate|]. split; [right; left; reflexivity|]. split; [vm_compute; reflexivity|].
  do 2 eexists. split; [vm_compute; reflexivity|]. split; [vm_compute; reflexivity|]. split; vm_compute; reflexivity.
Qed.

(** A first machine that writes the sigma label is refused where it does. *)
Theorem C74_writes_sigma_refuted :
  ~ (forall sc flt conn fuel (f1 f2 : vfst tropZ), ready2 f1 f2 -> has (vprops f2) I_LABEL_SORTED = true -> sc_label sc <> O ->
     (3 * num_states f1 * num_states f2 <= fuel)%nat -> exists g, sigma_compose sc flt conn fuel f1 f2 = Some (Ok g)).
Proof.
  intros H. assert (X : ready2 c74_f1 c74_f2) by apply C74_witness. destruct X as (_ & C & _ & D & _ & B).
  destruct (H (c74_sc RwAuto) SequenceF true 27%nat c74_f2 c74_f2) as (g & E).
  - unfold ready2. auto 7.
  - vm_compute. reflexivity.
  - discriminate.
  - vm_compute. lia.
  - vm_compute in E. discriminate.
Qed.
Print Assumptions C74_writes_sigma_refuted.
