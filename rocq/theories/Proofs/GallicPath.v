(** From strings in the weights back to output labels: what the machine returned by [ungallic] denotes. *)
From Coq Require Import List Arith NArith Bool Lia.
From Verif Require Import Base.Util Base.Semiring Base.Machine Base.PathSum Base.PropSpec Model.Props Model.AlgoProps Model.VectorFst Model.History
  Model.BiMap Model.Lazy Model.Compose Model.TrMap Model.Weights Model.FactorWeight Model.ShortestDistance Model.Reweight Model.Gallic.
From Verif Require Import Proofs.VectorFacts Proofs.OpFacts Proofs.TrOpsFacts Proofs.ConnectFacts Proofs.RationalFacts Proofs.BiMapFacts Proofs.LazyFacts Proofs.TableFacts Proofs.ComposeFacts
  Proofs.BagFacts Proofs.TrMapFacts Proofs.ConvertFacts Proofs.FactorTable Proofs.FactorFacts Props.C31 Props.C39.
Import ListNotations.
Local Open Scope K_scope.

Section U.
  Context {K : SR} (L : lsr_laws K) (sp : svariant -> svariant -> svariant).
  Notation G := (gallic_of sp K).
  Context (LG : lsr_laws G).

  (** Every string is there and has no epsilon; transitions read what they write. *)
  Definition spelled (g : vfst G) : Prop :=
    (forall s t, In t (trs_of g s) -> il t = ol t /\ exists u v, wgt t = ((Some u, v) : G) /\ ~ In O u) /\
    (forall s w, fin_of g s = Some w -> exists u v, w = ((Some u, v) : G) /\ ~ In O u).

  Definition word (w : G) : list nat := match fst w with Some u => u | None => [] end.
  Definition lbl (w : G) : nat := hd O (word w).

  Definition ends (k : nat) (u : list nat) (c : K) (x y : list nat) : K :=
    if Nat.eqb k (length u) && isnil x && leqb u y then c else 0.

  Section M.
    Context (g : vfst G) (SG : spelled g) (CG : closed g).

    (** The weight of what is read and written from [q] with [u] still to be written, in [k] steps. *)
    Fixpoint val (k q : nat) (u x y : list nat) : K :=
      match fin_of g q with
      | Some w => ends k (u ++ word w) (snd w) x y
      | None => 0
      end +
      match k with
      | O => 0
      | S k' => ksum (map (fun t => off (il t) (hd O (u ++ word (wgt t))) (snd (wgt t)) (val k' (ns t) (tl (u ++ word (wgt t)))) x y) (trs_of g q))
      end.

    (** The number of steps after the last transition of a path. *)
    Fixpoint tail (q : nat) (u : list nat) (p : list (tr G)) : nat :=
      match p with
      | [] => length (u ++ match fin_of g q with Some w => word w | None => [] end)
      | t :: p' => tail (ns t) (tl (u ++ word (wgt t))) p'
      end.
    Definition part (k q : nat) (u x y : list nat) (p : list (tr G)) : K :=
      match apw (mach g) q p with
      | (Some z, c) => if leqb (ilabs p) x && leqb (u ++ z) y && Nat.eqb (length p + tail q u p) k then c else 0
      | (None, _) => 0
      end.

    Lemma apw_cons q t p : apw (mach g) q (t :: p) = wgt t * apw (mach g) (ns t) p.
    Proof. unfold apw. cbn [pw dst]. symmetry. apply (ktimes_assoc _ LG). Qed.
    Lemma apw_nil q : apw (mach g) q [] = fw (fin_of g q).
    Proof. unfold apw. cbn [pw dst]. apply (ktimes_1_l _ LG). Qed.

    Lemma lab_hd u : ~ In O u -> (lab (hd O u) ++ tl u)%list = u.
    Proof. destruct u as [|a u]; auto. cbn [hd tl In]. intros H. unfold lab. destruct (Nat.eqb_spec a 0); [subst; tauto|auto]. Qed.

    Lemma part_nil k q u x y : part k q u x y [] = match fin_of g q with Some w => ends k (u ++ word w) (snd w) x y | None => 0 end.
    Proof.
      unfold part. rewrite apw_nil. unfold tail. destruct (fin_of g q) as [w|] eqn:E; cbn [fw].
      - destruct (proj2 SG q w E) as (z & c & -> & _). unfold ends, word. cbn [fst snd ilabs flat_map length plus].
        rewrite leqb_nil, (Nat.eqb_sym k). destruct (isnil x); cbn [andb]; [|rewrite andb_false_r; auto].
        destruct (leqb (u ++ z) y); cbn [andb]; rewrite ?andb_true_r, ?andb_false_r; auto.
      - reflexivity.
    Qed.
    Lemma part_cons_O q u x y t p : part O q u x y (t :: p) = 0.
    Proof. unfold part. destruct (apw (mach g) q (t :: p)) as [[z|] c]; auto. cbn [length Nat.add Nat.eqb]. rewrite andb_false_r. auto. Qed.
    Lemma part_cons k q u x y t p : ~ In O u -> In t (trs_of g q) ->
      part (S k) q u x y (t :: p) = off (il t) (hd O (u ++ word (wgt t))) (snd (wgt t)) (fun x y => part k (ns t) (tl (u ++ word (wgt t))) x y p) x y.
    Proof.
      intros Hu Ht. unfold part. rewrite apw_cons. destruct (proj1 SG q t Ht) as (_ & a & c & Ea & Na). rewrite Ea.
      cbn [tail length plus Nat.eqb ilabs flat_map]. rewrite Ea. unfold word. cbn [fst snd]. fold (ilabs p).
      destruct (apw (mach g) (ns t) p) as [[z|] d] eqn:Ep; unfold off; cbn [ktimes gallic_of fst snd sv_times].
      2: { destruct (strip (il t) x); auto. destruct (strip _ y); auto. symmetry. apply (ktimes_0_r _ L). }
      rewrite leqb_strip. destruct (strip (il t) x) as [x'|]; auto.
      assert (N : ~ In O (u ++ a)) by (rewrite in_app_iff; tauto).
      replace (u ++ (a ++ z))%list with (lab (hd O (u ++ a)) ++ (tl (u ++ a) ++ z))%list
        by (rewrite app_assoc, (lab_hd _ N), app_assoc; auto).
      rewrite leqb_strip. destruct (strip (hd O (u ++ a)) y) as [y'|]; [|rewrite andb_false_r; auto].
      destruct (leqb (ilabs p) x' && leqb (tl (u ++ a) ++ z) y' && _); auto. symmetry. apply (ktimes_0_r _ L).
    Qed.

    Lemma tl_no_eps u w : ~ In O u -> ~ In O w -> ~ In O (tl (u ++ w)).
    Proof.
      intros A B H. assert (X : In O (u ++ w)) by (destruct (u ++ w)%list; [destruct H|right; auto]).
      apply in_app_or in X. tauto.
    Qed.

    Theorem val_paths : forall k q u x y, ~ In O u ->
      val k q u x y = ksum (map (fun i => ksum (map (part k q u x y) (paths (mach g) i q))) (seq 0 (S k))).
    Proof.
      induction k as [|k IH]; intros q u x y Hu.
      - cbn [val seq map ksum paths]. rewrite part_nil, !(kplus_0_r L). auto.
      - rewrite ksum_seq_S. cbn [paths map ksum]. rewrite part_nil, (kplus_0_r L). cbn [val]. f_equal.
        transitivity (ksum (map (fun t => ksum (map (fun i => ksum (map (fun p => part (S k) q u x y (t :: p)) (paths (mach g) i (ns t)))) (seq 0 (S k)))) (trs_of g q))).
        + apply ksum_map_ext. intros t Ht. destruct (proj1 SG q t Ht) as (_ & a & c & Ea & Na).
          rewrite (off_ext _ _ _ _ (fun x y => ksum (map (fun i => ksum (map (part k (ns t) (tl (u ++ word (wgt t))) x y) (paths (mach g) i (ns t)))) (seq 0 (S k))))).
          2: { intros x' y'. apply IH. apply tl_no_eps; auto. rewrite Ea. auto. }
          rewrite (off_sum L). apply ksum_map_ext. intros i _. rewrite (off_sum L _ _ _ (fun p x y => part k (ns t) (tl (u ++ word (wgt t))) x y p)).
          apply ksum_map_ext. intros p _. symmetry. apply part_cons; auto.
        + rewrite (ksum_swap L). apply ksum_map_ext. intros i _. cbn [mach mtrs].
          generalize (trs_of g q). intros l. induction l as [|t l IHl]; cbn [map flat_map ksum]; auto.
          rewrite map_app, (ksum_app L), IHl, map_map. auto.
    Qed.

    (** ** The elements of the factored machine *)
    Notation opts := (FWO (K := G) true true (fun w => w) 0 0 false false).
    Notation FI := (gallicFI_of sp K).
    Notation ttrs := (fw_trs FI opts g).
    Notation tfin := (fw_fin FI opts g).

    Definition elt_ok (e : element G) : Prop :=
      (exists u, snd e = ((Some u, 1) : G) /\ ~ In O u) /\ valid_elt g e.

    Lemma fw_tr_one u t : In t (trs_of g u) -> forall a,
      fw_tr FI opts ((Some a, 1) : G) t =
        [TT (il t) (ol t) ((Some (firstn 1 (a ++ word (wgt t))), snd (wgt t)) : G) (Some (ns t), ((Some (tl (a ++ word (wgt t))), 1) : G))].
    Proof.
      intros Ht a. destruct (proj1 SG u t Ht) as (_ & b & c & Eb & _). unfold fw_tr. cbn [fw_arc negb orb]. rewrite Eb. unfold word. cbn [fst snd ktimes gallic_of sv_times].
      rewrite (ktimes_1_l _ L). destruct (a ++ b)%list as [|i [|j l]]; reflexivity.
    Qed.
    Definition fin_list (w : G) : list (ttr G (element G)) :=
      match fst w with
      | Some (a :: b :: l) => [TT O O ((Some [a], snd w) : G) (None, ((Some (b :: l), 1) : G))]
      | _ => []
      end.
    Lemma fin_items_list w : fin_items FI opts w = fin_list w.
    Proof. destruct w as [[[|a [|b l]]|] c]; reflexivity. Qed.
    Definition fin_opt (w : G) : option G :=
      match fst w with Some [] => Some w | Some [a] => Some w | _ => None end.
    Lemma fin_at_none w : (fst w <> None) -> fin_at tfin (None, w) = fin_opt w.
    Proof. destruct w as [[[|a [|b l]]|] c]; intros H; try reflexivity. destruct H; auto. Qed.

    Lemma trs_at_some q a : (q < num_states g)%nat ->
      trs_at ttrs (Some q, ((Some a, 1) : G)) =
        (map (fun t => TT (il t) (ol t) ((Some (firstn 1 (a ++ word (wgt t))), snd (wgt t)) : G) (Some (ns t), ((Some (tl (a ++ word (wgt t))), 1) : G))) (trs_of g q)
         ++ match fin_of g q with Some z => fin_list ((Some (a ++ word z), snd z) : G) | None => [] end)%list.
    Proof.
      intros H. rewrite trs_some by auto. f_equal.
      - assert (X : forall t, In t (trs_of g q) -> In t (trs_of g q)) by auto. revert X. generalize (trs_of g q) at 1 3 4.
        induction l as [|t l IH]; intros X; auto. cbn [flat_map map]. rewrite (fw_tr_one q t) by (apply X; simpl; auto).
        rewrite IH by (intros; apply X; simpl; auto). reflexivity.
      - destruct (fin_of g q) as [z|] eqn:E; auto. rewrite fin_items_list. destruct (proj2 SG q z E) as (b & c & -> & _). unfold word. cbn [fst snd ktimes gallic_of sv_times].
        rewrite (ktimes_1_l _ L). auto.
    Qed.
    Lemma fin_at_some q a : (q < num_states g)%nat ->
      fin_at tfin (Some q, ((Some a, 1) : G)) = match fin_of g q with Some z => fin_opt ((Some (a ++ word z), snd z) : G) | None => None end.
    Proof.
      intros H. rewrite (fin_some LG) by auto. destruct (fin_of g q) as [z|] eqn:E; auto. rewrite fin_at_none.
      - destruct (proj2 SG q z E) as (b & c & -> & _). unfold word. cbn [fst snd ktimes gallic_of sv_times]. rewrite (ktimes_1_l _ L). auto.
      - destruct (proj2 SG q z E) as (b & c & -> & _). discriminate.
    Qed.
    Lemma trs_at_none a : trs_at ttrs (None, ((Some a, 1) : G)) = fin_list ((Some a, 1) : G).
    Proof. rewrite trs_none. apply fin_items_list. Qed.

    Lemma elt_ok_tl u w : ~ In O u -> ~ In O w -> ~ In O (tl (u ++ w)).
    Proof. apply tl_no_eps. Qed.

    Lemma fin_list_in (w : G) a c t : w = ((Some a, c) : G) -> ~ In O a -> In t (fin_list w) ->
      ti t = O /\ to t = O /\ (exists i, tw t = ((Some [i], c) : G) /\ i <> O) /\ elt_ok (tn t) /\ fst (tn t) = None /\ S (length (word (snd (tn t)))) = length a.
    Proof.
      intros -> Na. destruct a as [|i [|j l]]; cbn; try tauto. intros [<-|[]]. cbn in Na |- *. repeat split; auto.
      - exists i. split; auto.
      - exists (j :: l). cbn. split; auto; tauto.
    Qed.

    (** One step from an element in order. *)
    Lemma step_ok e l t : elt_ok e -> ttrs e = Ok l -> In t l ->
      ti t = to t /\ (exists u c, tw t = ((Some u, c) : G) /\ (length u <= 1)%nat /\ ~ In O u) /\ elt_ok (tn t).
    Proof.
      destruct e as [o w]. intros ((a & Ea & Na) & V) El Ht. cbn [snd] in Ea. subst w.
      assert (I : In t (trs_at ttrs (o, ((Some a, 1) : G)))) by (unfold trs_at; rewrite El; auto).
      assert (FL : forall w b c, w = ((Some b, c) : G) -> ~ In O b -> In t (fin_list w) ->
        ti t = to t /\ (exists u c, tw t = ((Some u, c) : G) /\ (length u <= 1)%nat /\ ~ In O u) /\ elt_ok (tn t)).
      { intros w b c Ew Nb H. destruct (fin_list_in w b c t Ew Nb H) as (-> & -> & (i & -> & Hi) & E & _). split; auto. split; auto.
        exists [i], c. cbn. split; auto. split; auto. intuition. }
      destruct o as [q|].
      - unfold valid_elt in V. cbn in V. rewrite trs_at_some in I by auto. apply in_app_or in I as [I|I].
        + apply in_map_iff in I as (t0 & <- & H0). destruct (proj1 SG q t0 H0) as (E & b & c & Eb & Nb). cbn [ti to tw tn]. rewrite Eb. unfold word. cbn [fst snd].
          split; auto. split.
          * exists (firstn 1 (a ++ b)), c. split; auto. split; [rewrite firstn_length; lia|].
            intros X. assert (Y : In O (a ++ b)) by (destruct (a ++ b)%list; [destruct X|cbn in X; left; tauto]). apply in_app_or in Y. tauto.
          * split; [|exact (proj1 CG q t0 H0)]. exists (tl (a ++ b)). split; auto. apply tl_no_eps; auto.
        + destruct (fin_of g q) as [z|] eqn:E; [|destruct I]. destruct (proj2 SG q z E) as (b & c & -> & Nb). unfold word in I. cbn [fst snd] in I.
          apply (FL _ (a ++ b)%list c) in I; auto. rewrite in_app_iff. tauto.
      - rewrite trs_at_none in I. apply (FL _ a 1) in I; auto.
    Qed.
    Lemma fin_ok e w : elt_ok e -> tfin e = Ok (Some w) -> exists u c, w = ((Some u, c) : G) /\ (length u <= 1)%nat /\ ~ In O u.
    Proof.
      destruct e as [o v]. intros ((a & Ea & Na) & V) El. cbn [snd] in Ea. subst v.
      assert (E : fin_at tfin (o, ((Some a, 1) : G)) = Some w) by (unfold fin_at; rewrite El; auto).
      assert (FO : forall b c, ~ In O b -> fin_opt ((Some b, c) : G) = Some w -> exists u c, w = ((Some u, c) : G) /\ (length u <= 1)%nat /\ ~ In O u).
      { intros [|i [|j l]] c Nb; cbn; try discriminate; intros [= <-]; eexists; eexists; (split; [reflexivity|]); split; auto. }
      destruct o as [q|].
      - unfold valid_elt in V. cbn in V. rewrite fin_at_some in E by auto. destruct (fin_of g q) as [z|] eqn:Ez; [|discriminate].
        destruct (proj2 SG q z Ez) as (b & c & -> & Nb). unfold word in E. cbn [fst snd] in E. eapply FO; [|exact E]. rewrite in_app_iff. tauto.
      - rewrite fin_at_none in E by discriminate. eapply FO; eauto.
    Qed.
    Lemma start_ok e : fw_start g = Ok (Some e) -> elt_ok e.
    Proof.
      unfold fw_start. destruct (vstart g) as [s|] eqn:E; [|discriminate]. intros [= <-]. split; [exists []; auto|]. exact (proj2 CG s E).
    Qed.

    (** ** What an element denotes *)
    Definition sem (k : nat) (e : element G) (x y : list nat) : K :=
      match fst e with
      | Some q => val k q (word (snd e)) x y
      | None => ends k (word (snd e)) (snd (snd e)) x y
      end.
    Definition last (k : nat) (o : option G) (x y : list nat) : K :=
      match o with
      | Some w => match fst w with
                  | Some [a] => off O a (snd w) (fun x y => if Nat.eqb k 0 && isnil x && isnil y then 1 else 0) x y
                  | _ => 0
                  end
      | None => 0
      end.
    Definition now (o : option G) (x y : list nat) : K :=
      match o with
      | Some w => match fst w with Some [] => if isnil x && isnil y then snd w else 0 | _ => 0 end
      | None => 0
      end.
    Definition move (k : nat) (t : ttr G (element G)) (x y : list nat) : K := off (ti t) (lbl (tw t)) (snd (tw t)) (sem k (tn t)) x y.

    Lemma ends_O u c x y : ends O u c x y = now (fin_opt ((Some u, c) : G)) x y.
    Proof. unfold ends, now, fin_opt. destruct u as [|a [|b u]]; cbn [fst snd length Nat.eqb andb]; auto. rewrite leqb_nil. auto. Qed.
    Lemma ends_S k u c x y : ~ In O u ->
      ends (S k) u c x y = ksum (map (fun t => move k t x y) (fin_list ((Some u, c) : G))) + last k (fin_opt ((Some u, c) : G)) x y.
    Proof.
      intros N. unfold ends, last, fin_opt, fin_list. destruct u as [|a [|b u]]; cbn [fst snd length Nat.eqb andb map ksum].
      - symmetry. apply (kplus_0_l _ L).
      - rewrite (kplus_0_l _ L). unfold off. change (strip 0 x) with (Some x).
        replace (leqb [a] y) with (leqb (lab a ++ []) y) by (unfold lab; destruct (Nat.eqb_spec a 0); [subst; cbn in N; tauto|auto]).
        rewrite leqb_strip. destruct (strip a y) as [y'|]; [|rewrite andb_false_r; auto]. rewrite leqb_nil.
        destruct (_ && _ && _); [symmetry; apply (ktimes_1_r _ L)|symmetry; apply (ktimes_0_r _ L)].
      - rewrite !(kplus_0_r L). unfold move, off, lbl, word. cbn [ti to tw tn fst snd hd]. change (strip 0 x) with (Some x).
        replace (leqb (a :: b :: u) y) with (leqb (lab a ++ (b :: u)) y) by (unfold lab; destruct (Nat.eqb_spec a 0); [subst; cbn in N; tauto|auto]).
        rewrite leqb_strip. destruct (strip a y) as [y'|]; [|rewrite andb_false_r; auto].
        unfold sem, ends, word. cbn [fst snd length]. destruct (_ && _ && _); [symmetry; apply (ktimes_1_r _ L)|symmetry; apply (ktimes_0_r _ L)].
    Qed.

    Lemma sem_O e x y : elt_ok e -> sem O e x y = now (fin_at tfin e) x y.
    Proof.
      destruct e as [o w]. intros ((a & Ea & Na) & V). cbn [snd] in Ea. subst w. unfold sem, word. cbn [fst snd]. destruct o as [q|].
      - cbn [val]. rewrite (kplus_0_r L), fin_at_some by exact V. destruct (fin_of g q) as [z|]; auto. apply ends_O.
      - rewrite fin_at_none by discriminate. apply ends_O.
    Qed.
    Lemma sem_S k e x y : elt_ok e -> sem (S k) e x y = ksum (map (fun t => move k t x y) (trs_at ttrs e)) + last k (fin_at tfin e) x y.
    Proof.
      destruct e as [o w]. intros ((a & Ea & Na) & V). cbn [snd] in Ea. subst w. unfold sem at 1, word at 1. cbn [fst snd]. destruct o as [q|].
      - cbn [val]. rewrite trs_at_some, fin_at_some by exact V. rewrite map_app, (ksum_app L), map_map, <- (kplus_assoc _ L), (kplus_comm _ L). f_equal.
        + apply ksum_map_ext. intros t Ht. unfold move, sem, lbl, word. cbn [ti to tw tn fst snd]. f_equal. destruct (a ++ _)%list; auto.
        + destruct (fin_of g q) as [z|] eqn:Ez; [|cbn; symmetry; apply (kplus_0_r L)]. apply ends_S.
          destruct (proj2 SG q z Ez) as (b & c & -> & Nb). unfold word. cbn. rewrite in_app_iff. tauto.
      - rewrite trs_at_none, fin_at_none by discriminate. apply ends_S. auto.
    Qed.

    (** ** The result *)
    Definition ftr (t : tr G) : tr K := Tr (il t) (lbl (wgt t)) (snd (wgt t)) (ns t).
    Definition ffin (w : G) : TrMap.ftr K := FT O (lbl w) (snd w).

    Lemma extract_ok (u : list nat) c : (length u <= 1)%nat -> extract_gallic sp ((Some u, c) : G) = Ok (c, hd O u).
    Proof. destruct u as [|a [|b u]]; cbn; auto; lia. Qed.

    Context (h : vfst G) (z : bimap (element G) * map_cache G) (B : built (tS (fw_start g)) (tT ttrs) (tF tfin) h z)
      (ZU : forall e, In e (id_to_tuple (fst z)) -> elt_ok e).

    Notation tup b i := (nth_error (id_to_tuple b) i).
    Lemma tup_ok s e : tup (fst z) s = Some e -> elt_ok e.
    Proof. intros H. apply ZU. eapply nth_error_In; eauto. Qed.

    Lemma h_tr s t : In t (trs_of h s) -> il t = ol t /\ exists u c, wgt t = ((Some u, c) : G) /\ (length u <= 1)%nat /\ ~ In O u.
    Proof.
      intros Ht. pose proof B as (_ & _ & B'). destruct (vstart h) as [s0|] eqn:E.
      - destruct B' as (_ & _ & BA & BN).
        assert (D : il t = ol t /\ (exists u c, wgt t = ((Some u, c) : G) /\ (length u <= 1)%nat /\ ~ In O u) \/
                    ~ (il t = ol t /\ (exists u c, wgt t = ((Some u, c) : G) /\ (length u <= 1)%nat /\ ~ In O u))).
        { destruct (Nat.eq_dec (il t) (ol t)) as [E1|E1]; [|right; tauto]. destruct (wgt t) as [[u|] c] eqn:Ew.
          - destruct (le_dec (length u) 1) as [E2|E2]; [|right; intros (_ & u' & c' & [= -> ->] & ? & _); lia].
            destruct (in_dec Nat.eq_dec O u) as [E3|E3]; [right; intros (_ & u' & c' & [= -> ->] & _ & ?); tauto|]. left. split; auto. exists u, c. auto.
          - right. intros (_ & u' & c' & X & _). discriminate. }
        destruct D as [D|D]; auto. exfalso.
        assert (NA : ~ accessible (mach h) s).
        { intros A. apply D. destruct (BA s A) as ((e & l & N & El & F2) & _).
          destruct (Forall2_in_l _ _ _ _ F2 Ht) as (v & Hv & (I1 & I2 & I3 & _)).
          destruct (step_ok e l v (tup_ok _ _ N) El Hv) as (E1 & E2 & _). rewrite I1, I2, I3. auto. }
        rewrite (proj1 (BN s NA)) in Ht. destruct Ht.
      - destruct B' as [Z _]. unfold trs_of in Ht. rewrite Z in Ht. destruct s; destruct Ht.
    Qed.
    Lemma h_fin s w : fin_of h s = Some w -> exists u c, w = ((Some u, c) : G) /\ (length u <= 1)%nat /\ ~ In O u.
    Proof.
      intros Hw. pose proof B as (_ & _ & B'). destruct (vstart h) as [s0|] eqn:E.
      - destruct B' as (_ & _ & BA & BN).
        assert (D : (exists u c, w = ((Some u, c) : G) /\ (length u <= 1)%nat /\ ~ In O u) \/
                    ~ (exists u c, w = ((Some u, c) : G) /\ (length u <= 1)%nat /\ ~ In O u)).
        { destruct w as [[u|] c] eqn:Ew.
          - destruct (le_dec (length u) 1) as [E2|E2]; [|right; intros (u' & c' & [= -> ->] & ? & _); lia].
            destruct (in_dec Nat.eq_dec O u) as [E3|E3]; [right; intros (u' & c' & [= -> ->] & _ & ?); tauto|]. left. exists u, c. auto.
          - right. intros (u' & c' & X & _). discriminate. }
        destruct D as [D|D]; auto. exfalso.
        assert (NA : ~ accessible (mach h) s).
        { intros A. apply D. destruct (BA s A) as (_ & (e & N & El)). rewrite Hw in El. exact (fin_ok e w (tup_ok _ _ N) El). }
        rewrite (proj2 (BN s NA)) in Hw. discriminate.
      - destruct B' as [Z _]. unfold fin_of in Hw. rewrite Z in Hw. destruct s; discriminate.
    Qed.

    Notation mu := (from_gallic sp (K := K) O).
    Lemma visits : mapl (visit mu) tt (content h) = Ok (tt, map (fun c => (map ftr (fst c), option_map ffin (snd c))) (content h)).
    Proof.
      apply mapl_pure. intros c Hc. unfold content in Hc. apply in_map_iff in Hc as (s & <- & _). unfold visit, cont. cbn [fst snd].
      rewrite (mapl_pure _ ftr).
      - destruct (fin_of h s) as [w|] eqn:E; auto. destruct (h_fin s w E) as (u & c & -> & Hu & _). cbn [m_fin from_gallic fwt fil fol].
        rewrite (extract_ok u c Hu). cbn [Nat.eqb negb fst snd andb]. unfold ffin, lbl, word. cbn [fst snd option_map].
        destruct (Nat.eqb (hd O u) 0); auto.
      - intros t Ht. destruct (h_tr s t Ht) as (E & u & c & Ew & Hu & _). cbn [m_tr from_gallic]. rewrite Ew, (extract_ok u c Hu). cbn [rbind fst snd].
        rewrite E, Nat.eqb_refl. cbn [negb]. unfold ftr, lbl, word. rewrite Ew, E. auto.
    Qed.

    Lemma convert_back : vstart h <> None -> exists r, weight_convert mu h tt = Ok (r, tt) /\ cnt r /\ closed r /\
      vstart r = vstart h /\ visymt r = visymt h /\ vosymt r = vosymt h /\
      (forall k s e x y, accessible (mach h) s -> tup (fst z) s = Some e -> wt (mach r) k s x y = sem k e x y) /\
      (forall s, (s < num_states h)%nat -> trs_of r s = (map ftr (trs_of h s) ++
         match fin_of h s with Some w => if Nat.eqb (lbl w) 0 then [] else [Tr O (lbl w) (snd w) (num_states h)] | None => [] end)%list) /\
      (forall s, (num_states h <= s)%nat -> trs_of r s = []).
    Proof.
      intros NS. pose proof B as (_ & CH & B'). pose proof (C31_weight_convert mu h tt CH) as T. cbv zeta in T.
      destruct (vstart h) as [s0|] eqn:V0; [|congruence]. rewrite visits in T. cbn [m_action from_gallic is_no is_allow is_require andb orb] in T.
      set (out := map _ (content h)) in T. set (super := existsb final_labelled out) in T.
      destruct T as (r & E & C & R1 & R2 & R3 & R4 & R5 & R6 & _). exists r. split; auto. split; auto.
      assert (CT : forall s, (s < num_states h)%nat -> cont r s = converted MapAllowSuperfinal (num_states h) (map ftr (trs_of h s), option_map ffin (fin_of h s))).
      { intros s Hs. apply R5. unfold out. rewrite nth_error_map, content_nth by auto. auto. }
      assert (SUP : forall s w, fin_of h s = Some w -> lbl w <> O -> super = true).
      { intros s w Hw Hl. apply existsb_exists. exists (map ftr (trs_of h s), option_map ffin (fin_of h s)). split.
        - unfold out. apply in_map_iff. exists (cont h s). split; auto. unfold content. apply in_map. apply in_seq.
          destruct (Nat.lt_ge_cases s (num_states h)); [lia|]. rewrite fin_of_beyond in Hw by auto. discriminate.
        - unfold final_labelled. cbn [snd]. rewrite Hw. cbn [option_map]. unfold labelled, ffin. cbn [fil fol Nat.eqb negb orb]. apply negb_true_iff, Nat.eqb_neq. auto. }
      assert (TR : forall s, (s < num_states h)%nat -> trs_of r s = (map ftr (trs_of h s) ++
         match fin_of h s with Some w => if Nat.eqb (lbl w) 0 then [] else [Tr O (lbl w) (snd w) (num_states h)] | None => [] end)%list /\
         fin_of r s = match fin_of h s with Some w => if Nat.eqb (lbl w) 0 then Some (snd w) else None | None => None end).
      { intros s Hs. specialize (CT s Hs). unfold cont, converted in CT. cbn [fst snd] in CT.
        destruct (fin_of h s) as [w|]; cbn [option_map] in CT.
        - unfold labelled, ffin in CT. cbn [fil fol fwt Nat.eqb negb orb] in CT. destruct (Nat.eqb (lbl w) 0); cbn [negb] in CT; injection CT as -> ->; auto.
          rewrite app_nil_r. auto.
        - injection CT as -> ->. rewrite app_nil_r. auto. }
      assert (LST : super = true -> trs_of r (num_states h) = [] /\ fin_of r (num_states h) = Some 1).
      { intros S. specialize (R6 S). unfold cont in R6. injection R6 as -> ->. auto. }
      assert (BEY : forall s, (num_states h <= s)%nat -> trs_of r s = []).
      { intros s Hs. destruct super eqn:ES; [|rewrite trs_of_oob by lia; auto]. destruct (Nat.eq_dec s (num_states h)) as [->|N].
        - apply (LST eq_refl). - rewrite trs_of_oob by lia. auto. }
      split; [|split; [auto|split; [auto|split; [auto|split; [|split; [intros s Hs; apply (TR s Hs)|exact BEY]]]]]].
      - split.
        + intros s t Ht. rewrite R4. destruct (Nat.lt_ge_cases s (num_states h)) as [Hs|Hs].
          * rewrite (proj1 (TR s Hs)) in Ht. apply in_app_or in Ht as [Ht|Ht].
            -- apply in_map_iff in Ht as (u & <- & Hu). cbn [ftr ns]. pose proof (proj1 CH s u Hu). lia.
            -- destruct (fin_of h s) as [w|] eqn:Ew; [|destruct Ht]. destruct (Nat.eqb_spec (lbl w) 0) as [|Hl]; [destruct Ht|].
               rewrite (SUP s w Ew Hl). destruct Ht as [<-|[]]. cbn. lia.
          * rewrite BEY in Ht by auto. destruct Ht.
        + intros s Es. rewrite R1 in Es. injection Es as <-. rewrite R4. pose proof (proj2 CH s0 V0). lia.
      - assert (WL : forall k x y, super = true -> wt (mach r) k (num_states h) x y = if Nat.eqb k 0 && isnil x && isnil y then 1 else 0).
        { intros k x y S. destruct (LST S) as [T F]. destruct k; cbn [wt mach mtrs mfin]; rewrite ?T, ?F; auto. }
        destruct B' as (_ & _ & BA & _).
        induction k as [|k IH]; intros s e x y A N; pose proof (tup_ok _ _ N) as OK; destruct (BA s A) as ((e1 & l & N1 & El & F2) & (e2 & N2 & Ef));
          (assert (e1 = e) as -> by congruence); (assert (e2 = e) as -> by congruence);
          (assert (Hs : (s < num_states h)%nat) by (destruct A as (s1 & Es1 & Rs1); apply (reach_lt h s1 s CH Rs1); apply (proj2 CH); exact Es1));
          destruct (TR s Hs) as [T F]; cbn [wt mach mtrs mfin].
        + rewrite F, sem_O by auto. unfold fin_at. rewrite Ef. unfold now. destruct (fin_of h s) as [w|] eqn:Ew; [|cbn; destruct (isnil x && isnil y); auto].
          destruct (h_fin s w Ew) as (u & c & -> & Hu & Nu). unfold lbl, word. cbn [fst snd].
          destruct u as [|a [|b u]]; cbn [hd Nat.eqb fw]; [auto| |cbn in Hu; lia]. destruct (Nat.eqb_spec a 0); [subst; cbn in Nu; tauto|].
          cbn. destruct (isnil x && isnil y); auto.
        + rewrite T, map_app, (ksum_app L), sem_S by auto. unfold trs_at, fin_at. rewrite El, Ef. f_equal.
          * assert (AT : forall v, In v (trs_of h s) -> accessible (mach h) (ns v)).
            { intros v Hv. destruct A as (s1 & E1 & R). exists s1. split; auto. eapply reach_snoc; eauto. }
            rewrite map_map. revert F2 AT. generalize (trs_of h s). clear -IH. intros m F2 AT.
            induction F2 as [|v w m l (H1 & H2 & H3 & H4) F2 IHF]; cbn [map ksum]; auto.
            rewrite IHF by (intros; apply AT; simpl; auto). f_equal. unfold move, off, ftr. cbn [il ol wgt ns]. rewrite H1, H3.
            destruct (strip (ti w) x); auto. destruct (strip _ y); auto. f_equal. apply IH; auto. apply AT. simpl; auto.
          * unfold last. destruct (fin_of h s) as [w|] eqn:Ew; [|auto].
            destruct (h_fin s w Ew) as (u & c & -> & Hu & Nu).
            destruct u as [|a [|b u]]; cbn [fst snd]; [auto| |cbn in Hu; lia].
            assert (Na : a <> O) by (intros ->; cbn in Nu; tauto).
            assert (S : super = true) by (apply (SUP s _ Ew); auto).
            unfold lbl, word. cbn [fst snd hd]. rewrite (proj2 (Nat.eqb_neq _ _) Na). cbn [map ksum il ol wgt ns]. rewrite (kplus_0_r L).
            unfold off. destruct (strip 0 x); auto. destruct (strip a y); auto. rewrite (WL k _ _ S). auto.
    Qed.
  End M.

  Notation opts := (FWO (K := G) true true (fun w => w) 0 0 false false).
  Notation FI := (gallicFI_of sp K).

  Theorem ungallic_rel (g : vfst G) fuel r : spelled g -> closed g -> ungallic sp fuel g = Some (Ok r) ->
    closed r /\ cnt r /\
    (vstart g <> None -> vstart r <> None /\ visymt r = visymt g /\ vosymt r = vosymt g) /\ (vstart g = None -> r = vnew) /\
    forall k x y, rel (mach r) k x y =
      match vstart g with
      | None => 0
      | Some s => ksum (map (fun i => ksum (map (part g k s [] x y) (paths (mach g) i s))) (seq 0 (S k)))
      end.
  Proof.
    intros SG CG. unfold ungallic. destruct (factor_weight FI opts g fuel) as [[h| |]|] eqn:E; cbn [obind]; try discriminate.
    destruct (fw_built_in LG FI opts g (elt_ok g) (start_ok g CG) (fun t l u A B C => proj2 (proj2 (step_ok g SG CG t l u A B C))) fuel h E) as (z & B & ZU).
    destruct (fw_built LG FI opts g (fun _ => True) (fun _ _ => Logic.I) (fun _ _ _ _ _ _ => Logic.I) fuel h E) as (_ & _ & SY).
    pose proof B as (_ & CH & B'). destruct (vstart h) as [s0|] eqn:V0.
    - assert (NS : vstart h <> None) by congruence.
      destruct (convert_back g SG CG h z B ZU NS) as (r' & -> & R1 & R2 & R3 & R4 & R5 & R6 & _). cbn [obind fst]. intros [= <-].
      destruct B' as (_ & (e & N & Es) & _). unfold fw_start in Es. destruct (vstart g) as [s|] eqn:Vg; [|discriminate]. injection Es as <-.
      split; auto. split; auto. split; [intros _; destruct (SY ltac:(discriminate)) as (S1 & S2 & _); repeat split; congruence|]. split; [discriminate|].
      intros k x y. unfold rel. cbn [mach mstart]. rewrite R3, V0.
      rewrite (R6 k s0 _ x y) with (2 := N) by (exists s0; split; [exact V0|constructor]).
      unfold sem. cbn [fst snd]. change (word (1 : G)) with (@nil nat). apply (val_paths g SG). auto.
    - destruct B' as (_ & B'). cbn in B'. unfold fw_start in B'. destruct (vstart g) as [s|] eqn:Vg; [discriminate|].
      pose proof (C31_weight_convert (from_gallic sp (K := K) O) h tt CH) as T. cbv zeta in T. rewrite V0 in T. rewrite T. cbn [obind fst]. intros [= <-].
      split; [split; [intros [|s] t []|discriminate]|]. split; [constructor|]. split; [tauto|]. split; auto.
  Qed.

  (** ** Termination *)
  Fixpoint words (A : list nat) (n : nat) : list (list nat) :=
    match n with
    | O => [[]]
    | S n' => [] :: flat_map (fun a => map (cons a) (words A n')) A
    end.
  Lemma words_in A : forall n u, incl u A -> (length u <= n)%nat -> In u (words A n).
  Proof.
    induction n as [|n IH]; intros [|a u] I H; cbn [words length In] in *; auto; try lia.
    right. apply in_flat_map. exists a. split; [apply I; simpl; auto|]. apply in_map, IH; [|lia]. intros b Hb. apply I. simpl; auto.
  Qed.
  Lemma max_bound (F : nat -> nat) n : exists M, forall q, (q < n)%nat -> (F q <= M)%nat.
  Proof.
    induction n as [|n (M & H)]; [exists O; intros; lia|]. exists (Nat.max M (F n)). intros q Hq. destruct (Nat.eq_dec q n) as [->|]; [lia|].
    specialize (H q ltac:(lia)). lia.
  Qed.

  (** [P s n]: state [s] can be reached with [n] labels still to be written. *)
  Theorem ungallic_total_inv (g : vfst G) (P : nat -> nat -> Prop) (Bd : nat) : spelled g -> closed g ->
    (forall s, vstart g = Some s -> P s O) -> (forall s n, P s n -> (n <= Bd)%nat) ->
    (forall s n t, P s n -> In t (trs_of g s) -> P (ns t) (n + length (word (wgt t)) - 1)%nat) ->
    exists fuel0, forall fuel, (fuel0 <= fuel)%nat -> exists r, ungallic sp fuel g = Some (Ok r).
  Proof.
    intros SG CG PS PB PT.
    set (A := flat_map (fun s => (flat_map (fun t => word (wgt t)) (trs_of g s) ++ match fin_of g s with Some w => word w | None => [] end)%list) (seq 0 (num_states g))).
    set (fl := fun q => match fin_of g q with Some w => length (word w) | None => O end).
    destruct (max_bound (fun q => Bd + fl q)%nat (num_states g)) as (M & HM).
    assert (AT : forall s t, In t (trs_of g s) -> incl (word (wgt t)) A).
    { intros s t Ht a Ha. apply in_flat_map. exists s. split; [|apply in_or_app; left; apply in_flat_map; eauto].
      apply in_seq. destruct (Nat.lt_ge_cases s (num_states g)); [lia|]. rewrite trs_of_oob in Ht by auto. destruct Ht. }
    assert (AF : forall s w, fin_of g s = Some w -> incl (word w) A).
    { intros s w Hw a Ha. apply in_flat_map. exists s. split; [|apply in_or_app; right; rewrite Hw; auto].
      apply in_seq. destruct (Nat.lt_ge_cases s (num_states g)); [lia|]. rewrite fin_of_beyond in Hw by auto. discriminate. }
    set (U := fun e : element G => elt_ok g e /\ incl (word (snd e)) A /\
       match fst e with Some q => P q (length (word (snd e))) | None => (length (word (snd e)) <= M)%nat end).
    set (univ := flat_map (fun u => (None, ((Some u, 1) : G)) :: map (fun q => (Some q, ((Some u, 1) : G))) (seq 0 (num_states g))) (words A M)).
    assert (IT : forall u : list nat, incl (tl u) u) by (intros [|a u]; [apply incl_refl|apply incl_tl, incl_refl]).
    assert (US : forall e, fw_start g = Ok (Some e) -> U e).
    { intros e He. split; [apply (start_ok g CG); auto|]. unfold fw_start in He. destruct (vstart g) as [s|] eqn:E; [|discriminate]. injection He as <-.
      cbn. split; [intros a []|]. apply PS; auto. }
    assert (UF : forall w a c t, w = ((Some a, c) : G) -> ~ In O a -> incl a A -> (length a <= M)%nat -> In t (fin_list w) -> U (tn t)).
    { intros w a c t Ew Na Ia Ha Ht. destruct (fin_list_in g w a c t Ew Na Ht) as (_ & _ & _ & OK & N & LN). subst w. split; auto.
      rewrite N. split; [|lia]. destruct a as [|i [|j l]]; cbn in Ht; try tauto. destruct Ht as [<-|[]]. cbn. intros b Hb. apply Ia. right. exact Hb. }
    assert (UT : forall e l t, U e -> fw_trs FI opts g e = Ok l -> In t l -> U (tn t)).
    { intros e l t (OK & IA & HE) El Ht. pose proof (step_ok g SG CG e l t OK El Ht) as (_ & _ & OK').
      assert (I : In t (trs_at (fw_trs FI opts g) e)) by (unfold trs_at; rewrite El; auto).
      destruct e as [o w]. destruct OK as ((a & Ea & Na) & V). cbn [snd fst] in *. subst w. unfold word in IA, HE. cbn [fst snd] in IA, HE. destruct o as [q|].
      - pose proof (PB _ _ HE) as LE. unfold valid_elt in V. cbn in V. rewrite (trs_at_some g SG q a V) in I. apply in_app_or in I as [I|I].
        + apply in_map_iff in I as (t0 & <- & H0). split; auto. cbn [tn fst snd]. change (word ((Some (tl (a ++ word (wgt t0))), 1) : G)) with (tl (a ++ word (wgt t0))). split.
          * eapply incl_tran; [apply IT|]. apply incl_app; auto. eapply AT; eauto.
          * assert (X : forall l : list nat, (length (tl l) = length l - 1)%nat) by (intros [|]; cbn; lia).
            rewrite X, app_length. apply (PT q); auto.
        + destruct (fin_of g q) as [w|] eqn:Ew; [|destruct I]. destruct (proj2 SG q w Ew) as (b & c & Eb & Nb).
          pose proof (AF q w Ew) as IW. specialize (HM q V). unfold fl in HM. rewrite Ew in HM. subst w. unfold word in *. cbn [fst snd] in *.
          apply (UF _ (a ++ b)%list c t) in I; auto; [rewrite in_app_iff; tauto|apply incl_app; auto|rewrite app_length; lia].
      - rewrite trs_at_none in I. apply (UF _ a 1 t) in I; auto. }
    assert (UU : forall e, U e -> In e univ).
    { intros [o w] (OK & IA & HE). destruct OK as ((a & Ea & Na) & V). cbn [snd fst] in *. subst w. unfold word in IA, HE. cbn [fst snd] in IA, HE. apply in_flat_map. exists a.
      assert (LA : (length a <= M)%nat).
      { destruct o as [q|]; [|lia]. pose proof (PB _ _ HE). unfold valid_elt in V. cbn in V. specialize (HM q V). lia. }
      split; [apply words_in; auto|]. destruct o as [q|]; [right|left; auto]. apply in_map_iff. exists q. split; auto. apply in_seq. unfold valid_elt in V. cbn in V. lia. }
    exists (length univ). intros fuel HF.
    destruct (fw_total LG FI opts g U US UT (fun t H => proj2 (proj1 H)) univ UU fuel (or_introl eq_refl) HF) as (h & E).
    unfold ungallic. rewrite E. cbn [obind].
    destruct (fw_built_in LG FI opts g (elt_ok g) (start_ok g CG) (fun t l u A B C => proj2 (proj2 (step_ok g SG CG t l u A B C))) fuel h E) as (z & B & ZU).
    destruct (vstart h) as [s0|] eqn:V0.
    - destruct (convert_back g SG CG h z B ZU ltac:(congruence)) as (r' & -> & _). cbn [obind]. eauto.
    - pose proof B as (_ & CH & _). pose proof (C31_weight_convert (from_gallic sp (K := K) O) h tt CH) as T. cbv zeta in T. rewrite V0 in T. rewrite T. cbn [obind]. eauto.
  Qed.

  Theorem ungallic_total (g : vfst G) (Bd : nat -> nat) : spelled g -> closed g ->
    (forall s t, accessible (mach g) s -> In t (trs_of g s) -> (Bd s + length (word (wgt t)) <= S (Bd (ns t)))%nat) ->
    exists fuel0, forall fuel, (fuel0 <= fuel)%nat -> exists r, ungallic sp fuel g = Some (Ok r).
  Proof.
    intros SG CG HB. destruct (max_bound Bd (num_states g)) as (M & HM).
    apply (ungallic_total_inv g (fun s n => accessible (mach g) s /\ (s < num_states g)%nat /\ (n <= Bd s)%nat) M); auto.
    - intros s Hs. split; [exists s; split; [auto|constructor]|]. split; [apply CG; auto|lia].
    - intros s n (_ & Hs & Hn). specialize (HM s Hs). lia.
    - intros s n t (AC & Hs & Hn) Ht. pose proof (HB s t AC Ht). split; [|split; [apply (proj1 CG s t Ht)|lia]].
      destruct AC as (s0 & Es & R). exists s0. split; auto. eapply reach_snoc; eauto.
  Qed.
End U.
