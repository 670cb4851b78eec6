(** The bits and the weights [rm_epsilon] leaves on a machine whose states are sorted. *)
From Coq Require Import List Arith NArith ZArith Bool Lia Permutation.
From Verif Require Import Base.Util Base.Semiring Base.Machine Base.PathSum Base.PropSpec Model.Props Model.AlgoProps Model.VectorFst Model.Dfs Model.Visitors Model.Rational
  Model.Queues Model.ShortestDistance Model.RmEpsilon
  Proofs.PropsFacts Proofs.VectorFacts Proofs.VectorProps Proofs.HistoryFacts Proofs.OpFacts Proofs.TrOpsFacts Proofs.RationalFacts Proofs.Tarjan Proofs.SdFacts Proofs.SdRun Proofs.SdLive Proofs.ReverseDist
  Proofs.ConnectFacts Proofs.AutoQueueFacts Proofs.VisitFacts Props.C03 Props.C05 Props.C14 Props.C16 Proofs.EpsFacts Proofs.ExpandFacts Proofs.RmEpsFacts.
Import ListNotations.
Local Open Scope K_scope.

(** ** Bits *)
Definition sorted_bits (p : N) : Prop := has p ACCEPTOR = true /\ has p TOP_SORTED = true /\ has p ACYCLIC = true.

Section B.
  Context {K : SR}.
  Implicit Types f g : vfst K.

  Lemma add_tr_sorted p s (t : tr K) prev : sorted_bits p -> il t = ol t -> (s < ns t)%nat -> sorted_bits (add_tr_properties p s t prev).
  Proof.
    intros (A & T & _) El Hs. unfold add_tr_properties. rewrite El, Nat.eqb_refl. cbn [negb].
    assert (Nat.leb (ns t) s = false) as -> by (apply Nat.leb_gt; auto).
    match goal with |- sorted_bits (if has ?w TOP_SORTED then _ else _) => set (o := w) end.
    assert (X : has o ACCEPTOR = true /\ has o TOP_SORTED = true).
    { subst o. destruct (Nat.eqb (ol t) 0), prev as [q|]; try destruct (Nat.ltb (ol t) (il q)); try destruct (Nat.ltb (ol t) (ol q)); destruct (nontrivial (wgt t));
        rewrite !has_pkeep; repeat rewrite ?has_pset, ?has_pclr; rewrite A, T; split; reflexivity. }
    destruct X as [X1 X2]. rewrite X2. repeat split; rewrite has_pset, ?X1, ?X2; try reflexivity. apply orb_true_r.
  Qed.
  Lemma set_trs_sorted s l : forall p (prev : option (tr K)), sorted_bits p -> (forall t, In t l -> il t = ol t /\ (s < ns t)%nat) -> sorted_bits (set_trs_props p s prev l).
  Proof.
    induction l as [|t l IH]; intros p prev H Hl; cbn [set_trs_props]; auto. apply IH; [|intros; apply Hl; right; auto].
    destruct (Hl t (or_introl eq_refl)). apply add_tr_sorted; auto.
  Qed.
  Lemma delete_trs_sorted p : sorted_bits p -> sorted_bits (delete_trs_properties p).
  Proof. intros (A & B & C). unfold delete_trs_properties. repeat split; rewrite has_pkeep, ?A, ?B, ?C; reflexivity. Qed.
  Lemma set_final_sorted p (o w : option K) : sorted_bits p -> sorted_bits (set_final_properties p o w).
  Proof.
    intros (A & B & C). unfold set_final_properties. destruct (onontrivial o), (onontrivial w);
      repeat split; rewrite has_pkeep; repeat rewrite ?has_pset, ?has_pclr; rewrite ?A, ?B, ?C; reflexivity.
  Qed.

  Lemma install_sorted f s trs fin g : sorted_bits (vprops f) -> (forall t, In t trs -> il t = ol t /\ (s < ns t)%nat) ->
    rm_install f s trs fin = Ok g -> sorted_bits (vprops g).
  Proof.
    intros H Hl. unfold rm_install, pop_trs. destruct (nth_error (vstates f) s) as [st|]; [|discriminate]. cbn [unwrap rbind fst].
    set (f1 := upd_state f s _ _). assert (H1 : sorted_bits (vprops f1)) by (apply delete_trs_sorted; auto).
    destruct (set_trs f1 s (rev trs)) as [f2| |] eqn:E; try discriminate. cbn [rbind].
    assert (H2 : sorted_bits (vprops f2)).
    { unfold set_trs in E. destruct (nth_error (vstates f1) s); [|discriminate]. injection E as <-. apply set_trs_sorted; auto.
      intros t Ht. apply Hl. apply in_rev. auto. }
    unfold delete_final_weight, set_final. destruct (keqb fin 0); destruct (nth_error (vstates f2) s); try discriminate; intros [= <-]; apply set_final_sorted; auto.
  Qed.
  Lemma drop_sorted nin f g : sorted_bits (vprops f) -> rm_drop nin f = Ok g -> sorted_bits (vprops g).
  Proof.
    unfold rm_drop. generalize (seq 0 (num_states f)). intros l. revert f. induction l as [|s l IH]; intros f H.
    - intros [= <-]. auto.
    - rewrite rfold_cons. destruct (nth_error nin s) as [[|]|]; cbn [rbind]; try discriminate; [apply IH; auto|].
      unfold delete_trs. destruct (nth_error (vstates f) s); [|discriminate]. cbn [rbind]. apply IH. apply delete_trs_sorted. auto.
  Qed.
  Lemma connect_bits f g b : closed f -> cnt f -> connect f = Ok g -> has (vprops f) b = true -> inb b pm_delete_states_properties = true -> has (vprops g) b = true.
  Proof.
    intros Hc C Eg Hb Ib. destruct (connect_eq f Hc C) as (d & h & Ec & Ed & _). rewrite Ec in Eg. injection Eg as <-.
    match goal with |- has ?p b = true => change p with (N.lor (N.land (vprops h) (pnot (mask [ACCESSIBLE; COACCESSIBLE]))) (N.land (mask [ACCESSIBLE; COACCESSIBLE]) (mask [ACCESSIBLE; COACCESSIBLE]))) end.
    rewrite has_lor, !has_land, has_pnot, !has_mask. apply orb_true_iff.
    assert (vprops h = delete_states_properties (vprops f)) as ->.
    { unfold del_states in Ed. destruct (mark_deleted _ d); try discriminate. cbn [rbind] in Ed. destruct (compact _ _ _ _ _) as [[? ?] ?].
      destruct (map_res _ _); try discriminate. cbn [rbind] in Ed. destruct (match vstart f with Some _ => _ | None => _ end); try discriminate. injection Ed as <-. reflexivity. }
    unfold delete_states_properties. rewrite has_pkeep, Hb, Ib. destruct (inb b [ACCESSIBLE; COACCESSIBLE]); auto.
  Qed.
End B.

(** ** Weights *)
Section Z.
  Context {K : SR} (L : sr_laws K) (Pos : positive K).
  Implicit Types f g : vfst K.

  Lemma ksum_nonzero (l : list K) w : In w l -> w <> 0 -> ksum l <> 0.
  Proof.
    destruct Pos as (_ & P & _). induction l as [|a l IH]; [intros []|]. intros [->|H] Hw E; cbn in E.
    - apply Hw. apply (P w (ksum l)). auto.
    - apply IH; auto. rewrite (kplus_comm _ L) in E. apply (P _ _ E).
  Qed.
  Lemma pw_nonzero (m : machine K) p : forall a, (forall s t, In t (mtrs m s) -> wgt t <> 0) -> is_path m a p -> pw p <> 0.
  Proof.
    destruct Pos as (P1 & _ & P). induction p as [|t p IH]; intros a Nz H; cbn in *; auto. destruct H as [H1 H2].
    intros E. apply P in E as [E|E]; [apply (Nz a t); auto|apply (IH (ns t)); auto].
  Qed.
  Lemma upto_nonzero (m : machine K) a q : (forall s t, In t (mtrs m s) -> wgt t <> 0) -> reach m a q -> exists k0, forall k, (k0 <= k)%nat -> upto m k a q <> 0.
  Proof.
    intros Nz R. apply reach_path in R as (p & Hp & Hd). exists (length p). intros k Hk.
    apply (ksum_nonzero _ (to_sum m (length p) a q)).
    - apply (in_map (fun i => to_sum m i a q)). apply in_seq. lia.
    - apply (ksum_nonzero _ (pw p)).
      + apply in_map_iff. exists p. rewrite Hd, Nat.eqb_refl. split; auto. apply paths_is_path. auto.
      + eapply pw_nonzero; eauto.
  Qed.

  Definition heavy (l : list (tr K)) : Prop := forall t, In t l -> wgt t <> 0.
  Lemma ex_tr_heavy id d x t x' : d <> 0 -> wgt t <> 0 -> heavy (ex_trs x) -> ex_tr id d x t = Ok x' -> heavy (ex_trs x').
  Proof.
    destruct Pos as (_ & P1 & P2). intros Hd Ht H. unfold ex_tr. destruct (epsilon_filter t); [intros [= <-]; auto|].
    assert (Hw : d * wgt t <> 0) by (intros E; apply P2 in E as [E|E]; auto).
    assert (A : heavy (ex_trs x ++ [Tr (il t) (ol t) (d * wgt t) (ns t)])).
    { intros u Hu. apply in_app_or in Hu as [Hu|[<-|[]]]; auto. }
    destruct (em_get _ _) as [[j i]|]; [|intros [= <-]; auto]. destruct (Nat.eqb j id); [|intros [= <-]; auto].
    destruct (nth_error (ex_trs x) i) as [u|] eqn:Eu; [|discriminate]. intros [= <-]. cbn [ex_trs]. intros v Hv.
    apply In_nth_error in Hv as (j' & Hv). rewrite nth_error_upd in Hv.
    assert (Hu : wgt u <> 0) by (apply H; eapply nth_error_In; eauto).
    destruct (_ && _); [|apply H; eapply nth_error_In; eauto].
    injection Hv as <-. cbn. intros E. apply Hu. apply (P1 _ _ E).
  Qed.
  Lemma ex_trs_heavy id d l : d <> 0 -> heavy l -> forall x x', heavy (ex_trs x) -> rfold (ex_tr id d) l x = Ok x' -> heavy (ex_trs x').
  Proof.
    intros Hd. induction l as [|t l IH]; intros Hl x x' H; [intros [= <-]; auto|]. rewrite rfold_cons.
    destruct (ex_tr id d x t) as [x1| |] eqn:E; try discriminate. cbn [rbind]. apply IH; [intros u Hu; apply Hl; right; auto|].
    eapply ex_tr_heavy; eauto. apply Hl. left. auto.
  Qed.
  Lemma ex_loop_grows id dist f fuel : forall x seen fin x' seen' fin', ex_loop fuel id dist f x seen fin = Ok (x', seen', fin') -> incl seen seen'.
  Proof.
    induction fuel as [|fuel IH]; intros x seen fin x' seen' fin' E; [discriminate|]. cbn [ex_loop] in E.
    destruct (ex_stack x) as [|s stk]; [injection E as <- <- <-; apply incl_refl|]. cbv zeta in E.
    destruct (nth s (grown (ex_vis x) s) false); [eapply IH; eauto|]. destruct (get_trs f s); try discriminate. cbn [rbind] in E.
    destruct (nth_error dist s); [|discriminate]. destruct (rfold _ _ _); try discriminate. cbn [rbind] in E. destruct (final_weight f s); try discriminate. cbn [rbind] in E.
    apply IH in E. intros q Hq. apply E. right. auto.
  Qed.
  Lemma ex_loop_heavy id dist f fuel : (forall s, heavy (trs_of f s)) -> forall x seen fin x' seen' fin', ex_loop fuel id dist f x seen fin = Ok (x', seen', fin') ->
    (forall q, In q seen' -> nth q dist 0 <> 0) -> heavy (ex_trs x) -> heavy (ex_trs x').
  Proof.
    intros Hf. induction fuel as [|fuel IH]; intros x seen fin x' seen' fin' E Hd H; [discriminate|]. cbn [ex_loop] in E.
    destruct (ex_stack x) as [|s stk]; [injection E as <- <- <-; auto|]. cbv zeta in E.
    destruct (nth s (grown (ex_vis x) s) false); [eapply IH; eauto|]. destruct (get_trs f s) as [l| |] eqn:El; try discriminate. cbn [rbind] in E.
    destruct (nth_error dist s) as [d|] eqn:Ed; [|discriminate]. destruct (rfold _ _ _) as [x1| |] eqn:E1; try discriminate. cbn [rbind] in E.
    destruct (final_weight f s); try discriminate. cbn [rbind] in E. pose proof (ex_loop_grows _ _ _ _ _ _ _ _ _ _ E) as G.
    apply (IH _ _ _ _ _ _ E Hd). eapply ex_trs_heavy; [| | |exact E1]; auto.
    - specialize (Hd s (G s (or_introl eq_refl))). rewrite (List.nth_error_nth _ _ 0 Ed) in Hd. auto.
    - pose proof (Hf s) as X. unfold get_trs, get_state in El. unfold trs_of in X. destruct (nth_error (vstates f) s); [|discriminate]. injection El as <-. auto.
  Qed.
End Z.

(** ** The machine after each state *)
Section S.
  Context {K : SR} (L : sr_laws K) (Q : qops) (ok : Q -> (nat -> nat) -> option nat -> Prop) (Pos : positive K).
  Implicit Types f g : vfst K.
  Notation eps := epsilon_filter.

  Definition weighty f : Prop := (forall s, heavy (trs_of f s)) /\ forall s w, fin_of f s = Some w -> w <> 0.

  Lemma expand_heavy f pathp fuel s start st trs fin st' : closed f -> vstart f = Some start -> qspec Q (kmach f eps) (num_states f) ok ->
    (forall s, heavy (trs_of f s)) -> loops_idle f eps -> idempotent_plus K \/ kept_acyclic f eps -> (s < num_states f)%nat -> rest_ok Q ok f st ->
    expand Q true pathp fuel s f st = Some (Ok (trs, fin, st')) -> heavy trs.
  Proof.
    intros C Es QS Hv Ca H Hs ((M & last & Oq) & Tg & Ev & Mp & Vs) E. unfold expand in E.
    destruct (sd_run Q true pathp false true eps fuel (Some s) f (rs_sd _ st)) as [R0|] eqn:E0; [|discriminate].
    destruct (run_correct L Q f eps true C ok QS pathp (Some s) start (rs_sd _ st) M last fuel R0 Es Hs Oq (fun _ => Tg) (idle_calm L f eps Ca) E0)
      as (D & sd & M' & last' & -> & O' & Id' & Tg' & Ln & Dm & F & B). cbn [the_source] in *.
    assert (Nz' : forall q t, In t (mtrs (kmach f eps) q) -> wgt t <> 0).
    { intros q t Ht. cbn in Ht. apply filter_In in Ht as [H1 H2]. apply (Hv q t H1). }
    pose proof (run_live L Q f eps true C ok QS Pos Nz' s Hs (idle_calm L f eps Ca) pathp (Some s) start (rs_sd _ st) M last fuel D sd Es eq_refl Oq (fun _ => Tg) E0) as Lv.
    pose proof (sd_run_even Q f eps pathp fuel (Some s) (rs_sd _ st) D sd Ev E0) as Ev'.
    assert (Dl : forall q, reach (kmach f eps) s q -> (q < length D)%nat).
    { intros q Hq. specialize (Lv q Hq eq_refl). rewrite Dm, map_length. red in Ev'. rewrite <- Ev'.
      destruct (Nat.lt_ge_cases q (length (sd_src _ sd))); auto. rewrite nth_overflow in Lv by auto. discriminate. }
    destruct (fixed_settles L f eps s _ C Hs H F B) as (k & Hk).
    destruct (expand_loop L f C (rs_id _ st) D s Hs Dl (rs_map _ st) (rs_visited _ st) Mp Vs)
      as (x' & seen & fin' & E1 & Mo & Vs' & Nd & Sn & _).
    rewrite E1 in E. cbn [rbind] in E. injection E as <- <- <-.
    refine (ex_loop_heavy Pos _ _ _ _ Hv _ _ _ _ _ _ E1 _ _); [|intros t []].
    intros q Hq. apply Sn in Hq. destruct (upto_nonzero L Pos (kmach f eps) s q Nz' Hq) as (k0 & Hz).
    specialize (Hk q (Nat.max k k0) (Nat.le_max_l _ _)). specialize (Hz (Nat.max k k0) (Nat.le_max_r _ _)). rewrite Hk in Hz.
    rewrite (Lv q Hq eq_refl) in Hz. cbn in Hz. rewrite Nat.eqb_refl in Hz. auto.
  Qed.

  Lemma install_fin f s trs fin g : (s < num_states f)%nat -> rm_install f s trs fin = Ok g -> forall w, fin_of g s = Some w -> w <> 0.
  Proof.
    intros Hs. unfold rm_install, pop_trs. destruct (nth_state f s Hs) as (vs & E & _ & _). rewrite E. cbn [unwrap rbind fst].
    set (f1 := upd_state f s _ _). assert (F1 : eff f f1) by (apply eff_upd; intros _; split; reflexivity). pose proof (eff_n _ _ F1) as Hn.
    destruct (set_trs_eff f1 s (rev trs)) as (f2 & E3 & F2 & _); [lia|]. rewrite E3. cbn [rbind]. pose proof (eff_n _ _ F2) as Hn2.
    destruct (keqbP L fin 0) as [->|Hf].
    - destruct (del_final_eff f2 s) as (g' & E4 & _ & _ & N3); [lia|]. rewrite E4. intros [= <-] w. rewrite N3, Nat.eqb_refl. discriminate.
    - destruct (set_final_eff f2 s fin) as (g' & E4 & _ & _ & N3); [lia|]. rewrite E4. intros [= <-] w. rewrite N3, Nat.eqb_refl. congruence.
  Qed.

  Section F.
    Context (f0 : vfst K) (start : nat) (C0 : closed f0) (Es0 : vstart f0 = Some start) (QS0 : qspec Q (kmach f0 eps) (num_states f0) ok)
      (Nz0 : nonzero_eps f0) (Ca0 : loops_idle f0 eps) (H0 : idempotent_plus K \/ kept_acyclic f0 eps) (So0 : fsound f0).
    Let n := num_states f0.

    Lemma sorted_reach f a b : (forall s t, In t (trs_of f s) -> (s < ns t)%nat) -> reach (kmach f eps) a b -> (a <= b)%nat.
    Proof.
      intros H R. induction R as [|s t u Ht R IH]; auto. cbn in Ht. apply filter_In in Ht as [Ht _]. apply H in Ht. lia.
    Qed.

    Lemma states_sorted pathp fuel nin l : forall f st g, good f0 f -> sorted_bits (vprops f) -> weighty f -> rest_ok Q ok f st -> (forall s, In s l -> (s < n)%nat) ->
      length nin = n -> rm_states Q true pathp fuel nin l f st = Some (Ok g) -> sorted_bits (vprops g) /\ weighty g.
    Proof.
      induction l as [|s l IH]; intros f st g G SB W Ro Hl Ln E; cbn [rm_states] in E.
      - injection E as <-. auto.
      - assert (Hs : (s < n)%nat) by (apply Hl; left; auto).
        rewrite (nth_error_nth' nin false) in E by lia. destruct (nth s nin false) eqn:En.
        + destruct (good_side Q ok f0 start Es0 QS0 Nz0 Ca0 H0 f G) as (Ef & Es & QS & Nz & Ca & H & Ac).
          destruct (expand Q true pathp fuel s f st) as [R0|] eqn:E0; [|discriminate].
          destruct (expand_ok L Q ok Pos f pathp fuel s start st R0) as (trs & fin & st' & D & -> & Ro' & Cl & Lb); auto; try (unfold n in *; lia); [apply G|].
          pose proof (expand_heavy f pathp fuel s start st trs fin st' (proj1 (proj2 G)) Es QS (proj1 W) Ca H ltac:(unfold n in *; lia) Ro E0) as Hv.
          destruct (install_good L Q ok f0 start Es0 QS0 Nz0 Ca0 H0 f s trs fin D G Hs Cl) as (h & Eg & G' & Fr & Ot). rewrite Eg in E.
          assert (Ro2 : rest_ok Q ok h st').
          { destruct Ro' as (A1 & [A2 A2'] & A3). split; auto. split; [split; auto|auto].
            destruct (good_side Q ok f0 start Es0 QS0 Nz0 Ca0 H0 h G') as (Eg' & _). rewrite Eg', <- Ef. auto. }
          assert (Sf : fsound f) by (apply G; auto).
          assert (Up : forall s t, In t (trs_of f s) -> (s < ns t)%nat) by (intros a t; apply (Sf TOP_SORTED); apply SB).
          assert (Ac' : forall s t, In t (trs_of f s) -> il t = ol t) by (intros a t; apply (Sf ACCEPTOR); apply SB).
          assert (SL : forall t, In t trs -> il t = ol t /\ (s < ns t)%nat).
          { intros t Ht. destruct (proj1 (Lb (elt_of t)) (in_map elt_of _ _ Ht)) as (q & u & Rq & Hu & _ & Ee). unfold elt_of in Ee. injection Ee as E1 E2 E3.
            rewrite E1, E2, E3. split; [eauto|]. apply (sorted_reach f s q Up) in Rq. apply Up in Hu. lia. }
          pose proof (install_sorted f s trs fin h SB SL Eg) as SB'.
          apply (IH h st' g); auto; [|intros; apply Hl; right; auto].
          destruct (install_ok L f s trs fin) as (h' & Eg2 & _ & Tg & Ng & _); [unfold n in *; lia|]. assert (h' = h) as -> by congruence.
          destruct W as [W1 W2]. split.
          * intros q t. rewrite Tg. destruct (Nat.eqb q s); [|apply W1]. intros Ht. apply Hv, in_rev. auto.
          * intros q w. destruct (Nat.eq_dec q s) as [->|Hq]; [|rewrite Ng by auto; apply W2]. eapply install_fin; [|exact Eg]. unfold n in *. lia.
        + apply (IH f st g); auto. intros; apply Hl; right; auto.
    Qed.

    (** What [finish] makes of it. *)
    Lemma finish_sorted nin f g : cnt f0 -> length nin = n -> good f0 f -> sorted_bits (vprops f) -> weighty f ->
      (g <-- rm_drop nin f ;; connect (set_properties g (rmepsilon_properties (vprops g) false))) = Ok g ->
      closed g /\ cnt g /\ weighty g /\ has (vprops g) ACCEPTOR = true /\ has (vprops g) ACYCLIC = true /\ has (vprops g) NO_EPSILONS = true /\
      visymt g = visymt f0 /\ vosymt g = vosymt f0.
    Proof.
      intros Cn Ln G SB W E. destruct (good_side Q ok f0 start Es0 QS0 Nz0 Ca0 H0 f G) as (En & Es & _). pose proof G as (Ef & C & _).
      destruct (drop_ok f0 nin f Ln En) as (h0 & Eh & Fh & Th & Nh & _). rewrite Eh in E. cbn [rbind] in E. set (h := set_properties _ _) in E.
      pose proof (drop_sorted nin f h0 SB Eh) as (B1 & B2 & B3).
      assert (Ch : closed h).
      { split.
        - intros q t. change (trs_of h q) with (trs_of h0 q). change (num_states h) with (num_states h0). rewrite (eff_n _ _ Fh), Th.
          destruct (nth q nin false); [apply (proj1 C)|intros []].
        - change (num_states h) with (num_states h0). change (vstart h) with (vstart h0). rewrite (eff_n _ _ Fh).
          destruct Fh as (_ & -> & _). apply C. }
      pose proof (eff_trans _ _ _ Ef Fh) as (_ & _ & V1 & V2 & Cn').
      assert (Ch' : cnt h) by (change (cnt h0); auto).
      assert (Bh : has (vprops h) ACCEPTOR = true /\ has (vprops h) ACYCLIC = true /\ has (vprops h) NO_EPSILONS = true).
      { change (vprops h) with (rmepsilon_properties (vprops h0) false). unfold rmepsilon_properties.
        repeat split; repeat first [rewrite has_copyif | rewrite has_when]; rewrite has_mask, ?B1, ?B3; reflexivity. }
      destruct (connect_eq h Ch Ch') as (d & g1 & Ec & Ed & Sb & U & _). pose proof E as E'. rewrite Ec in E'. injection E' as Eg.
      assert (Sg : is_submachine h d g) by (rewrite <- Eg; exact Sb).
      split; [apply (sub_closed h d g Ch Sg)|]. split; [rewrite <- Eg; exact (del_states_cnt h d g1 Ch' Ed)|]. split; [|split; [|split; [|split]]].
      - assert (Wh : weighty h).
        { destruct W as [W1 W2]. split; [intros s t|intros s w].
          - change (trs_of h s) with (trs_of h0 s). rewrite Th. destruct (nth s nin false); [apply W1|intros []].
          - change (fin_of h s) with (fin_of h0 s). rewrite Nh. apply W2. }
        destruct Sg as (N & HS & _). split; intros s.
        + intros t Ht. destruct (Nat.lt_ge_cases s (num_states g)) as [Hs|Hs]; [|rewrite trs_of_beyond in Ht by auto; destruct Ht].
          rewrite N in Hs. destruct (nth_error_ex _ _ Hs) as (q & Eq). destruct (HS s q Eq) as [_ F].
          destruct (Forall2_in_l _ _ _ _ F Ht) as (u & Hu & A1 & A2 & A3 & _). apply filter_In in Hu as [Hu _]. rewrite A3. apply (proj1 Wh q u Hu).
        + intros w Hw. destruct (Nat.lt_ge_cases s (num_states g)) as [Hs|Hs].
          * rewrite N in Hs. destruct (nth_error_ex _ _ Hs) as (q & Eq). destruct (HS s q Eq) as [F _]. rewrite F in Hw. apply (proj2 Wh q w Hw).
          * unfold fin_of in Hw. rewrite (proj2 (nth_error_None (vstates g) s) Hs) in Hw. discriminate.
      - apply (connect_bits h g); auto; apply Bh.
      - apply (connect_bits h g); auto; apply Bh.
      - apply (connect_bits h g); auto; apply Bh.
      - destruct Sg as (_ & _ & _ & S1 & S2). rewrite S1, S2. split; [exact V1|exact V2].
    Qed.
  End F.
End S.

(** ** The whole call *)
Section W.
  Context {K : SR} (L : sr_laws K).
  Notation eps := epsilon_filter.
  Theorem rm_epsilon_sorted (f : vfst K) idem pathp fuel g : positive K -> closed f -> cnt f -> vstart f <> None -> fsound f ->
    has (vprops f) ACCEPTOR = true -> has (vprops f) TOP_SORTED = true -> has (vprops f) ACYCLIC = true -> weighty f ->
    rm_epsilon idem pathp true fuel f = Some (Ok g) ->
    closed g /\ cnt g /\ weighty g /\ has (vprops g) ACCEPTOR = true /\ has (vprops g) ACYCLIC = true /\ has (vprops g) NO_EPSILONS = true /\
    visymt g = visymt f /\ vosymt g = vosymt f.
  Proof.
    intros Pos C Cn St So BA BT BC W E. destruct (vstart f) as [start|] eqn:Es; [clear St|congruence].
    assert (Acy : forall s, ~ on_cycle (mach f) s) by exact (So ACYCLIC BC).
    assert (Ka : kept_acyclic f eps).
    { intros s (t & Ht & R). apply (Acy s). exists t. cbn in Ht. apply filter_In in Ht as [Ht _]. split; auto.
      revert R. apply reach_mono. intros q. cbn. apply incl_filter. }
    assert (Ca : loops_idle f eps).
    { intros s t Ht _ En. exfalso. apply (Acy s). exists t. split; auto. rewrite En. apply reach_refl. }
    unfold rm_epsilon in E. destruct (auto_queue_fresh idem pathp f eps C (fun _ => Acy)) as (q & sccs & Eq & Fr & Mo). rewrite Eq in E. unfold rm_epsilon_with in E. rewrite Es in E.
    pose proof (fresh_cq_ok f eps q sccs Fr Mo) as Oq. pose proof (code_queue_spec f eps) as QS.
    assert (Nz : nonzero_eps f) by (intros s t Ht _; apply (proj1 W s t Ht)).
    destruct (noneps_ok f start C Es) as (nin & En & Ln & Ns & Ni). rewrite En in E.
    destruct (order_ok f start C Es (fun _ => Acy)) as (order & Eo & Ho). rewrite Eo in E.
    assert (G0 : good f f) by (apply good_0; auto).
    assert (R0 : rest_ok code_queue (cq_ok f eps) f (rmst_new code_queue q)) by (apply rest_new; auto).
    assert (Hl : forall s, In s (rev order) -> (s < num_states f)%nat) by (intros s Hs; apply in_rev, Ho in Hs; auto).
    destruct (rm_states code_queue true pathp fuel nin (rev order) f (rmst_new code_queue q)) as [R|] eqn:E1; [|discriminate].
    destruct (states_ok L code_queue (cq_ok f eps) Pos f start Es QS Nz Ca (or_intror Ka) pathp fuel nin (rev order) f (rmst_new code_queue q) R G0 R0 Hl Ln E1) as (g0 & -> & G & _).
    destruct (states_sorted L code_queue (cq_ok f eps) Pos f start Es QS Nz Ca (or_intror Ka) So pathp fuel nin (rev order) f (rmst_new code_queue q) g0 G0) as [SB W']; auto.
    { repeat split; auto. }
    injection E as E. apply (finish_sorted code_queue (cq_ok f eps) f start Es QS Nz Ca (or_intror Ka) nin g0 g); auto.
  Qed.
End W.
