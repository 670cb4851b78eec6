(** C05: reverse reverses the weighted relation. *)
From Coq Require Import List Arith NArith ZArith Bool Lia Permutation.
From Verif Require Import Base.Util Base.Semiring Base.Machine Base.PathSum Base.PropSpec Base.Instances
  Model.Props Model.VectorFst Model.TrOps Model.AlgoProps Model.History Model.Rational
  Proofs.PropsFacts Proofs.VectorFacts Proofs.DelStates Proofs.VectorProps Proofs.TrOpsFacts Proofs.HistoryFacts
  Proofs.OpFacts Proofs.ConnectFacts Proofs.RationalFacts.
Import ListNotations.
Local Open Scope K_scope.

Lemma nth_nth_error {A} (l : list A) d : forall q, nth q l d = match nth_error l q with Some v => v | None => d end.
Proof. induction l; intros [|q]; simpl; auto. Qed.

Lemma ksum_delta {K' : SR} (L : psr_laws K') (n : nat) (F : nat -> K') a : (a < n)%nat -> ksum (map (fun s => if s =? a then F s else 0) (seq 0 n)) = F a.
Proof.
  intros H. assert (X : forall k i, ksum (map (fun s => if s =? a then F s else 0) (seq i k)) = if (i <=? a) && (a <? i + k) then F a else 0).
  { induction k as [|k IH]; intros i; cbn [seq map ksum].
    - destruct (Nat.leb_spec i a), (Nat.ltb_spec a (i + 0)); cbn; auto; lia.
    - rewrite IH. destruct (Nat.eqb_spec i a), (Nat.leb_spec i a), (Nat.leb_spec (S i) a), (Nat.ltb_spec a (i + S k)), (Nat.ltb_spec a (S i + k));
        cbn [andb]; try lia; subst; rewrite ?(kplus_0_r L), ?(kplus_0_l _ L); auto. }
  rewrite X. apply Nat.ltb_lt in H. simpl. rewrite H. auto.
Qed.

Section C05.
  Context {K K' : SR} (LK : lsr_laws K) (L : lsr_laws K').
  (** Weight reversal: [Semiring::reverse]. *)
  Variable rv : K -> K'.
  Implicit Types (f : vfst K) (g : vfst K').

  (** The reversed image of a transition leaving [s]. *)
  Definition rt (s : nat) (t : tr K) : tr K' := Tr (il t) (ol t) (rv (wgt t)) (s + 1).

  (** ** Effect of the construction *)
  Lemma push_at_ok (l : list (list (tr K'))) i t : (i < length l)%nat ->
    exists l', push_at l i t = Ok l' /\ length l' = length l /\ forall q, nth q l' [] = if q =? i then nth q l [] ++ [t] else nth q l [].
  Proof.
    intros H. unfold push_at. destruct (nth_error_ex _ _ H) as [v E]. rewrite E. eexists. split; [reflexivity|].
    split; [apply upd_length|]. intros q. apply Nat.ltb_lt in H.
    rewrite !nth_nth_error, nth_error_upd, (Nat.eqb_sym q i). destruct (Nat.eqb_spec i q); cbn [andb]; auto. subst. rewrite H, E. auto.
  Qed.

  Lemma push_all s (ts : list (tr K)) : forall (l : list (list (tr K'))), (forall t, In t ts -> (ns t + 1 < length l)%nat) ->
    exists l', rfold (fun l t => push_at l (ns t + 1) (Tr (il t) (ol t) (rv (wgt t)) (s + 1))) ts l = Ok l' /\ length l' = length l /\
      forall q, nth q l' [] = nth q l [] ++ map (rt s) (filter (fun t => ns t + 1 =? q) ts).
  Proof.
    induction ts as [|t ts IH]; intros l H.
    - exists l. split; auto. split; auto. intros q. simpl. rewrite app_nil_r. auto.
    - rewrite rfold_cons. destruct (push_at_ok l (ns t + 1) (rt s t) (H t (or_introl eq_refl))) as (l1 & E1 & L1 & N1).
      unfold rt in E1. rewrite E1. cbn [rbind]. destruct (IH l1) as (l2 & E2 & L2 & N2).
      { intros u Hu. rewrite L1. apply H. right; auto. }
      exists l2. split; auto. split; [congruence|]. intros q. rewrite N2, N1. cbn [filter]. rewrite (Nat.eqb_sym (ns t + 1) q).
      destruct (q =? ns t + 1); auto. rewrite <- app_assoc. auto.
  Qed.

  Definition rev_fin f (s : nat) : list (tr K') := match fin_of f s with Some w => [Tr O O (rv w) (s + 1)] | None => [] end.
  Definition rev_trs f (q s : nat) : list (tr K') := map (rt s) (filter (fun t => ns t =? q) (trs_of f s)).

  Lemma rev_state_ok f s g l : (s + 1 < num_states g)%nat -> length l = num_states g ->
    (forall t, In t (trs_of f s) -> (ns t + 1 < num_states g)%nat) ->
    exists g' l', rev_state rv f (g, l) s = Ok (g', l') /\ eff g g' /\ length l' = length l /\
      (forall q, trs_of g' q = trs_of g q) /\
      (forall q, fin_of g' q = if (q =? s + 1) && match vstart f with Some s0 => s =? s0 | None => false end then Some 1 else fin_of g q) /\
      nth O l' [] = nth O l [] ++ rev_fin f s /\ (forall q, nth (S q) l' [] = nth (S q) l [] ++ rev_trs f q s).
  Proof.
    intros Hs Hl Ht. unfold rev_state.
    assert (X : exists g', match vstart f with Some s0 => if s =? s0 then set_final g (s + 1) 1 else Ok g | None => Ok g end = Ok g' /\ eff g g' /\
      (forall q, trs_of g' q = trs_of g q) /\
      (forall q, fin_of g' q = if (q =? s + 1) && match vstart f with Some s0 => s =? s0 | None => false end then Some 1 else fin_of g q)).
    { destruct (vstart f) as [s0|]; [destruct (s =? s0)|].
      - destruct (set_final_eff g (s + 1) 1 Hs) as (g' & E & F & T & N). exists g'. split; auto. split; auto. split; auto.
        intros q. rewrite N, andb_true_r. auto.
      - exists g. split; auto. split; [apply eff_refl|]. split; auto. intros q. rewrite andb_false_r. auto.
      - exists g. split; auto. split; [apply eff_refl|]. split; auto. intros q. rewrite andb_false_r. auto. }
    destruct X as (g' & E & F & T & N). rewrite E. cbn [rbind].
    assert (Y : exists l1, match fin_of f s with Some w => push_at l 0 (Tr O O (rv w) (s + 1)) | None => Ok l end = Ok l1 /\ length l1 = length l /\
       forall q, nth q l1 [] = if q =? 0 then nth q l [] ++ rev_fin f s else nth q l []).
    { unfold rev_fin. destruct (fin_of f s) as [w|].
      - destruct (push_at_ok l 0 (Tr O O (rv w) (s + 1))) as (l1 & A & B & C); [lia|]. exists l1. auto.
      - exists l. split; auto. split; auto. intros q. rewrite app_nil_r. destruct (q =? 0); auto. }
    destruct Y as (l1 & E1 & L1 & N1). rewrite E1. cbn [rbind].
    destruct (push_all s (trs_of f s) l1) as (l2 & E2 & L2 & N2).
    { intros t H. rewrite L1, Hl. auto. }
    rewrite E2. cbn [rbind]. exists g', l2. split; auto. split; auto. split; [congruence|]. split; auto. split; auto. split.
    - rewrite N2, N1. cbn [Nat.eqb]. replace (filter _ _) with (@nil (tr K)); [apply app_nil_r|].
      symmetry. clear. induction (trs_of f s) as [|t ts IH]; auto. simpl. destruct (Nat.eqb_spec (ns t + 1) 0); [lia|]. exact IH.
    - intros q. rewrite N2, N1. cbn [Nat.eqb]. unfold rev_trs. do 2 f_equal. apply filter_ext. intros t.
      destruct (Nat.eqb_spec (ns t + 1) (S q)), (Nat.eqb_spec (ns t) q); auto; lia.
  Qed.

  Lemma rev_all f : forall k i g l, (i + k + 1 <= num_states g)%nat -> length l = num_states g ->
    (forall s t, In t (trs_of f s) -> (ns t + 1 < num_states g)%nat) ->
    exists g' l', rfold (rev_state rv f) (seq i k) (g, l) = Ok (g', l') /\ eff g g' /\ length l' = length l /\
      (forall q, trs_of g' q = trs_of g q) /\
      (forall q, fin_of g' q = match vstart f with Some s0 => if (q =? s0 + 1) && (i <=? s0) && (s0 <? i + k) then Some 1 else fin_of g q | None => fin_of g q end) /\
      nth O l' [] = nth O l [] ++ flat_map (rev_fin f) (seq i k) /\
      (forall q, nth (S q) l' [] = nth (S q) l [] ++ flat_map (rev_trs f q) (seq i k)).
  Proof.
    induction k as [|k IH]; intros i g l Hi Hl Ht.
    - exists g, l. split; auto. split; [apply eff_refl|]. split; auto. split; auto. split; [|split; intros; simpl; rewrite app_nil_r; auto].
      intros q. destruct (vstart f) as [s0|]; auto. destruct ((q =? s0 + 1) && (i <=? s0) && (s0 <? i + 0)) eqn:E; auto.
      rewrite !andb_true_iff in E. destruct E as [[_ E1] E2]. apply Nat.leb_le in E1. apply Nat.ltb_lt in E2. lia.
    - cbn [seq]. rewrite rfold_cons. destruct (rev_state_ok f i g l) as (g1 & l1 & E1 & F1 & L1 & T1 & N1 & A1 & B1); auto; [lia|eauto|].
      rewrite E1. cbn [rbind]. pose proof (eff_n _ _ F1) as Hn.
      destruct (IH (S i) g1 l1) as (g2 & l2 & E2 & F2 & L2 & T2 & N2 & A2 & B2); rewrite ?Hn; try lia; auto.
      exists g2, l2. split; auto. split; [apply (eff_trans g g1 g2); auto|]. split; [congruence|]. split; [intros; rewrite T2, T1; auto|]. split; [|split].
      + intros q. rewrite N2. destruct (vstart f) as [s0|]; [|rewrite N1, andb_false_r; auto]. rewrite N1.
        destruct (Nat.eqb_spec q (s0 + 1)), (Nat.eqb_spec q (i + 1)), (Nat.eqb_spec i s0), (Nat.leb_spec (S i) s0), (Nat.leb_spec i s0),
          (Nat.ltb_spec s0 (S i + k)), (Nat.ltb_spec s0 (i + S k)); simpl; auto; lia.
      + rewrite A2, A1, <- app_assoc. auto.
      + intros q. rewrite B2, B1, <- app_assoc. auto.
  Qed.

  Lemma set_trs_eff g s ts : (s < num_states g)%nat -> exists h, set_trs g s ts = Ok h /\ eff g h /\
    (forall q, trs_of h q = if q =? s then ts else trs_of g q) /\ (forall q, fin_of h q = fin_of g q).
  Proof.
    intros H. destruct (nth_state g s H) as (st & E & E1 & E2). unfold set_trs. rewrite E. eexists. split; [reflexivity|].
    split; [apply eff_upd; intros _; split; auto|]. split; intros q.
    - rewrite trs_of_upd; auto.
    - rewrite fin_of_upd; auto. destruct (Nat.eqb_spec q s); subst; auto.
  Qed.

  Lemma set_all (l : list (list (tr K'))) : forall i g, (i + length l <= num_states g)%nat ->
    exists h, rfold (fun g p => unwrap (set_trs g (fst p) (snd p))) (combine (seq i (length l)) l) g = Ok h /\ eff g h /\
      (forall q, trs_of h q = if (i <=? q) && (q <? i + length l) then nth (q - i) l [] else trs_of g q) /\ (forall q, fin_of h q = fin_of g q).
  Proof.
    induction l as [|ts l IH]; intros i g H.
    - exists g. split; auto. split; [apply eff_refl|]. split; auto. intros q. cbn [length].
      destruct (Nat.leb_spec i q), (Nat.ltb_spec q (i + 0)); auto; lia.
    - cbn [length seq combine]. rewrite rfold_cons. cbn [fst snd]. cbn [length] in H.
      destruct (set_trs_eff g i ts) as (g1 & E1 & F1 & T1 & N1); [lia|]. rewrite (unwrap_ok _ _ E1). cbn [rbind].
      destruct (IH (S i) g1) as (h & E & F & T & N); [rewrite (eff_n _ _ F1); lia|].
      exists h. split; auto. split; [apply (eff_trans g g1 h); auto|]. split; [|intros; rewrite N; auto].
      intros q. rewrite T, T1.
      destruct (Nat.leb_spec (S i) q), (Nat.leb_spec i q), (Nat.ltb_spec q (S i + length l)), (Nat.ltb_spec q (i + S (length l))),
        (Nat.eqb_spec q i); cbn [andb]; try lia; auto.
      + destruct (q - i)%nat as [|d] eqn:Ed; [lia|]. cbn [nth]. f_equal. lia.
      + subst. rewrite Nat.sub_diag. auto.
  Qed.

  Lemma reverse_eff f : closed f -> exists g, reverse rv f = Ok g /\
    num_states g = S (num_states f) /\ vstart g = Some O /\ visymt g = visymt f /\ vosymt g = vosymt f /\ cnt g /\
    trs_of g O = flat_map (rev_fin f) (seq 0 (num_states f)) /\
    (forall q, (q < num_states f)%nat -> trs_of g (S q) = flat_map (rev_trs f q) (seq 0 (num_states f))) /\
    (forall q, fin_of g q = match vstart f with Some s0 => if q =? S s0 then Some 1 else None | None => None end).
  Proof.
    intros [C1 C2]. unfold reverse. set (n := num_states f).
    destruct (add_state_eff (vnew (K := K'))) as (E1 & E2 & E3 & E4 & E5 & E6 & E7 & E8).
    destruct (add_state vnew) as [g0 o]. cbn [fst snd] in *.
    destruct (add_states_eff g0 n) as (A1 & A2 & A3 & A4 & A5 & A6 & A7). set (g1 := add_states g0 n) in *.
    assert (Hn : num_states g1 = S n) by (rewrite A1, E2; reflexivity).
    assert (FB : forallb (fun s => forallb (fun t : tr K => ns t <? n) (trs_of f s)) (seq 0 n) = true).
    { apply forallb_forall. intros s _. apply forallb_forall. intros t Ht. apply Nat.ltb_lt. apply (C1 s); auto. }
    rewrite FB. destruct (rev_all f n 0 g1 (repeat [] (n + 1))) as (g2 & l & E & F & Ll & T & N & B0 & BS).
    { lia. } { rewrite repeat_length. lia. } { intros s t Ht. specialize (C1 s t Ht). unfold n in *. lia. }
    rewrite E. cbn [rbind]. rewrite repeat_length in Ll.
    destruct (set_all l 0 g2) as (h & Eh & Fh & Th & Nh); [rewrite (eff_n _ _ F); lia|].
    rewrite Ll in Eh. rewrite Eh. cbn [rbind].
    assert (Ho : o = O) by exact E1. clear E1. subst o.
    assert (Hh : num_states h = S n) by (rewrite (eff_n _ _ Fh), (eff_n _ _ F); auto).
    destruct (set_start_eff h O) as (k & Ek & S1 & S2 & S3 & S4 & S5 & S6 & S7); [lia|].
    rewrite Ek. cbn [rbind]. eexists. split; [reflexivity|].
    assert (Z : forall q, nth q (repeat (@nil (tr K')) (n + 1)) [] = []) by (intros; apply nth_repeat).
    assert (TT : forall q, trs_of k q = if q <? S n then nth q l [] else []).
    { intros q. rewrite S6, Th. cbn [Nat.leb andb Nat.add]. rewrite Ll, Nat.sub_0_r, Nat.add_1_r. destruct (Nat.ltb_spec q (S n)); auto.
      apply trs_of_beyond. rewrite (eff_n _ _ F). lia. }
    split; [transitivity (num_states k); [reflexivity|lia]|]. split; [exact S2|]. split; auto. split; auto. split.
    { apply S5, Fh, F, A5, E6. constructor. }
    split; [|split].
    - transitivity (trs_of k O); [reflexivity|]. rewrite TT. cbn [Nat.ltb Nat.leb]. rewrite B0, Z. auto.
    - intros q Hq. transitivity (trs_of k (S q)); [reflexivity|]. rewrite TT. destruct (Nat.ltb_spec (S q) (S n)); [|unfold n in *; lia]. rewrite BS, Z. auto.
    - intros q. transitivity (fin_of k q); [reflexivity|]. rewrite S7, Nh, N, A7, E8. unfold fin_of at 1 2. cbn [vnew vstates].
      destruct (vstart f) as [s0|] eqn:Es; [|destruct q; auto]. specialize (C2 s0 eq_refl).
      replace (s0 + 1)%nat with (S s0) by lia. destruct (Nat.ltb_spec s0 (0 + n)); [|unfold n in *; lia].
      destruct (q =? S s0); cbn; auto. destruct q; auto.
  Qed.

  (** ** Paths *)
  Fixpoint revpath (s : nat) (p : list (tr K)) : list (tr K') :=
    match p with
    | [] => []
    | t :: p' => revpath (ns t) p' ++ [rt s t]
    end.
  Lemma revpath_snoc p t : forall s, revpath s (p ++ [t]) = rt (dst s p) t :: revpath s p.
  Proof. induction p as [|u p IH]; intros s; auto. cbn [app revpath dst]. rewrite IH. auto. Qed.


  Lemma rev_paths f g s0 : closed f -> vstart f = Some s0 ->
    (forall q, (q < num_states f)%nat -> trs_of g (S q) = flat_map (rev_trs f q) (seq 0 (num_states f))) ->
    forall k (psi : nat -> list (tr K') -> K'),
      ksum (map (fun s => psum (mach g) k (S s) (fun q => if dst (S s) q =? S s0 then psi s q else 0)) (seq 0 (num_states f))) =
      psum (mach f) k s0 (fun p => psi (dst s0 p) (revpath s0 p)).
  Proof.
    intros [C1 C2] Es T. specialize (C2 s0 Es). induction k as [|k IH]; intros psi.
    - rewrite (psum_O L). simpl. rewrite <- (ksum_delta L (num_states f) (fun s => psi s []) s0 C2).
      apply ksum_map_ext. intros s _. rewrite (psum_O L). simpl. auto.
    - rewrite (psum_snoc L). specialize (IH (fun s q => ksum (map (fun t => psi (ns t) (rt s t :: q)) (trs_of f s)))).
      transitivity (psum (mach f) k s0 (fun p => ksum (map (fun t => psi (ns t) (rt (dst s0 p) t :: revpath s0 p)) (trs_of f (dst s0 p))))).
      2: { apply psum_ext. intros p _. cbn [mach mtrs]. apply ksum_map_ext. intros t _. rewrite dst_app, revpath_snoc. auto. }
      rewrite <- IH. clear IH.
      transitivity (ksum (map (fun s => ksum (map (fun s' => ksum (map (fun t => if ns t =? s
         then psum (mach g) k (S s') (fun q => if dst (S s') q =? S s0 then psi s (rt s' t :: q) else 0) else 0) (trs_of f s')))
         (seq 0 (num_states f)))) (seq 0 (num_states f)))).
      + apply ksum_map_ext. intros s Hs. apply in_seq in Hs. rewrite (psum_S L). cbn [mach mtrs]. rewrite T by lia.
        rewrite flat_map_concat_map, concat_map, map_map, <- flat_map_concat_map, (ksum_flat_map L).
        apply ksum_map_ext. intros s' _. unfold rev_trs. rewrite map_map, (ksum_filter L). apply ksum_map_ext. intros t _.
        destruct (ns t =? s); auto. cbn [rt ns]. rewrite Nat.add_1_r. apply psum_ext. intros q _. cbn [dst rt ns]. rewrite Nat.add_1_r. auto.
      + rewrite (ksum_swap L). apply ksum_map_ext. intros s' _. rewrite (ksum_swap L).
        transitivity (ksum (map (fun t => psum (mach g) k (S s') (fun q => if dst (S s') q =? S s0 then psi (ns t) (rt s' t :: q) else 0)) (trs_of f s'))).
        * apply ksum_map_ext. intros t Ht. rewrite <- (ksum_delta L (num_states f)
            (fun s => psum (mach g) k (S s') (fun q => if dst (S s') q =? S s0 then psi s (rt s' t :: q) else 0)) (ns t)).
          -- apply ksum_map_ext. intros s _. rewrite Nat.eqb_sym. auto.
          -- apply (C1 s'); auto.
        * rewrite <- (psum_ksum L). apply psum_ext. intros q _. destruct (dst (S s') q =? S s0); auto. apply (ksum_map_zero L). auto.
  Qed.

  Lemma ilabs_revpath p : forall s, ilabs (revpath s p) = rev (ilabs p).
  Proof.
    induction p as [|t p IH]; intros s; auto. cbn [revpath]. unfold ilabs in *. rewrite flat_map_app, IH. cbn [flat_map rt il].
    rewrite app_nil_r, rev_app_distr. f_equal. unfold lab. destruct (il t =? 0); auto.
  Qed.
  Lemma olabs_revpath p : forall s, olabs (revpath s p) = rev (olabs p).
  Proof.
    induction p as [|t p IH]; intros s; auto. cbn [revpath]. unfold olabs in *. rewrite flat_map_app, IH. cbn [flat_map rt ol].
    rewrite app_nil_r, rev_app_distr. f_equal. unfold lab. destruct (ol t =? 0); auto.
  Qed.
  Lemma leqb_rev x y : leqb (rev x) (rev y) = leqb x y.
  Proof.
    destruct (leqb x y) eqn:E; [apply leqb_true in E; subst; apply leqb_true; auto|].
    destruct (leqb (rev x) (rev y)) eqn:E2; auto. apply leqb_true in E2. apply (f_equal (@rev nat)) in E2. rewrite !rev_involutive in E2.
    subst. rewrite <- E. symmetry. apply leqb_true; auto.
  Qed.
  Lemma pw_snoc (p : list (tr K')) t : pw (p ++ [t]) = pw p * wgt t.
  Proof.
    induction p as [|u p IH]; simpl.
    - rewrite (ktimes_1_l _ L). apply (ktimes_1_r _ L).
    - rewrite IH. apply (ktimes_assoc _ L).
  Qed.

  Hypothesis rv_0 : rv 0 = 0.
  Hypothesis rv_1 : rv 1 = 1.
  Hypothesis rv_plus : forall a b, rv (a + b) = rv a + rv b.
  Hypothesis rv_times : forall a b, rv (a * b) = rv b * rv a.

  Lemma pw_revpath p : forall s, pw (revpath s p) = rv (pw p).
  Proof. induction p as [|t p IH]; intros s; simpl; auto. rewrite pw_snoc, IH, rv_times. auto. Qed.
  Lemma rv_ksum l : rv (ksum l) = ksum (map rv l).
  Proof. induction l; simpl; auto. rewrite rv_plus, IHl. auto. Qed.

  Theorem C05_reverse :
    forall f, closed f -> exists g, reverse rv f = Ok g /\
      num_states g = S (num_states f) /\ vstart g = Some O /\
      (forall x y, rel (mach g) O x y = 0) /\
      (forall k x y, rel (mach g) (S k) (rev x) (rev y) = rv (rel (mach f) k x y)) /\
      visymt g = visymt f /\ vosymt g = vosymt f /\ cnt g /\ closed g.
  Proof.
    intros f CL. destruct (reverse_eff f CL) as (g & E & N & St & I1 & I2 & C & T0 & TS & F). exists g.
    split; auto. split; auto. split; auto.
    split; [|split; [|split; [auto|split; [auto|split; [auto|]]]]].
    - intros x y. unfold rel. cbn [mach mstart]. rewrite St. simpl. rewrite F. destruct (vstart f); destruct (isnil x && isnil y); auto.
    - intros k x y. unfold rel. cbn [mach mstart]. rewrite St. cbn [wt]. cbn [mach mtrs]. rewrite T0.
      destruct (vstart f) as [s0|] eqn:Es.
      + (* weight from [S s], as a sum over the paths that end in [S s0] *)
        assert (W : forall s x y, wt (mach g) k (S s) x y =
           psum (mach g) k (S s) (fun q => if dst (S s) q =? S s0 then (if reads x y q then pw q else 0) else 0)).
        { intros s x' y'. rewrite (wt_psum L). apply psum_ext. intros q _. unfold apw. cbn [mach mfin]. rewrite F.
          destruct (dst (S s) q =? S s0), (reads x' y' q); cbn [fw]; auto; [apply (ktimes_1_r _ L)|apply (ktimes_0_r _ L)]. }
        rewrite flat_map_concat_map, concat_map, map_map, <- flat_map_concat_map, (ksum_flat_map L).
        transitivity (ksum (map (fun s => psum (mach g) k (S s) (fun q => if dst (S s) q =? S s0
           then (if reads (rev x) (rev y) q then rv (fw (fin_of f s)) * pw q else 0) else 0)) (seq 0 (num_states f)))).
        * apply ksum_map_ext. intros s _. unfold rev_fin. destruct (fin_of f s) as [w|].
          -- cbn [map ksum il ol wgt ns strip Nat.eqb]. rewrite (kplus_0_r L), Nat.add_1_r, W, <- (psum_times_l L). apply psum_ext. intros q _.
             cbn [fw]. destruct (dst (S s) q =? S s0), (reads (rev x) (rev y) q); auto; apply (ktimes_0_r _ L).
          -- cbn [map ksum fw]. symmetry. apply (psum_zero L). intros q _. rewrite rv_0, (ktimes_0_l _ L).
             destruct (dst (S s) q =? S s0), (reads (rev x) (rev y) q); auto.
        * rewrite (rev_paths f g s0 CL Es TS k (fun s q => if reads (rev x) (rev y) q then rv (fw (fin_of f s)) * pw q else 0)).
          rewrite (wt_psum LK). unfold psum. rewrite rv_ksum, map_map. apply ksum_map_ext. intros p _.
          unfold reads. rewrite ilabs_revpath, olabs_revpath, !leqb_rev. destruct (leqb (ilabs p) x && leqb (olabs p) y); auto.
          unfold apw. rewrite rv_times, pw_revpath. auto.
      + rewrite rv_0. apply (ksum_map_zero L). intros t Ht. apply in_flat_map in Ht as (s & _ & Ht).
        destruct (strip (il t) (rev x)); auto. destruct (strip (ol t) (rev y)); auto.
        rewrite (wt_dead L); [apply (ktimes_0_r _ L)|]. intros (u & _ & Hu). cbn [mach mfin] in Hu. rewrite F in Hu. congruence.
    - split; [|intros s Hs; rewrite St in Hs; inversion Hs; lia].
      intros s t Ht. rewrite N. destruct s as [|q].
      + rewrite T0 in Ht. apply in_flat_map in Ht as (s & Hs & Ht). apply in_seq in Hs. unfold rev_fin in Ht. destruct (fin_of f s); [|destruct Ht].
        destruct Ht as [<-|[]]. simpl. lia.
      + destruct (Nat.lt_ge_cases q (num_states f)) as [Hq|Hq].
        * rewrite TS in Ht by auto. apply in_flat_map in Ht as (s & Hs & Ht). apply in_seq in Hs. unfold rev_trs in Ht.
          apply in_map_iff in Ht as (u & <- & _). simpl. lia.
        * rewrite trs_of_beyond in Ht; [destruct Ht|lia].
  Qed.

  (** Without a start nothing is accepted. *)
  Theorem C05_reverse_no_start :
    forall f, closed f -> vstart f = None -> exists g, reverse rv f = Ok g /\
      forall k x y, rel (mach g) k x y = 0.
  Proof.
    intros f CL Es. destruct (C05_reverse f CL) as (g & E & _ & _ & R0 & RS & _). exists g. split; auto.
    intros [|k] x y; auto. rewrite <- (rev_involutive x), <- (rev_involutive y), RS. unfold rel. simpl. rewrite Es. auto.
  Qed.

End C05.
Print Assumptions C05_reverse.
Print Assumptions C05_reverse_no_start.

Example C05_witness :
  exists (f g : vfst natSR),
    run vnew [OAddStates 3; OSetStart 1; OSetFinal 0 2%nat; OSetFinal 2 3%nat; OAddTr 1 (Tr 5 6 7%nat 0);
              OAddTr 1 (Tr 5 0 11%nat 2); OAddTr 2 (Tr 0 6 13%nat 2); OAddTr 2 (Tr 9 9 1%nat 0)] = Ok f /\ closed f /\
    reverse (K' := natSR) (fun w => w) f = Ok g /\
    rel (mach f) 3 [5; 9]%nat [6; 9]%nat = 286%nat /\ rel (mach g) 4 [9; 5]%nat [9; 6]%nat = 286%nat.
Proof.
  eexists. eexists. split; [vm_compute; reflexivity|]. split.
  { split; [|cbn; intros s H; inversion H; vm_compute; lia].
    intros s t. destruct s as [|[|[|s]]]; cbn; try tauto; try (destruct s; simpl; tauto);
    intros H; repeat destruct H as [<-|H]; try destruct H; vm_compute; lia. }
  repeat (split; [vm_compute; reflexivity|]). vm_compute; reflexivity.
Qed.
