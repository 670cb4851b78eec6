(** Invariants of the partition refinement structure. *)
From Coq Require Import List Arith Lia Bool.
From Verif Require Import Base.Util Model.Partition.
Import ListNotations.

Definition nx (l : list elem) i := match nth_error l i with Some x => enext x | None => None end.
Definition pv (l : list elem) i := match nth_error l i with Some x => eprev x | None => None end.
Definition cl (l : list elem) i := match nth_error l i with Some x => ecls x | None => 0 end.
Definition ye (l : list elem) i := match nth_error l i with Some x => eyes x | None => 0 end.

Lemma set_next_ok l i v : i < length l -> exists l', set_next l i v = Ok l' /\ length l' = length l /\
  (forall j, nx l' j = if Nat.eqb i j then v else nx l j) /\
  (forall j, pv l' j = pv l j) /\ (forall j, cl l' j = cl l j) /\ (forall j, ye l' j = ye l j).
Proof.
  intros H. unfold set_next. destruct (nth_error_ex l i H) as (x & Ex). rewrite Ex. eexists. split; [reflexivity|].
  split; [apply upd_length|]. apply Nat.ltb_lt in H.
  repeat split; intros j; unfold nx, pv, cl, ye; rewrite nth_error_upd; destruct (Nat.eqb_spec i j) as [<-|]; simpl; auto;
    rewrite H; simpl; auto; rewrite Ex; auto.
Qed.
Lemma set_prev_ok l i v : i < length l -> exists l', set_prev l i v = Ok l' /\ length l' = length l /\
  (forall j, pv l' j = if Nat.eqb i j then v else pv l j) /\
  (forall j, nx l' j = nx l j) /\ (forall j, cl l' j = cl l j) /\ (forall j, ye l' j = ye l j).
Proof.
  intros H. unfold set_prev. destruct (nth_error_ex l i H) as (x & Ex). rewrite Ex. eexists. split; [reflexivity|].
  split; [apply upd_length|]. apply Nat.ltb_lt in H.
  repeat split; intros j; unfold nx, pv, cl, ye; rewrite nth_error_upd; destruct (Nat.eqb_spec i j) as [<-|]; simpl; auto;
    rewrite H; simpl; auto; rewrite Ex; auto.
Qed.
Definition oeqb (o : option nat) (j : nat) : bool := match o with Some i => Nat.eqb i j | None => false end.
Lemma set_next_opt_ok l o v : (forall i, o = Some i -> i < length l) ->
  exists l', set_next_opt l o v = Ok l' /\ length l' = length l /\
  (forall j, nx l' j = if oeqb o j then v else nx l j) /\
  (forall j, pv l' j = pv l j) /\ (forall j, cl l' j = cl l j) /\ (forall j, ye l' j = ye l j).
Proof.
  destruct o as [i|]; simpl; intros H; [apply set_next_ok; auto|]. exists l. repeat (split; auto).
Qed.
Lemma set_prev_opt_ok l o v : (forall i, o = Some i -> i < length l) ->
  exists l', set_prev_opt l o v = Ok l' /\ length l' = length l /\
  (forall j, pv l' j = if oeqb o j then v else pv l j) /\
  (forall j, nx l' j = nx l j) /\ (forall j, cl l' j = cl l j) /\ (forall j, ye l' j = ye l j).
Proof.
  destruct o as [i|]; simpl; intros H; [apply set_prev_ok; auto|]. exists l. repeat (split; auto).
Qed.

(** A doubly linked list threaded through the elements. *)
Fixpoint seg (els : list elem) (p : option nat) (l : list nat) (h : option nat) : Prop :=
  match l with
  | [] => h = None
  | x :: l' => h = Some x /\ x < length els /\ pv els x = p /\ seg els (Some x) l' (nx els x)
  end.

Lemma seg_frame els els' l : length els' = length els ->
  (forall x, In x l -> nx els' x = nx els x /\ pv els' x = pv els x) ->
  forall p h, seg els p l h -> seg els' p l h.
Proof.
  intros Hl. induction l as [|x l IH]; intros H p h; simpl; auto.
  intros (E & L & P & S). destruct (H x (or_introl eq_refl)) as [Hn Hp].
  split; auto. split; [lia|]. split; [congruence|]. rewrite Hn. apply IH; auto. intros y Hy. apply H. right; auto.
Qed.
Lemma seg_in els p l h x : seg els p l h -> In x l -> x < length els.
Proof.
  revert p h. induction l as [|y l IH]; simpl; [tauto|]. intros p h (_ & L & _ & S) [<-|H]; eauto.
Qed.
Lemma seg_head els p l h : seg els p l h -> h = hd_error l.
Proof. destruct l; simpl; auto. tauto. Qed.

Definition last_or (p : option nat) (a : list nat) : option nat :=
  match rev a with [] => p | x :: _ => Some x end.
Lemma last_or_cons p y a : last_or p (y :: a) = last_or (Some y) a.
Proof. unfold last_or. simpl. destruct (rev a); auto. Qed.
Lemma last_or_in p a q : last_or p a = Some q -> In q a \/ p = Some q.
Proof.
  unfold last_or. destruct (rev a) eqn:E; auto. intros [= ->]. left. apply in_rev. rewrite E. left; auto.
Qed.

Lemma seg_mid els a : forall p x b h, seg els p (a ++ x :: b) h ->
  pv els x = last_or p a /\ nx els x = hd_error b /\ x < length els.
Proof.
  induction a as [|y a IH]; intros p x b h; simpl.
  - intros (_ & L & P & S). apply seg_head in S. auto.
  - intros (_ & _ & _ & S). apply IH in S. rewrite last_or_cons. auto.
Qed.

(** Unlinking [x]: the links of the neighbours are redirected. *)
Lemma seg_unlink els els' a : forall p x b h,
  seg els p (a ++ x :: b) h -> NoDup (a ++ x :: b) -> length els' = length els ->
  (forall q, p = Some q -> ~ In q (a ++ x :: b)) ->
  (forall j, In j (a ++ x :: b) -> nx els' j = if oeqb (pv els x) j then nx els x else nx els j) ->
  (forall j, In j (a ++ x :: b) -> pv els' j = if oeqb (nx els x) j then pv els x else pv els j) ->
  seg els' p (a ++ b) (match a with [] => nx els x | _ => h end).
Proof.
  induction a as [|y a IH]; intros p x b h S ND Hl Hp Hn Hv; simpl in *.
  - destruct S as (-> & L & P & S). inversion ND as [|? ? Nx ND']; subst.
    destruct b as [|r b]; simpl in *; auto. destruct S as (E & Lr & Pr & S). split; auto. split; [lia|].
    rewrite E in Hv. simpl in Hv. split.
    + rewrite Hv by auto. rewrite Nat.eqb_refl. auto.
    + assert (Nr : nx els' r = nx els r).
      { rewrite Hn by auto. destruct (pv els x) as [q|] eqn:Eq; simpl; auto.
        destruct (Nat.eqb_spec q r) as [->|]; auto. exfalso. apply (Hp r); auto. }
      rewrite Nr. apply seg_frame with (els := els); auto. intros z Hz. inversion ND' as [|? ? Nr' ND'']; subst.
      split.
      * rewrite Hn by auto. destruct (pv els x) as [q|] eqn:Eq; simpl; auto.
        destruct (Nat.eqb_spec q z) as [->|]; auto. exfalso. apply (Hp z); auto.
      * rewrite Hv by auto. destruct (Nat.eqb_spec r z) as [->|]; auto. contradiction.
  - destruct S as (E & L & P & S). inversion ND as [|? ? Ny ND']; subst.
    pose proof (seg_mid _ _ _ _ _ _ S) as (Px & Nx & Lx).
    split; auto. split; [lia|]. split.
    + rewrite Hv by auto. destruct (nx els x) as [r|] eqn:Er; simpl; auto. destruct (Nat.eqb_spec r y) as [->|]; auto.
      exfalso. apply Ny. apply in_or_app. right. right. destruct b; [discriminate|]. injection Nx as ->. left; auto.
    + assert (nx els' y = match a with [] => nx els x | _ => nx els y end) as ->.
      { rewrite Hn by auto. rewrite Px. destruct a as [|z a].
        - simpl. rewrite Nat.eqb_refl. auto.
        - rewrite last_or_cons. destruct (last_or (Some z) a) as [q|] eqn:Eq; simpl; auto.
          destruct (Nat.eqb_spec q y) as [->|]; auto. exfalso. apply Ny.
          apply last_or_in in Eq. simpl. destruct Eq as [Eq|[= ->]]; auto. right. apply in_or_app. auto. }
      apply IH; auto. intros q [= <-]. auto.
Qed.

Record rep (p : partition) (no yes : nat -> list nat) : Prop := {
  r_cls : forall c k, nth_error (pcls p) c = Some k ->
    seg (pels p) None (no c) (cno k) /\ seg (pels p) None (yes c) (cyes k) /\
    csize k = length (no c) + length (yes c) /\ cysize k = length (yes c);
  r_out : forall c, length (pcls p) <= c -> no c = [] /\ yes c = [];
  r_no : forall c e, In e (no c) -> cl (pels p) e = c /\ ye (pels p) e < pcnt p;
  r_yes : forall c e, In e (yes c) -> cl (pels p) e = c /\ ye (pels p) e = pcnt p;
  r_ndn : forall c, NoDup (no c);
  r_ndy : forall c, NoDup (yes c);
  r_vis : NoDup (pvis p);
  r_visin : forall c, In c (pvis p) <-> yes c <> [];
  r_cnt : 0 < pcnt p
}.

Definition ups {A} (f : nat -> A) (c : nat) (v : A) : nat -> A := fun x => if Nat.eqb x c then v else f x.
Lemma ups_eq {A} (f : nat -> A) c v : ups f c v c = v.
Proof. unfold ups. rewrite Nat.eqb_refl. auto. Qed.
Lemma ups_ne {A} (f : nat -> A) c v x : x <> c -> ups f c v x = f x.
Proof. unfold ups. intros H. apply Nat.eqb_neq in H. rewrite H. auto. Qed.

Lemma rep_lt p no yes c e : rep p no yes -> In e (no c) \/ In e (yes c) -> e < length (pels p) /\ c < length (pcls p).
Proof.
  intros R H. destruct (Nat.lt_ge_cases c (length (pcls p))) as [L|L].
  - destruct (nth_error_ex _ _ L) as (k & Ek). destruct (r_cls _ _ _ R c k Ek) as (S1 & S2 & _).
    split; auto. destruct H; [eapply seg_in; [exact S1|]|eapply seg_in; [exact S2|]]; auto.
  - destruct (r_out _ _ _ R c L) as [E1 E2]. rewrite E1, E2 in H. simpl in H. tauto.
Qed.

Lemma rep_alloc p no yes k : rep p no yes -> rep (p_allocate p k) no yes.
Proof.
  intros R. destruct R as [R1 R2 R3 R4 R5 R6 R7 R8 R9]. constructor; simpl; auto.
  - intros c x E. destruct (Nat.lt_ge_cases c (length (pcls p))) as [L|L].
    + rewrite nth_error_app1 in E by auto. auto.
    + destruct (R2 c L) as [-> ->]. rewrite nth_error_app2 in E by auto.
      assert (x = pclass_new) as ->. { apply nth_error_In in E. apply repeat_spec in E. auto. }
      simpl. auto.
  - intros c. rewrite app_length. intros. apply R2. lia.
Qed.

Lemma rep_new n : rep (partition_new n) (fun _ => []) (fun _ => []).
Proof.
  constructor; simpl; auto; try tauto; try (intros; constructor; fail); try congruence.
  - intros c k E. destruct c; discriminate.
Qed.

(** Adding an element that is in no class. *)
Lemma rep_add p no yes e c : rep p no yes -> e < length (pels p) -> c < length (pcls p) ->
  (forall d, ~ In e (no d) /\ ~ In e (yes d)) ->
  exists p', p_add p e c = Ok p' /\ rep p' (ups no c (e :: no c)) yes /\
    length (pels p') = length (pels p) /\ length (pcls p') = length (pcls p) /\ pcnt p' = pcnt p /\ pvis p' = pvis p.
Proof.
  intros R He Hc Fr. unfold p_add. destruct (nth_error_ex _ _ Hc) as (k & Ek). rewrite Ek.
  destruct (r_cls _ _ _ R c k Ek) as (S1 & S2 & Z1 & Z2).
  destruct (set_prev_opt_ok (pels p) (cno k) (Some e)) as (l' & El & Ll & Hp & Hn & Hcl & Hye).
  { intros i Ei. apply seg_head in S1 as E1. rewrite Ei in E1. eapply seg_in; [exact S1|].
    destruct (no c); [discriminate|]. injection E1 as ->. left; auto. }
  rewrite El. cbn [rbind]. rewrite Ll. rewrite (proj2 (Nat.ltb_lt _ _) He).
  eexists. split; [reflexivity|]. cbn [pels pcls pvis pcnt]. rewrite !upd_length.
  split; [|repeat (split; auto)].
  set (els := upd l' e _).
  assert (Le : length els = length (pels p)) by (unfold els; rewrite upd_length; auto).
  assert (Ne : nx els e = cno k /\ pv els e = None /\ cl els e = c /\ ye els e = 0).
  { unfold els, nx, pv, cl, ye. rewrite nth_error_upd_eq by lia. auto. }
  assert (No : forall j, j <> e -> nx els j = nx l' j /\ pv els j = pv l' j /\ cl els j = cl l' j /\ ye els j = ye l' j).
  { intros j Hj. unfold els, nx, pv, cl, ye. rewrite nth_error_upd_ne by auto. auto. }
  assert (Fr2 : forall d x, In x (no d) \/ In x (yes d) -> x <> e).
  { intros d x [H|H] ->; destruct (Fr d); auto. }
  destruct R as [R1 R2 R3 R4 R5 R6 R7 R8 R9]. constructor; cbn [pels pcls pvis pcnt]; auto.
  - intros d x. rewrite nth_error_upd. destruct (Nat.eqb_spec c d) as [<-|Nd].
    + rewrite (proj2 (Nat.ltb_lt _ _) Hc). intros [= <-]. rewrite ups_eq. simpl. split; [|split; [|split]]; auto; try lia.
      * split; auto. split; [lia|]. split; [tauto|]. destruct Ne as (-> & _).
        pose proof (seg_head _ _ _ _ S1) as Eh.
        destruct (no c) as [|h t] eqn:En; simpl in *; auto. destruct S1 as (Eh' & Lh & Ph & S1).
        assert (h <> e) by (apply (Fr2 c); rewrite En; simpl; auto). destruct (No h) as (N1 & N2 & _); auto.
        split; auto. split; [lia|]. split.
        { rewrite N2, Hp, Eh. simpl. rewrite Nat.eqb_refl. auto. }
        rewrite N1, Hn. apply seg_frame with (els := pels p); auto. intros y Hy.
        assert (y <> e) by (apply (Fr2 c); rewrite En; simpl; auto). destruct (No y) as (N3 & N4 & _); auto.
        rewrite N3, N4, Hn, Hp, Eh. simpl. split; auto. destruct (Nat.eqb_spec h y); auto. subst.
        pose proof (R5 c) as ND. rewrite En in ND. inversion ND; contradiction.
      * apply seg_frame with (els := pels p); auto. intros y Hy. destruct (No y) as (N3 & N4 & _); [apply (Fr2 c); auto|].
        rewrite N3, N4, Hn, Hp. split; auto. destruct (oeqb (cno k) y) eqn:Eq; auto. exfalso.
        destruct (cno k) as [h|] eqn:Eh; simpl in Eq; [|discriminate]. apply Nat.eqb_eq in Eq. subst h.
        apply seg_head in S1. destruct (no c) eqn:En; [discriminate|]. injection S1 as <-.
        destruct (R3 c y) as [_ Q1]; [rewrite En; simpl; auto|]. destruct (R4 c y Hy) as [_ Q2]. lia.
    + simpl. intros Ex. rewrite ups_ne by auto. destruct (R1 d x Ex) as (T1 & T2 & T3 & T4).
      assert (FrS : forall l h, (forall y, In y l -> In y (no d) \/ In y (yes d)) -> seg (pels p) None l h -> seg els None l h).
      { intros l h Hl. apply seg_frame; auto. intros y Hy. apply Hl in Hy.
        destruct (No y) as (N3 & N4 & _); [apply (Fr2 d); auto|].
        rewrite N3, N4, Hn, Hp. split; auto. destruct (oeqb (cno k) y) eqn:Eq; auto. exfalso.
        destruct (cno k) as [h0|] eqn:Eh; simpl in Eq; [|discriminate]. apply Nat.eqb_eq in Eq. subst h0.
        apply seg_head in S1. destruct (no c) eqn:En; [discriminate|]. injection S1 as <-.
        destruct (R3 c y) as [Q1 _]; [rewrite En; simpl; auto|].
        destruct Hy as [Hy|Hy]; [destruct (R3 d y Hy)|destruct (R4 d y Hy)]; congruence. }
      split; [apply FrS; auto|]. split; [apply FrS; auto|]. auto.
  - intros d. rewrite upd_length. intros Ld. destruct (R2 d Ld). rewrite ups_ne by lia. auto.
  - intros d x. unfold ups. destruct (Nat.eqb_spec d c) as [->|Nd].
    + intros [<-|Hx]; [destruct Ne as (_ & _ & -> & ->); auto|].
      destruct (No x) as (_ & _ & -> & ->); [apply (Fr2 c); auto|]. rewrite Hcl, Hye. auto.
    + intros Hx. destruct (No x) as (_ & _ & -> & ->); [apply (Fr2 d); auto|]. rewrite Hcl, Hye. auto.
  - intros d x Hx. destruct (No x) as (_ & _ & -> & ->); [apply (Fr2 d); auto|]. rewrite Hcl, Hye. auto.
  - intros d. unfold ups. destruct (Nat.eqb_spec d c) as [->|Nd]; auto. constructor; auto. apply Fr.
Qed.

(** Unlinking an unmarked element: the common part of [move_element] and [split_on]. *)
Lemma unlink_ok p no yes a e b c k : rep p no yes -> no c = a ++ e :: b -> nth_error (pcls p) c = Some k ->
  exists l1 l2, set_next_opt (pels p) (pv (pels p) e) (nx (pels p) e) = Ok l1 /\
    set_prev_opt l1 (nx (pels p) e) (pv (pels p) e) = Ok l2 /\ length l2 = length (pels p) /\
    (forall j, cl l2 j = cl (pels p) j) /\ (forall j, ye l2 j = ye (pels p) j) /\
    seg l2 None (a ++ b) (match pv (pels p) e with Some _ => cno k | None => nx (pels p) e end) /\
    (forall d h, d <> c -> seg (pels p) None (no d) h -> seg l2 None (no d) h) /\
    (forall d h, seg (pels p) None (yes d) h -> seg l2 None (yes d) h).
Proof.
  intros R En Ek. destruct (r_cls _ _ _ R c k Ek) as (S1 & _). rewrite En in S1.
  pose proof (seg_mid _ _ _ _ _ _ S1) as (Pe & Nxe & Le).
  assert (IP : forall q, pv (pels p) e = Some q -> In q (no c)).
  { intros q Eq. rewrite Pe in Eq. apply last_or_in in Eq. destruct Eq as [H|H]; [|discriminate]. rewrite En. apply in_or_app; auto. }
  assert (IN : forall q, nx (pels p) e = Some q -> In q (no c)).
  { intros q Eq. rewrite Nxe in Eq. rewrite En. apply in_or_app. right. right. destruct b; [discriminate|]. injection Eq as ->. left; auto. }
  destruct (set_next_opt_ok (pels p) (pv (pels p) e) (nx (pels p) e)) as (l1 & E1 & L1 & H1n & H1p & H1c & H1y).
  { intros q Eq. eapply (rep_lt p no yes c); eauto. }
  destruct (set_prev_opt_ok l1 (nx (pels p) e) (pv (pels p) e)) as (l2 & E2 & L2 & H2p & H2n & H2c & H2y).
  { intros q Eq. rewrite L1. eapply (rep_lt p no yes c); eauto. }
  exists l1, l2. split; auto. split; auto. split; [lia|].
  split; [intros; rewrite H2c; auto|]. split; [intros; rewrite H2y; auto|].
  split; [|assert (Fr : forall l h, (forall y, In y l -> ~ In y (no c)) -> seg (pels p) None l h -> seg l2 None l h)].
  - assert (match pv (pels p) e with Some _ => cno k | None => nx (pels p) e end =
            match a with [] => nx (pels p) e | _ => cno k end) as ->.
    { rewrite Pe. destruct a as [|y a']; simpl; auto. rewrite last_or_cons. unfold last_or. destruct (rev a'); auto. }
    eapply seg_unlink; eauto; try lia.
    + rewrite <- En. apply (r_ndn _ _ _ R).
    + intros q; discriminate.
    + intros j _. rewrite H2n, H1n. auto.
    + intros j _. rewrite H2p, H1p. auto.
  - intros l h Hl. apply seg_frame; [lia|]. intros y Hy. apply Hl in Hy.
    rewrite H2n, H1n, H2p, H1p. split.
    + destruct (pv (pels p) e) as [q|] eqn:Eq; simpl; auto. destruct (Nat.eqb_spec q y) as [->|]; auto. exfalso; auto.
    + destruct (nx (pels p) e) as [q|] eqn:Eq; simpl; auto. destruct (Nat.eqb_spec q y) as [->|]; auto. exfalso; auto.
  - split.
    + intros d h Nd. apply Fr. intros y Hy Hy'. destruct (r_no _ _ _ R d y Hy), (r_no _ _ _ R c y Hy'). congruence.
    + intros d h. apply Fr. intros y Hy Hy'. destruct (r_yes _ _ _ R d y Hy), (r_no _ _ _ R c y Hy'). lia.
Qed.

Lemma nx_at l i x : nth_error l i = Some x -> enext x = nx l i /\ eprev x = pv l i /\ ecls x = cl l i /\ eyes x = ye l i.
Proof. intros E. unfold nx, pv, cl, ye. rewrite E. auto. Qed.

Lemma in_split_nat (x : nat) l : In x l -> exists a b, l = a ++ x :: b.
Proof. apply in_split. Qed.

(** Moving an unmarked element. *)
Lemma rep_move p no yes e c d a b : rep p no yes -> no c = a ++ e :: b -> d < length (pcls p) ->
  exists p', p_move p e d = Ok p' /\
    rep p' (ups (ups no c (a ++ b)) d (e :: ups no c (a ++ b) d)) yes /\
    length (pels p') = length (pels p) /\ length (pcls p') = length (pcls p) /\ pcnt p' = pcnt p.
Proof.
  intros R En Hd.
  assert (Ie : In e (no c)) by (rewrite En; apply in_or_app; right; left; auto).
  destruct (rep_lt p no yes c e R (or_introl Ie)) as [Le Lc].
  unfold p_move. destruct (nth_error_ex _ _ Le) as (x & Ex). rewrite Ex.
  destruct (nx_at _ _ _ Ex) as (-> & -> & -> & _). destruct (r_no _ _ _ R c e Ie) as [Ec Ey]. rewrite Ec.
  destruct (nth_error_ex _ _ Lc) as (k & Ek). rewrite Ek.
  destruct (r_cls _ _ _ R c k Ek) as (S1 & S2 & Z1 & Z2).
  destruct (csize k) as [|n] eqn:Ecs. { rewrite En, app_length in Z1. simpl in Z1. lia. }
  destruct (unlink_ok p no yes a e b c k R En Ek) as (l1 & l2 & E1 & E2 & Ll & Hc & Hy & Sg & Fn & Fy).
  rewrite E1. cbn [rbind]. rewrite E2. cbn [rbind].
  set (p1 := Pt l2 _ _ _).
  assert (ND : NoDup (a ++ b) /\ ~ In e (a ++ b)).
  { pose proof (r_ndn _ _ _ R c) as ND. rewrite En in ND. split; [eapply NoDup_remove_1; eauto|eapply NoDup_remove_2; eauto]. }
  assert (Sub : forall y, In y (a ++ b) -> In y (no c)).
  { intros y H. rewrite En. apply in_app_or in H. apply in_or_app. simpl. tauto. }
  assert (R1 : rep p1 (ups no c (a ++ b)) yes).
  { unfold p1. destruct R as [R1 R2 R3 R4 R5 R6 R7 R8 R9]. constructor; cbn [pels pcls pvis pcnt]; auto.
    - intros i k'. rewrite nth_error_upd. destruct (Nat.eqb_spec c i) as [<-|Ni].
      + rewrite (proj2 (Nat.ltb_lt _ _) Lc). intros [= <-]. rewrite ups_eq. cbn [cno cyes csize cysize].
        split; auto. split; [apply Fy; auto|]. split; auto. rewrite En in Z1. rewrite app_length in Z1 |- *. simpl in Z1. lia.
      + simpl. intros Ei. rewrite ups_ne by auto. destruct (R1 i k' Ei) as (T1 & T2 & T3 & T4).
        split; [apply Fn; auto|]. split; [apply Fy; auto|]. auto.
    - intros i. rewrite upd_length. intros Li. rewrite ups_ne by lia. auto.
    - intros i y. rewrite Hc, Hy. unfold ups. destruct (Nat.eqb_spec i c) as [->|]; auto.
    - intros i y. rewrite Hc, Hy. auto.
    - intros i. unfold ups. destruct (Nat.eqb_spec i c); auto. tauto. }
  destruct (rep_add p1 _ yes e d R1) as (p' & Ep & R' & Lp & Lc' & Cp & _).
  - unfold p1. simpl. lia.
  - unfold p1. simpl. rewrite upd_length. auto.
  - intros i. split.
    + unfold ups. destruct (Nat.eqb_spec i c); [tauto|]. intros H. destruct (r_no _ _ _ R i e H). congruence.
    + intros H. destruct (r_yes _ _ _ R i e H). lia.
  - exists p'. split; auto. split; auto. unfold p1 in *. simpl in *. rewrite upd_length in Lc'. repeat split; auto; lia.
Qed.

(** Marking an unmarked element. *)
Lemma rep_split p no yes e c a b : rep p no yes -> no c = a ++ e :: b ->
  exists p', p_split_on p e = Ok p' /\ rep p' (ups no c (a ++ b)) (ups yes c (e :: yes c)) /\
    length (pels p') = length (pels p) /\ length (pcls p') = length (pcls p) /\ pcnt p' = pcnt p.
Proof.
  intros R En.
  assert (Ie : In e (no c)) by (rewrite En; apply in_or_app; right; left; auto).
  destruct (rep_lt p no yes c e R (or_introl Ie)) as [Le Lc].
  unfold p_split_on. destruct (nth_error_ex _ _ Le) as (x & Ex). rewrite Ex.
  destruct (nx_at _ _ _ Ex) as (-> & -> & -> & ->). destruct (r_no _ _ _ R c e Ie) as [Ec Ey]. rewrite Ec.
  destruct (nth_error_ex _ _ Lc) as (k & Ek). rewrite Ek.
  destruct (r_cls _ _ _ R c k Ek) as (S1 & S2 & Z1 & Z2).
  destruct (Nat.eqb_spec (ye (pels p) e) (pcnt p)) as [|_]; [lia|].
  destruct (unlink_ok p no yes a e b c k R En Ek) as (l1 & l2 & E1 & E2 & Ll & Hc & Hy & Sg & Fn & Fy).
  rewrite E1. cbn [rbind]. rewrite E2. cbn [rbind].
  pose proof (seg_head _ _ _ _ S2) as Hyh.
  assert (Iy : forall i, cyes k = Some i -> In i (yes c)).
  { intros i Ei. rewrite Ei in Hyh. destruct (yes c); [discriminate|]. injection Hyh as ->. left; auto. }
  destruct (set_prev_opt_ok l2 (cyes k) (Some e)) as (l3 & E3 & L3 & H3p & H3n & H3c & H3y).
  { intros i Ei. rewrite Ll. eapply (rep_lt p no yes c); eauto. }
  rewrite E3. cbn [rbind]. destruct (nth_error_ex l3 e) as (y & Ey3); [lia|]. rewrite Ey3.
  eexists. split; [reflexivity|]. cbn [pels pcls pvis pcnt]. rewrite !upd_length. split; [|repeat split; auto; lia].
  set (els := upd l3 e _).
  assert (Lels : length els = length (pels p)) by (unfold els; rewrite upd_length; lia).
  assert (Ne : nx els e = cyes k /\ pv els e = None /\ cl els e = c /\ ye els e = pcnt p).
  { unfold els. destruct (nx_at _ _ _ Ey3) as (_ & _ & Hcy & _). unfold nx, pv, cl, ye. rewrite nth_error_upd_eq by lia. simpl.
    repeat split; auto. rewrite Hcy, H3c, Hc. auto. }
  assert (No : forall j, j <> e -> nx els j = nx l3 j /\ pv els j = pv l3 j /\ cl els j = cl l3 j /\ ye els j = ye l3 j).
  { intros j Hj. unfold els, nx, pv, cl, ye. rewrite nth_error_upd_ne by auto. auto. }
  assert (ND : NoDup (a ++ b) /\ ~ In e (a ++ b)).
  { pose proof (r_ndn _ _ _ R c) as ND. rewrite En in ND. split; [eapply NoDup_remove_1; eauto|eapply NoDup_remove_2; eauto]. }
  assert (Sub : forall y, In y (a ++ b) -> In y (no c)).
  { intros z H. rewrite En. apply in_app_or in H. apply in_or_app. simpl. tauto. }
  assert (Nn : forall d z, d <> c -> In z (no d) -> z <> e).
  { intros d z Nd H ->. destruct (r_no _ _ _ R d e H). congruence. }
  assert (Nyy : forall d z, In z (yes d) -> z <> e).
  { intros d z H ->. destruct (r_yes _ _ _ R d e H). lia. }
  assert (Fr : forall l h, (forall z, In z l -> z <> e /\ cyes k <> Some z) -> seg l2 None l h -> seg els None l h).
  { intros l h Hl. apply seg_frame; [lia|]. intros z Hz. destruct (Hl z Hz) as [Hz1 Hz2].
    destruct (No z Hz1) as (-> & -> & _). rewrite H3n, H3p. split; auto.
    destruct (cyes k) as [i|]; simpl; auto. destruct (Nat.eqb_spec i z); subst; congruence. }
  assert (Hvis : (yes c = [] /\ cyes k = None) \/ (yes c <> [] /\ exists i, cyes k = Some i)).
  { rewrite Hyh. destruct (yes c); simpl; [left|right]; split; auto; try discriminate. eauto. }
  destruct R as [R1 R2 R3 R4 R5 R6 R7 R8 R9]. constructor; cbn [pels pcls pvis pcnt]; auto.
  - intros i k'. rewrite nth_error_upd. destruct (Nat.eqb_spec c i) as [<-|Ni].
    + rewrite (proj2 (Nat.ltb_lt _ _) Lc). intros [= <-]. rewrite !ups_eq. cbn [cno cyes csize cysize].
      split; [|split; [|split]].
      * apply Fr; auto. intros z Hz. split; [intros ->; tauto|]. intros Ez. apply Iy in Ez.
        destruct (R4 c z Ez), (R3 c z (Sub z Hz)). lia.
      * simpl. split; auto. split; [lia|]. split; [tauto|]. destruct Ne as (-> & _). rewrite Hyh.
        specialize (Fy c (cyes k) S2). rewrite Hyh in Fy, H3p.
        destruct (yes c) as [|h t] eqn:Eyc; simpl in *; auto. destruct Fy as (_ & Lh & Ph & Fy).
        assert (h <> e) by (apply (Nyy c); rewrite Eyc; simpl; auto). destruct (No h) as (N1 & N2 & _); auto.
        split; auto. split; [lia|]. split; [rewrite N2, H3p, Nat.eqb_refl; auto|].
        rewrite N1, H3n. apply seg_frame with (els := l2); [lia| |auto]. intros z Hz.
        assert (z <> e) by (apply (Nyy c); rewrite Eyc; simpl; auto). destruct (No z) as (N3 & N4 & _); auto.
        rewrite N3, N4, H3n, H3p. split; auto. destruct (Nat.eqb_spec h z) as [->|]; auto.
        pose proof (R6 c) as NDy. rewrite Eyc in NDy. inversion NDy; contradiction.
      * rewrite En in Z1. rewrite app_length in Z1 |- *. simpl in *. lia.
      * simpl. lia.
    + simpl. intros Ei. rewrite !ups_ne by auto. destruct (R1 i k' Ei) as (T1 & T2 & T3 & T4).
      split; [|split; auto].
      * apply Fr; [|apply Fn; auto]. intros z Hz. split; [apply (Nn i); auto|]. intros Ez. apply Iy in Ez.
        destruct (R4 c z Ez), (R3 i z Hz). lia.
      * apply Fr; [|apply Fy; auto]. intros z Hz. split; [apply (Nyy i); auto|]. intros Ez. apply Iy in Ez.
        destruct (R4 c z Ez), (R4 i z Hz). congruence.
  - intros i. rewrite upd_length. intros Li. rewrite !ups_ne by lia. auto.
  - intros i z Hz.
    assert (Hz' : In z (no i) /\ z <> e).
    { unfold ups in Hz. destruct (Nat.eqb_spec i c) as [->|Ni]; [|split; [auto|eapply Nn; eauto]].
      split; auto. intros ->; tauto. }
    destruct Hz' as [Hz1 Hz2]. destruct (No z Hz2) as (_ & _ & -> & ->). rewrite H3c, H3y, Hc, Hy. auto.
  - intros i z Hz. unfold ups in Hz. destruct (Nat.eqb_spec i c) as [->|Ni].
    + destruct Hz as [<-|Hz]; [tauto|]. destruct (No z) as (_ & _ & -> & ->); [apply (Nyy c); auto|].
      rewrite H3c, H3y, Hc, Hy. auto.
    + destruct (No z) as (_ & _ & -> & ->); [apply (Nyy i); auto|]. rewrite H3c, H3y, Hc, Hy. auto.
  - intros i. unfold ups. destruct (Nat.eqb_spec i c); auto. tauto.
  - intros i. unfold ups. destruct (Nat.eqb_spec i c) as [->|]; auto. constructor; auto. intros H. apply (Nyy c e H). auto.
  - destruct Hvis as [[Hv ->]|[Hv (i & ->)]]; auto. apply NoDup_app_snoc; auto. rewrite R8. tauto.
  - intros i. destruct Hvis as [[Hv ->]|[Hv (j & ->)]].
    + rewrite in_app_iff. simpl. unfold ups. destruct (Nat.eqb_spec i c) as [->|Ni].
      * split; [discriminate|auto].
      * rewrite R8. split; [intros [H|[H|[]]]; [auto|congruence]|auto].
    + rewrite R8. unfold ups. destruct (Nat.eqb_spec i c) as [->|Ni]; [|tauto]. split; [discriminate|auto].
Qed.

(** ** The loop of [finalize_split]. *)
Record repf (p : partition) (v : list nat) (no yes : nat -> list nat) : Prop := {
  f_cls : forall c k, nth_error (pcls p) c = Some k ->
    seg (pels p) None (no c) (cno k) /\ seg (pels p) None (yes c) (cyes k) /\
    csize k = length (no c) + length (yes c) /\ cysize k = length (yes c);
  f_out : forall c, length (pcls p) <= c -> no c = [] /\ yes c = [];
  f_cl : forall c e, In e (no c) \/ In e (yes c) -> cl (pels p) e = c /\ ye (pels p) e <= pcnt p;
  f_disj : forall c e, In e (no c) -> In e (yes c) -> False;
  f_ndn : forall c, NoDup (no c);
  f_ndy : forall c, NoDup (yes c);
  f_v : NoDup v;
  f_vin : forall c, In c v <-> yes c <> []
}.

Lemma relabel_ok c : forall l els p h fuel, seg els p l h -> NoDup l -> length l <= fuel ->
  exists els', relabel_list fuel els h c = Ok els' /\ length els' = length els /\
    (forall j, nx els' j = nx els j) /\ (forall j, pv els' j = pv els j) /\ (forall j, ye els' j = ye els j) /\
    (forall j, In j l -> cl els' j = c) /\ (forall j, ~ In j l -> cl els' j = cl els j).
Proof.
  induction l as [|x l IH]; intros els p h fuel S ND Hf; simpl in S.
  - subst h. destruct fuel; simpl; exists els; repeat (split; auto); simpl; tauto.
  - destruct S as (-> & L & P & S). destruct fuel as [|fuel]; [simpl in Hf; lia|]. simpl in Hf. cbn [relabel_list].
    destruct (nth_error_ex _ _ L) as (y & Ey). rewrite Ey. destruct (nx_at _ _ _ Ey) as (Ny & Py & Cy & Yy).
    set (els1 := upd els x _). inversion ND as [|? ? Nx ND']; subst.
    assert (Same : length els1 = length els /\ (forall j, nx els1 j = nx els j) /\ (forall j, pv els1 j = pv els j) /\
                   (forall j, ye els1 j = ye els j) /\ (forall j, cl els1 j = if Nat.eqb x j then c else cl els j)).
    { unfold els1. split; [apply upd_length|]. apply Nat.ltb_lt in L.
      repeat split; intros j; unfold nx, pv, cl, ye; rewrite nth_error_upd; destruct (Nat.eqb_spec x j) as [<-|]; simpl; auto;
        rewrite L; simpl; try rewrite Ey; auto. }
    destruct Same as (Ls & Sn & Sp & Sy & Sc).
    destruct (IH els1 (Some x) (nx els x) fuel) as (els' & E & L' & Hn & Hp & Hy & Hc & Hc'); auto; [|lia|].
    { apply seg_frame with (els := els); auto. }
    rewrite Ny. exists els'. split; auto. split; [lia|].
    split; [intros; rewrite Hn; auto|]. split; [intros; rewrite Hp; auto|]. split; [intros; rewrite Hy; auto|].
    split.
    + intros j [<-|Hj]; [|auto]. rewrite Hc', Sc, Nat.eqb_refl; auto.
    + intros j Hj. simpl in Hj. rewrite Hc', Sc by tauto. destruct (Nat.eqb_spec x j); auto. tauto.
Qed.

Lemma nodup_len l n : NoDup l -> (forall x, In x l -> x < n) -> length l <= n.
Proof.
  intros ND H. rewrite <- (seq_length n 0). apply NoDup_incl_length; auto. intros x Hx. apply in_seq. specialize (H x Hx). lia.
Qed.

Lemma seg_same els els' : length els' = length els -> (forall j, nx els' j = nx els j) -> (forall j, pv els' j = pv els j) ->
  forall l h, seg els None l h -> seg els' None l h.
Proof. intros. apply seg_frame with (els := els); auto. Qed.

Lemma refine_ok p c v no yes : repf p (c :: v) no yes ->
  exists o p' no', p_split_refine p c = Ok (o, p') /\ repf p' v no' (ups yes c []) /\
    pcnt p' = pcnt p /\ pvis p' = pvis p /\ length (pels p') = length (pels p) /\
    (forall e, ye (pels p') e = ye (pels p) e) /\
    match o with
    | None => no c = [] /\ no' = ups no c (yes c) /\ (forall e, cl (pels p') e = cl (pels p) e) /\
              length (pcls p') = length (pcls p)
    | Some nc => nc = length (pcls p) /\ length (pcls p') = S (length (pcls p)) /\
        exists kp mv, (kp = no c /\ mv = yes c \/ kp = yes c /\ mv = no c) /\ kp <> [] /\ mv <> [] /\
          length mv <= length kp /\ no' = ups (ups no c kp) nc mv /\
          (forall e, In e mv -> cl (pels p') e = nc) /\ (forall e, ~ In e mv -> cl (pels p') e = cl (pels p) e)
    end.
Proof.
  intros R. assert (Hyc : yes c <> []) by (apply (f_vin _ _ _ _ R); left; auto).
  assert (Hc : c < length (pcls p)).
  { destruct (Nat.lt_ge_cases c (length (pcls p))); auto. destruct (f_out _ _ _ _ R c); auto. contradiction. }
  destruct (nth_error_ex _ _ Hc) as (k & Ek). destruct (f_cls _ _ _ _ R c k Ek) as (S1 & S2 & Z1 & Z2).
  unfold p_split_refine. rewrite Ek. rewrite Z1, Z2.
  rewrite (proj2 (Nat.ltb_ge (length (no c) + length (yes c)) (length (yes c)))) by lia.
  replace (length (no c) + length (yes c) - length (yes c)) with (length (no c)) by lia.
  assert (NDv : NoDup v /\ ~ In c v) by (pose proof (f_v _ _ _ _ R) as H; inversion H; auto).
  assert (Vin : forall d, In d v <-> ups yes c [] d <> []).
  { intros d. unfold ups. destruct (Nat.eqb_spec d c) as [->|Nd]; [tauto|].
    rewrite <- (f_vin _ _ _ _ R d). simpl. split; [auto|]. intros [H|H]; [congruence|auto]. }
  assert (InLt : forall e d, In e (no d) \/ In e (yes d) -> e < length (pels p)).
  { intros e d H. destruct (Nat.lt_ge_cases d (length (pcls p))) as [Ld|Ld].
    - destruct (nth_error_ex _ _ Ld) as (x & Ex). destruct (f_cls _ _ _ _ R d x Ex) as (T1 & T2 & _).
      destruct H; [eapply seg_in; [exact T1|]|eapply seg_in; [exact T2|]]; auto.
    - destruct (f_out _ _ _ _ R d Ld) as [E1 E2]. rewrite E1, E2 in H. simpl in H. tauto. }
  destruct (Nat.eqb_spec (length (no c)) 0) as [E0|E0].
  - apply length_zero_iff_nil in E0.
    exists None. eexists. exists (ups no c (yes c)). split; [reflexivity|]. cbn [pels pcls pvis pcnt].
    split; [|repeat (split; auto); apply upd_length].
    destruct R as [R1 R2 R3 R4 R5 R6 R7 R8]. constructor; cbn [pels pcls pvis pcnt]; auto.
    + intros d x. rewrite nth_error_upd. destruct (Nat.eqb_spec c d) as [<-|Nd].
      * rewrite (proj2 (Nat.ltb_lt _ _) Hc). intros [= <-]. rewrite !ups_eq. cbn [cno cyes csize cysize].
        rewrite E0. simpl. repeat (split; auto).
      * simpl. intros Ed. rewrite !ups_ne by auto. auto.
    + intros d. rewrite upd_length. intros Ld. rewrite !ups_ne by lia. auto.
    + intros d e. unfold ups. destruct (Nat.eqb_spec d c) as [->|]; auto. simpl. intros [H|[]]. auto.
    + intros d e. unfold ups. destruct (Nat.eqb_spec d c) as [->|]; auto. eauto.
    + intros d. unfold ups. destruct (Nat.eqb_spec d c) as [->|]; auto.
    + intros d. unfold ups. destruct (Nat.eqb_spec d c) as [->|]; auto. constructor.
    + tauto.
  - assert (En0 : no c <> []) by (destruct (no c); [simpl in E0; lia|discriminate]).
    (* the two branches differ in which half keeps the number *)
    assert (Br : exists kp mv hk hm,
      (if Nat.ltb (length (no c)) (length (yes c))
       then (Cl (length (yes c)) 0 (cyes k) None, Cl (length (no c)) 0 (cno k) None)
       else (Cl (length (no c)) 0 (cno k) None, Cl (length (yes c)) 0 (cyes k) None)) =
      (Cl (length kp) 0 hk None, Cl (length mv) 0 hm None) /\
      (kp = no c /\ mv = yes c \/ kp = yes c /\ mv = no c) /\ kp <> [] /\ mv <> [] /\ length mv <= length kp /\
      seg (pels p) None kp hk /\ seg (pels p) None mv hm /\ NoDup kp /\ NoDup mv /\ (forall e, In e kp -> In e mv -> False) /\
      (forall e, In e kp \/ In e mv -> In e (no c) \/ In e (yes c))).
    { destruct R as [R1 R2 R3 R4 R5 R6 R7 R8].
      destruct (Nat.ltb_spec (length (no c)) (length (yes c))).
      - exists (yes c), (no c), (cyes k), (cno k). repeat (split; auto); try lia; eauto; tauto.
      - exists (no c), (yes c), (cno k), (cyes k). repeat (split; auto); try lia; eauto; tauto. }
    destruct Br as (kp & mv & hk & hm & -> & Hkm & Nk & Nm & Hle & Sk & Sm & NDk & NDm & Dkm & Sub).
    cbn [cno].
    destruct (relabel_ok (length (pcls p)) mv (pels p) None hm (length (pels p)) Sm NDm) as
      (els & El & Ll & Hn & Hp & Hy & Hc1 & Hc2).
    { apply nodup_len; auto. intros x Hx. apply (InLt x c). apply Sub. auto. }
    rewrite El. cbn [rbind].
    assert (Out : no (length (pcls p)) = [] /\ yes (length (pcls p)) = []) by (apply (f_out _ _ _ _ R); auto).
    exists (Some (length (pcls p))). eexists. exists (ups (ups no c kp) (length (pcls p)) mv).
    split; [reflexivity|]. cbn [pels pcls pvis pcnt].
    split; [|repeat (split; auto)].
    2:{ rewrite app_length, upd_length. simpl. lia. }
    2:{ exists kp, mv. repeat (split; auto). }
    assert (Ncn : c <> length (pcls p)) by lia.
    assert (Mem : forall d e, d <> c -> In e (no d) \/ In e (yes d) -> ~ In e mv).
    { intros d e Nd H H'. assert (H2 : In e (no c) \/ In e (yes c)) by (apply Sub; auto).
      destruct (f_cl _ _ _ _ R d e H), (f_cl _ _ _ _ R c e H2). congruence. }
    constructor; cbn [pels pcls pvis pcnt]; auto; try tauto.
    + intros d x Ed. destruct (Nat.lt_ge_cases d (length (pcls p))) as [Ld|Ld].
      * rewrite nth_error_app1 in Ed by (rewrite upd_length; auto). rewrite nth_error_upd in Ed.
        destruct (Nat.eqb_spec c d) as [<-|Nd].
        -- rewrite (proj2 (Nat.ltb_lt _ _) Hc) in Ed. injection Ed as <-.
           rewrite (ups_ne _ (length (pcls p))), !ups_eq by auto. cbn [cno cyes csize cysize].
           split; [eapply seg_same; eauto|]. simpl. repeat (split; auto); lia.
        -- simpl in Ed. rewrite (ups_ne _ (length (pcls p))), !ups_ne by (auto; lia).
           destruct (f_cls _ _ _ _ R d x Ed) as (T1 & T2 & T3 & T4).
           split; [eapply seg_same; eauto|]. split; [eapply seg_same; eauto|]. auto.
      * rewrite nth_error_app2 in Ed by (rewrite upd_length; auto). rewrite upd_length in Ed.
        assert (d = length (pcls p)) as ->.
        { destruct (d - length (pcls p)) eqn:Q; [lia|]. destruct n; discriminate. }
        rewrite Nat.sub_diag in Ed. injection Ed as <-. rewrite ups_eq, ups_ne by auto.
        destruct Out as [_ ->]. cbn [cno cyes csize cysize]. split; [eapply seg_same; eauto|]. simpl. repeat (split; auto); lia.
    + intros d. rewrite app_length, upd_length. simpl. intros Ld. rewrite !ups_ne by lia.
      apply (f_out _ _ _ _ R). lia.
    + intros d e. rewrite Hy. destruct (Nat.eq_dec d (length (pcls p))) as [->|Nd].
      * rewrite ups_eq, ups_ne by auto. destruct Out as [_ ->]. simpl. intros [H|[]].
        split; auto. apply (f_cl _ _ _ _ R c). apply Sub. auto.
      * rewrite (ups_ne _ (length (pcls p))) by auto. destruct (Nat.eq_dec d c) as [->|Nc].
        -- rewrite !ups_eq. simpl. intros [H|[]]. rewrite Hc2 by (intros H'; eapply Dkm; eauto).
           apply (f_cl _ _ _ _ R c). apply Sub. auto.
        -- rewrite !ups_ne by auto. intros H. rewrite Hc2 by (apply (Mem d); auto). apply (f_cl _ _ _ _ R d). auto.
    + intros d e. destruct (Nat.eq_dec d (length (pcls p))) as [->|Nd].
      * rewrite ups_eq, ups_ne by auto. destruct Out as [_ ->]. simpl. tauto.
      * rewrite (ups_ne _ (length (pcls p))) by auto. destruct (Nat.eq_dec d c) as [->|Nc].
        -- rewrite !ups_eq. simpl. tauto.
        -- rewrite !ups_ne by auto. apply (f_disj _ _ _ _ R).
    + intros d. destruct (Nat.eq_dec d (length (pcls p))) as [->|Nd]; [rewrite ups_eq; auto|].
      rewrite (ups_ne _ (length (pcls p))) by auto. unfold ups. destruct (Nat.eqb_spec d c); auto. apply (f_ndn _ _ _ _ R).
    + intros d. unfold ups. destruct (Nat.eqb_spec d c); [constructor|]. apply (f_ndy _ _ _ _ R).
Qed.

Section Final.
  Variable p0 : partition.
  Variables no yes : nat -> list nat.
  Hypothesis R0 : rep p0 no yes.
  Let n0 := length (pcls p0).
  Let cl0 := cl (pels p0).
  Definition asg (e : nat) : Prop := exists c, In e (no c) \/ In e (yes c).
  Definition mk (e : nat) : Prop := In e (yes (cl (pels p0) e)).

  Lemma asg_cl e c : In e (no c) \/ In e (yes c) -> cl0 e = c.
  Proof. intros [H|H]; [apply (r_no _ _ _ R0)|apply (r_yes _ _ _ R0)]; auto. Qed.
  Lemma asg_mk e : asg e -> (In e (no (cl0 e)) /\ ~ mk e) \/ mk e.
  Proof.
    intros (c & H). pose proof (asg_cl e c H) as E. unfold mk. fold cl0. rewrite E. destruct H as [H|H]; auto.
    left. split; auto. intros H'. destruct (r_no _ _ _ R0 c e H), (r_yes _ _ _ R0 c e H'). lia.
  Qed.
  Lemma no_not_mk e c : In e (no c) -> ~ mk e.
  Proof.
    intros H H'. destruct (r_no _ _ _ R0 c e H), (r_yes _ _ _ R0 _ e H'). lia.
  Qed.
  Lemma yes_mk e c : In e (yes c) -> mk e.
  Proof. intros H. unfold mk. destruct (r_yes _ _ _ R0 c e H) as [-> _]. auto. Qed.

  Record mid (pm : partition) (v : list nat) (q : list nat) (nom yesm : nat -> list nat) : Prop := {
    m_rep : repf pm v nom yesm;
    m_v : forall d, In d v -> nom d = no d /\ yesm d = yes d /\ d < n0;
    m_asg : forall e, (exists c, In e (nom c) \/ In e (yesm c)) <-> asg e;
    m_same : forall e, asg e -> In (cl0 e) v -> cl (pels pm) e = cl0 e;
    m_iff : forall e e', asg e -> asg e' ->
      (cl (pels pm) e = cl (pels pm) e' <-> cl0 e = cl0 e' /\ (In (cl0 e) v \/ (mk e <-> mk e')));
    m_new : forall e, asg e -> cl (pels pm) e = cl0 e \/ n0 <= cl (pels pm) e;
    m_q : n0 <= length (pcls pm) /\ q = seq n0 (length (pcls pm) - n0);
    m_small : forall c', n0 <= c' < length (pcls pm) -> nom c' <> [] /\
      exists c, c < n0 /\ ~ In c v /\ nom c <> [] /\ length (nom c') <= length (nom c) /\ forall e, In e (nom c') -> cl0 e = c;
    m_cnt : pcnt pm = pcnt p0 /\ length (pels pm) = length (pels p0)
  }.

  Lemma mid_step pm c v q nom yesm : mid pm (c :: v) q nom yesm ->
    exists o pm' nom', p_split_refine pm c = Ok (o, pm') /\
      mid pm' v (match o with Some nc => q ++ [nc] | None => q end) nom' (ups yesm c []).
  Proof.
    intros [M1 M2 M3 M4 M5 M6 M7 M8 M9]. destruct (M2 c (or_introl eq_refl)) as (Ec1 & Ec2 & Lc).
    assert (Nv : ~ In c v) by (pose proof (f_v _ _ _ _ M1) as H; inversion H; auto).
    destruct M7 as [M7a M7b].
    (* membership of the current class *)
    assert (Mem : forall e, asg e -> (cl (pels pm) e = c <-> cl0 e = c)).
    { intros e A. split; intros E.
      - destruct (M6 e A) as [H|H]; [congruence|lia].
      - rewrite M4; auto. rewrite E. left; auto. }
    assert (Kc : forall e, asg e -> cl0 e = c -> In e (no c) /\ ~ mk e \/ In e (yes c) /\ mk e).
    { intros e A E. destruct (asg_mk e A) as [[H1 H2]|H]; [left|right]; rewrite <- E; auto. }
    destruct (refine_ok pm c v nom yesm M1) as (o & pm' & nom' & Er & R' & Hcnt & Hvis & Hlen & Hye & Ho).
    exists o, pm', nom'. split; auto.
    destruct o as [nc|].
    - destruct Ho as (-> & Hl & kp & mv & Hkm & Nk & Nm & Hle & -> & Hmv & Hnmv).
      rewrite Ec1, Ec2 in Hkm.
      assert (Mmv : forall e, asg e -> (In e mv -> cl0 e = c) /\ (In e kp -> cl0 e = c)).
      { intros e A. split; intros H; apply asg_cl; destruct Hkm as [[-> ->]|[-> ->]]; auto. }
      assert (KM : forall e, asg e -> cl0 e = c -> In e kp \/ In e mv).
      { intros e A E. destruct (Kc e A E) as [[H _]|[H _]]; destruct Hkm as [[-> ->]|[-> ->]]; auto. }
      assert (Kmk : forall e e', In e kp -> In e' kp -> (mk e <-> mk e')).
      { intros e e' H H'. destruct Hkm as [[-> ->]|[-> ->]].
        - pose proof (no_not_mk e c H). pose proof (no_not_mk e' c H'). tauto.
        - pose proof (yes_mk e c H). pose proof (yes_mk e' c H'). tauto. }
      assert (Mmk : forall e e', In e mv -> In e' mv -> (mk e <-> mk e')).
      { intros e e' H H'. destruct Hkm as [[-> ->]|[-> ->]].
        - pose proof (yes_mk e c H). pose proof (yes_mk e' c H'). tauto.
        - pose proof (no_not_mk e c H). pose proof (no_not_mk e' c H'). tauto. }
      assert (KMmk : forall e e', In e kp -> In e' mv -> ~ (mk e <-> mk e')).
      { intros e e' H H'. destruct Hkm as [[-> ->]|[-> ->]].
        - pose proof (no_not_mk e c H). pose proof (yes_mk e' c H'). tauto.
        - pose proof (yes_mk e c H). pose proof (no_not_mk e' c H'). tauto. }
      assert (Lt : forall e, asg e -> cl (pels pm) e < length (pcls pm)).
      { intros e A. apply M3 in A. destruct A as (d & Hd). pose proof (proj1 (f_cl _ _ _ _ M1 d e Hd)) as E. rewrite E.
        destruct (Nat.lt_ge_cases d (length (pcls pm))) as [|G]; auto. destruct (f_out _ _ _ _ M1 d G) as [E1 E2].
        rewrite E1, E2 in Hd. simpl in Hd. tauto. }
      constructor; auto.
      + intros d Hd. destruct (M2 d (or_intror Hd)) as (D1 & D2 & D3).
        assert (d <> c) by (intros ->; auto). assert (d <> length (pcls pm)) by lia. rewrite !ups_ne by auto. auto.
      + intros e. rewrite <- M3. assert (Hout := f_out _ _ _ _ M1 (length (pcls pm)) (le_n _)). split.
        * intros (d & Hd). destruct (Nat.eq_dec d (length (pcls pm))) as [->|Nd].
          -- rewrite ups_eq, ups_ne in Hd by lia. destruct Hout as [_ Ho2]. rewrite Ho2 in Hd. destruct Hd as [Hd|[]].
             exists c. rewrite Ec1, Ec2. destruct Hkm as [[-> ->]|[-> ->]]; auto.
          -- rewrite (ups_ne _ (length (pcls pm))) in Hd by auto. destruct (Nat.eq_dec d c) as [->|Nc].
             ++ rewrite !ups_eq in Hd. destruct Hd as [Hd|[]]. exists c. rewrite Ec1, Ec2.
                destruct Hkm as [[-> ->]|[-> ->]]; auto.
             ++ rewrite !ups_ne in Hd by auto. exists d. auto.
        * intros (d & Hd). destruct (Nat.eq_dec d c) as [->|Nc].
          -- rewrite Ec1, Ec2 in Hd. assert (Hd' : In e kp \/ In e mv) by (destruct Hkm as [[-> ->]|[-> ->]]; tauto).
             destruct Hd' as [H|H].
             ++ exists c. left. rewrite (ups_ne _ (length (pcls pm))), ups_eq by lia. auto.
             ++ exists (length (pcls pm)). left. rewrite ups_eq. auto.
          -- assert (d <> length (pcls pm)).
             { intros ->. destruct Hout as [H1 H2]. rewrite H1, H2 in Hd. simpl in Hd; tauto. }
             exists d. rewrite !ups_ne by auto. auto.
      + intros e A Hin. assert (~ In e mv). { intros H. apply (proj1 (Mmv e A)) in H. congruence. }
        rewrite Hnmv by auto. apply M4; auto. right; auto.
      + intros e e' A A'. specialize (M5 e e' A A'). specialize (Lt e A) as L1. specialize (Lt e' A') as L2.
        destruct (in_dec Nat.eq_dec e mv) as [I1|I1], (in_dec Nat.eq_dec e' mv) as [I2|I2].
        * rewrite !Hmv by auto. pose proof (proj1 (Mmv e A) I1) as E1. pose proof (proj1 (Mmv e' A') I2) as E2.
          split; auto. intros _. split; [congruence|]. right. apply Mmk; auto.
        * rewrite (Hmv e), (Hnmv e') by auto. split; [lia|]. intros [E [H|H]]; exfalso.
          -- rewrite (proj1 (Mmv e A) I1) in H. auto.
          -- rewrite (proj1 (Mmv e A) I1) in E. destruct (KM e' A' (eq_sym E)) as [H'|H']; [|auto].
             apply (KMmk e' e); auto. tauto.
        * rewrite (Hmv e'), (Hnmv e) by auto. split; [lia|]. intros [E [H|H]]; exfalso.
          -- rewrite E, (proj1 (Mmv e' A') I2) in H. auto.
          -- rewrite (proj1 (Mmv e' A') I2) in E. destruct (KM e A E) as [H'|H']; [|auto].
             apply (KMmk e e'); auto.
        * rewrite !Hnmv by auto. rewrite M5. simpl. split; intros [E H]; split; auto.
          -- destruct H as [[H|H]|H]; auto. right. apply Kmk.
             ++ destruct (KM e A (eq_sym H)); tauto.
             ++ destruct (KM e' A') as [|]; [congruence|auto|tauto].
          -- destruct H as [H|H]; auto.
      + intros e A. destruct (in_dec Nat.eq_dec e mv) as [I|I]; [rewrite Hmv by auto; right; auto|rewrite Hnmv by auto; auto].
      + rewrite Hl. split; [lia|]. rewrite M7b. replace (S (length (pcls pm)) - n0) with (S (length (pcls pm) - n0)) by lia.
        rewrite seq_S. f_equal. f_equal. lia.
      + intros c' Hc'. rewrite Hl in Hc'. destruct (Nat.eq_dec c' (length (pcls pm))) as [->|Nc'].
        * rewrite ups_eq. split; auto. exists c. split; auto. split; auto. rewrite (ups_ne _ (length (pcls pm))), ups_eq by lia.
          split; auto. split; auto. intros e He. apply asg_cl. destruct Hkm as [[-> ->]|[-> ->]]; auto.
        * rewrite (ups_ne _ (length (pcls pm)) _ c'), (ups_ne _ c _ c') by lia.
          destruct (M8 c') as (H1 & d & H2 & H3 & H4 & H5 & H6); [lia|]. split; auto. exists d. split; auto.
          simpl in H3. assert (d <> c) by (intros ->; auto). rewrite (ups_ne _ (length (pcls pm))), ups_ne by (auto; lia).
          split; auto.
      + lia.
    - destruct Ho as (Hno & -> & Hcl & Hl). rewrite Ec1 in Hno. rewrite Ec2.
      constructor; auto.
      + rewrite <- Ec2. auto.
      + intros d Hd. destruct (M2 d (or_intror Hd)) as (D1 & D2 & D3).
        assert (d <> c) by (intros ->; auto). rewrite !ups_ne by auto. auto.
      + intros e. rewrite <- M3. split.
        * intros (d & Hd). destruct (Nat.eq_dec d c) as [Ed|Nd].
          -- subst d. rewrite !ups_eq in Hd. exists c. rewrite Ec2. destruct Hd as [Hd|[]]. auto.
          -- rewrite !ups_ne in Hd by auto. exists d. auto.
        * intros (d & Hd). destruct (Nat.eq_dec d c) as [Ed|Nd].
          -- subst d. exists c. rewrite ups_eq. rewrite Ec1, Ec2, Hno in Hd. left. destruct Hd as [[]|Hd]; auto.
          -- exists d. rewrite !ups_ne by auto. auto.
      + intros e A Hin. rewrite Hcl. apply M4; auto. right; auto.
      + intros e e' A A'. rewrite !Hcl, M5 by auto. simpl. split; intros [E H]; split; auto.
        * destruct H as [[H|H]|H]; auto. right.
          assert (Am : forall x, asg x -> cl0 x = c -> mk x).
          { intros x Ax Ex. destruct (Kc x Ax Ex) as [[H' _]|[_ H']]; auto. rewrite Hno in H'. destruct H'. }
          assert (mk e) by (apply Am; auto). assert (mk e') by (apply Am; auto; congruence). tauto.
        * destruct H as [H|H]; auto.
      + intros e A. rewrite Hcl. auto.
      + rewrite Hl. auto.
      + intros c' Hc'. rewrite Hl in Hc'. destruct (M8 c' Hc') as (H1 & d & H2 & H3 & H4 & H5 & H6).
        rewrite (ups_ne _ c _ c') by lia. split; auto. exists d. simpl in H3. assert (d <> c) by (intros ->; auto).
        rewrite ups_ne by auto. split; auto.
      + lia.
  Qed.

  Lemma mid_loop v : forall pm q nom yesm, mid pm v q nom yesm ->
    exists pm' q' nom' yesm',
      fold_left (fun r c => x <-- r ;; y <-- p_split_refine (fst x) c ;;
          Ok (snd y, match fst y with Some nc => snd x ++ [nc] | None => snd x end)) v (Ok (pm, q)) = Ok (pm', q') /\
      mid pm' [] q' nom' yesm'.
  Proof.
    induction v as [|c v IH]; intros pm q nom yesm M.
    - exists pm, q, nom, yesm. auto.
    - destruct (mid_step pm c v q nom yesm M) as (o & pm' & nom' & E & M'). cbn [fold_left rbind fst snd].
      rewrite E. cbn [rbind fst snd]. eapply IH. exact M'.
  Qed.

  Lemma mid_start : mid p0 (pvis p0) [] no yes.
  Proof.
    pose proof R0 as [R1 R2 R3 R4 R5 R6 R7 R8 R9]. constructor; auto.
    - constructor; auto.
      + intros c e [H|H]; [destruct (R3 c e H)|destruct (R4 c e H)]; split; auto; lia.
      + intros c e H H'. destruct (R3 c e H), (R4 c e H'). lia.
    - intros d Hd. split; auto. split; auto. apply R8 in Hd. unfold n0. destruct (Nat.lt_ge_cases d (length (pcls p0))); auto.
      destruct (R2 d); auto. contradiction.
    - unfold asg. tauto.
    - intros e e' A A'. split; [|tauto]. intros E. split; auto.
      destruct (in_dec Nat.eq_dec (cl0 e) (pvis p0)) as [|N]; auto. right.
      assert (Hn : yes (cl0 e) = []). { rewrite R8 in N. destruct (yes (cl0 e)); auto. exfalso; apply N; discriminate. }
      unfold mk. fold cl0. change (cl0 e = cl0 e') in E. rewrite <- E, Hn. tauto.
    - split; [unfold n0; auto|]. unfold n0. rewrite Nat.sub_diag. auto.
    - unfold n0. intros; lia.
  Qed.

  Lemma finalize_ok : exists p' q no', p_finalize p0 = Ok (p', q) /\ rep p' no' (fun _ => []) /\
    length (pels p') = length (pels p0) /\
    (forall e, (exists c, In e (no' c)) <-> asg e) /\
    (forall e e', asg e -> asg e' -> (cl (pels p') e = cl (pels p') e' <-> cl0 e = cl0 e' /\ (mk e <-> mk e'))) /\
    (forall e, asg e -> cl (pels p') e = cl0 e \/ n0 <= cl (pels p') e) /\
    n0 <= length (pcls p') /\ q = seq n0 (length (pcls p') - n0) /\
    (forall c', n0 <= c' < length (pcls p') -> no' c' <> [] /\
      exists c, c < n0 /\ no' c <> [] /\ length (no' c') <= length (no' c) /\ forall e, In e (no' c') -> cl0 e = c).
  Proof.
    destruct (mid_loop (pvis p0) p0 [] no yes mid_start) as (pm & q & nom & yesm & E & [M1 M2 M3 M4 M5 M6 M7 M8 M9]).
    unfold p_finalize. rewrite E. cbn [rbind fst snd]. eexists. exists q, nom. split; [reflexivity|]. cbn [pels pcls pvis pcnt].
    assert (Y : forall c, yesm c = []).
    { intros c. destruct (yesm c) eqn:Ey; auto. exfalso. apply (f_vin _ _ _ _ M1 c). rewrite Ey. discriminate. }
    destruct M7 as [M7a M7b].
    split; [|split; [lia|split; [|split; [|split; [|split; [|split]]]]]]; auto.
    - destruct M1 as [R1 R2 R3 R4 R5 R6 R7 R8]. constructor; cbn [pels pcls pvis pcnt]; auto; try tauto.
      + intros c k Ek. specialize (R1 c k Ek). rewrite Y in R1. auto.
      + intros c Lc. destruct (R2 c Lc). auto.
      + intros c e He. destruct (R3 c e (or_introl He)). split; auto. lia.
      + intros c e [].
      + lia.
    - intros e. rewrite <- M3. split; intros (c & H); exists c; [auto|]. rewrite Y in H. simpl in H. tauto.
    - intros e e' A A'. rewrite (M5 e e' A A'). simpl. tauto.
    - intros c' Hc'. destruct (M8 c' Hc') as (H1 & c & H2 & _ & H3). split; auto. exists c. auto.
  Qed.
End Final.

Lemma walk_ok : forall l els p h fuel, seg els p l h -> length l <= fuel -> p_walk fuel els h = Ok l.
Proof.
  induction l as [|x l IH]; intros els p h fuel S Hf; simpl in S.
  - subst h. destruct fuel; auto.
  - destruct S as (-> & L & P & S). destruct fuel as [|fuel]; [simpl in Hf; lia|]. simpl in Hf. cbn [p_walk].
    destruct (nth_error_ex _ _ L) as (y & Ey). rewrite Ey. destruct (nx_at _ _ _ Ey) as (-> & _).
    rewrite (IH els (Some x) _ fuel); auto. lia.
Qed.

Lemma rep_iter p no yes c : rep p no yes -> c < length (pcls p) -> p_iter p c = Ok (no c).
Proof.
  intros R Hc. unfold p_iter. destruct (nth_error_ex _ _ Hc) as (k & Ek). rewrite Ek.
  destruct (r_cls _ _ _ R c k Ek) as (S1 & _). eapply walk_ok; eauto. apply nodup_len; [apply (r_ndn _ _ _ R)|].
  intros x Hx. eapply rep_lt; eauto.
Qed.
