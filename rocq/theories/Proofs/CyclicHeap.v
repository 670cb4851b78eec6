(** The heap of transition iterators hands out the transitions in the order of their labels. *)
From Coq Require Import List Arith ZArith NArith Bool Lia Permutation Sorted.
From Verif Require Import Base.Util Base.Semiring Base.Machine Model.VectorFst Model.Rational Model.Partition Model.Minimize Proofs.RationalFacts.
Import ListNotations.

(** What the loop does with each transition: its label and the state it comes from. *)
Definition take_one (x : partition * list nat * option nat) (e : nat * nat) : res (partition * list nat * option nat) :=
  let '(p, q, prev) := x in
  y <-- (if match prev with Some a => Nat.eqb a (fst e) | None => false end then Ok (p, q) else finalize_into p q) ;;
  c <-- p_class_id (fst y) (snd e) ;;
  sz <-- p_class_size (fst y) c ;;
  p' <-- (if Nat.ltb 1 sz then p_split_on (fst y) (snd e) else Ok (fst y)) ;;
  Ok (p', snd y, Some (fst e)).

Section H.
  Context {K : SR} (orc : nat -> nat).


  Lemma least_ex (l : list (list (tr K))) : l <> [] -> exists i, In i (least_at l).
  Proof.
    intros Ne. assert (X : exists i, i < length l /\ forall it, In it l -> head_label (nth i l []) <= head_label it).
    { clear orc. induction l as [|a l IH]; [congruence|]. destruct l as [|b l].
      - exists 0. split; [simpl; lia|]. intros it [<-|[]]. auto.
      - destruct IH as (i & Hi & Hm); [discriminate|]. destruct (Nat.le_gt_cases (head_label a) (head_label (nth i (b :: l) []))).
        + exists 0. split; [simpl; lia|]. intros it [<-|Hin]; [simpl; auto|]. specialize (Hm it Hin). cbn [nth]. lia.
        + exists (S i). split; [simpl in *; lia|]. change (nth (S i) (a :: b :: l) []) with (nth i (b :: l) []). intros it [<-|Hin]; [lia|]. apply Hm; auto. }
    destruct X as (i & Hi & Hm). exists i. unfold least_at. apply filter_In. split; [apply in_seq; lia|].
    apply forallb_forall. intros it Hin. apply Nat.leb_le. auto.
  Qed.

  Lemma heap_pop_spec o (l : list (list (tr K))) : l <> [] -> exists it rest, heap_pop o l = (it, rest) /\ In it l /\
    Permutation (it :: rest) l /\ forall it', In it' l -> head_label it <= head_label it'.
  Proof.
    intros Ne. unfold heap_pop. set (i := nth (o mod length (least_at l)) (least_at l) 0). exists (nth i l []), (firstn i l ++ skipn (S i) l). split; auto.
    assert (Hi : In i (least_at l)).
    { destruct (least_ex l Ne) as (j & Hj). apply nth_In. apply Nat.mod_upper_bound. destruct (least_at l); [destruct Hj|discriminate]. }
    unfold least_at in Hi. apply filter_In in Hi as [A B]. apply in_seq in A. rewrite forallb_forall in B.
    assert (E : l = firstn i l ++ nth i l [] :: skipn (S i) l).
    { assert (X : forall (j : nat) (l : list (list (tr K))), j < length l -> l = firstn j l ++ nth j l [] :: skipn (S j) l).
      { clear. intros j. induction j as [|j IH]; intros [|a l] A; try (simpl in A; lia); [reflexivity|].
        change (a :: l = a :: (firstn j l ++ nth j l [] :: skipn (S j) l)). f_equal. apply IH. simpl in A. lia. }
      apply X. lia. }
    split; [apply nth_In; lia|]. split.
    - rewrite E at 4. apply Permutation_middle.
    - intros it' H. apply Nat.leb_le. auto.
  Qed.

  Definition key (t : tr K) : nat * nat := (il t, pred (ns t)).
  Definition good (it : list (tr K)) : Prop := it <> [] /\ StronglySorted le (map il it) /\ forall t, In t it -> ns t <> 0.

  Lemma split_loop_pops : forall m fuel p q n prev heap, length (List.concat heap) = m -> m < fuel -> Forall good heap ->
    exists l, Permutation l (map key (List.concat heap)) /\ StronglySorted le (map fst l) /\
      split_loop orc fuel p q n prev heap = (x <-- rfold take_one l (p, q, prev) ;; Ok (fst x, n + length l)).
  Proof.
    induction m as [m IH] using lt_wf_ind. intros fuel p q n prev heap Em Hf G.
    destruct heap as [|i0 heap0].
    - exists []. split; auto. split; [constructor|]. destruct fuel; simpl; rewrite Nat.add_0_r; auto.
    - set (heap := i0 :: heap0) in *.
      destruct fuel as [|fuel]; [lia|].
      assert (Eq : split_loop orc (S fuel) p q n prev heap =
        match heap_pop (orc n) heap with
            | ([], rest) => split_loop orc fuel p q (S n) prev rest
            | (t :: it, rest) =>
                match ns t with
                | O => Panic
                | S from =>
                    x <-- (if match prev with Some a => Nat.eqb a (il t) | None => false end
                           then Ok (p, q) else finalize_into p q) ;;
                    c <-- p_class_id (fst x) from ;;
                    sz <-- p_class_size (fst x) c ;;
                    p' <-- (if Nat.ltb 1 sz then p_split_on (fst x) from else Ok (fst x)) ;;
                    split_loop orc fuel p' (snd x) (S n) (Some (il t)) (match it with [] => rest | _ => it :: rest end)
                end
            end) by reflexivity.
      rewrite Eq. clear Eq. destruct (heap_pop_spec (orc n) heap) as (it & rest & -> & Hin & Pm & Lst); [discriminate|].
      assert (Gr : Forall good (it :: rest)) by (eapply Permutation_Forall; [symmetry; exact Pm|auto]).
      inversion Gr as [|? ? G1 G2]; subst x l. destruct G1 as (Nit & Sit & Zit). destruct it as [|t it]; [congruence|].
      specialize (Zit t (or_introl eq_refl)) as Zt. destruct (ns t) as [|from] eqn:En; [congruence|].
      set (rest' := match it with [] => rest | _ => it :: rest end).
      assert (Ec : List.concat rest' = it ++ List.concat rest) by (unfold rest'; destruct it; auto).
      assert (Pc : Permutation (List.concat heap) (t :: List.concat rest')).
      { rewrite Ec. assert (X : forall l1 l2 : list (list (tr K)), Permutation l1 l2 -> Permutation (List.concat l1) (List.concat l2)).
        { induction 1; cbn [List.concat]; auto; [apply Permutation_app_head; auto| |etransitivity; eauto].
          rewrite !app_assoc. apply Permutation_app_tail. apply Permutation_app_comm. }
        rewrite <- (X _ _ Pm). reflexivity. }
      assert (Lc : S (length (List.concat rest')) = m) by (rewrite <- Em, (Permutation_length Pc); reflexivity).
      assert (Gr' : Forall good rest').
      { unfold rest'. destruct it as [|t2 it]; auto. constructor; auto. split; [discriminate|].
        split; [inversion Sit; auto|]. intros u Hu. apply Zit. right; auto. }
      assert (Hlow : forall u, In u (List.concat heap) -> il t <= il u).
      { intros u Hu. apply in_concat in Hu as (it2 & H2 & Hu). specialize (Lst it2 H2). rewrite Forall_forall in G.
        destruct (G it2 H2) as (_ & S2 & _). destruct it2 as [|u0 it2]; [destruct Hu|]. cbn [head_label] in Lst.
        destruct Hu as [<-|Hu]; auto. inversion S2 as [|? ? _ F2]; subst. rewrite Forall_forall in F2. specialize (F2 (il u) (in_map il _ _ Hu)). lia. }
      (* the rest of the run *)
      assert (R : forall p1 q1, exists l, Permutation l (map key (List.concat rest')) /\ StronglySorted le (map fst l) /\
        split_loop orc fuel p1 q1 (S n) (Some (il t)) rest' = (x <-- rfold take_one l (p1, q1, Some (il t)) ;; Ok (fst x, S n + length l))).
      { intros p1 q1. apply (IH (length (List.concat rest'))); auto; lia. }
      assert (Done : forall l, Permutation l (map key (List.concat rest')) -> StronglySorted le (map fst l) ->
        Permutation ((il t, from) :: l) (map key (List.concat heap)) /\ StronglySorted le (map fst ((il t, from) :: l))).
      { intros l P1 P2. split.
        - rewrite (Permutation_map key Pc). cbn [map]. unfold key at 1. rewrite En. cbn [pred]. constructor. auto.
        - cbn [map fst]. constructor; auto. apply Forall_forall. intros a Ha. apply in_map_iff in Ha as (e & <- & He).
          apply (Permutation_in _ P1) in He. apply in_map_iff in He as (u & <- & Hu). cbn [key fst]. apply Hlow.
          eapply Permutation_in; [symmetry; exact Pc|right; auto]. }
      destruct (if match prev with Some a => Nat.eqb a (il t) | None => false end then Ok (p, q) else finalize_into p q) as [[p1 q1]| |] eqn:Ey; cbn [rbind fst snd].
      2,3: destruct (R p q) as (l & P1 & P2 & _); destruct (Done l P1 P2) as [P3 P4]; exists ((il t, from) :: l); split; [auto|]; split; [auto|];
        rewrite rfold_cons; unfold take_one; cbn [fst snd]; rewrite Ey; reflexivity.
      destruct (p_class_id p1 from) as [c| |] eqn:Ei; cbn [rbind].
      2,3: destruct (R p q) as (l & P1 & P2 & _); destruct (Done l P1 P2) as [P3 P4]; exists ((il t, from) :: l); split; [auto|]; split; [auto|];
        rewrite rfold_cons; unfold take_one; cbn [fst snd]; rewrite Ey; cbn [rbind fst snd]; rewrite Ei; reflexivity.
      destruct (p_class_size p1 c) as [sz| |] eqn:Es; cbn [rbind].
      2,3: destruct (R p q) as (l & P1 & P2 & _); destruct (Done l P1 P2) as [P3 P4]; exists ((il t, from) :: l); split; [auto|]; split; [auto|];
        rewrite rfold_cons; unfold take_one; cbn [fst snd]; rewrite Ey; cbn [rbind fst snd]; rewrite Ei; cbn [rbind]; rewrite Es; reflexivity.
      destruct (if Nat.ltb 1 sz then p_split_on p1 from else Ok p1) as [p2| |] eqn:Eo; cbn [rbind].
      2,3: destruct (R p q) as (l & P1 & P2 & _); destruct (Done l P1 P2) as [P3 P4]; exists ((il t, from) :: l); split; [auto|]; split; [auto|];
        rewrite rfold_cons; unfold take_one; cbn [fst snd]; rewrite Ey; cbn [rbind fst snd]; rewrite Ei; cbn [rbind]; rewrite Es; cbn [rbind]; rewrite Eo; reflexivity.
      destruct (R p2 q1) as (l & P1 & P2 & E). destruct (Done l P1 P2) as [P3 P4]. exists ((il t, from) :: l). split; auto. split; auto.
      rewrite rfold_cons. unfold take_one at 1. cbn [fst snd]. rewrite Ey. cbn [rbind fst snd]. rewrite Ei. cbn [rbind]. rewrite Es. cbn [rbind]. rewrite Eo. cbn [rbind].
      fold rest'. rewrite E. cbn [length]. destruct (rfold take_one l _); cbn [rbind]; auto. do 2 f_equal. lia.
  Qed.
End H.
