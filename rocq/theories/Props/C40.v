(** C40: replacement expands every non-terminal transition. *)
From Coq Require Import List Arith NArith Bool Lia.
From Verif Require Import Base.Util Base.Semiring Base.Machine Base.PropSpec Base.Instances Model.Props Model.AlgoProps Model.VectorFst
  Model.History Model.BiMap Model.Lazy Model.Compose Model.Replace.
From Verif Require Import Proofs.VectorFacts Proofs.OpFacts Proofs.TrOpsFacts Proofs.BiMapFacts Proofs.LazyFacts Proofs.TableFacts Proofs.ComposeFacts
  Proofs.ClosedB Proofs.BagFacts Proofs.FactorTable Proofs.ReplaceTable.
Import ListNotations.
Local Open Scope K_scope.

(** ** Specification *)
Section Spec.
  Context {K : SR} (g : list (nat * vfst K)).

  (** A grammar is a list of labelled machines.  A non-zero output label is a non-terminal when some
      machine carries it; the last such machine is meant. *)
  Fixpoint last_idx (l : list (nat * vfst K)) (i o : nat) : option nat :=
    match l with
    | [] => None
    | p :: l' => match last_idx l' (S i) o with
                 | Some j => Some j
                 | None => if Nat.eqb (fst p) o then Some i else None
                 end
    end.
  Definition nonterminal (o : nat) : option nat := if Nat.eqb o 0 then None else last_idx g 0 o.

  Definition the_trs (i s : nat) : list (tr K) := match nth_error g i with Some p => trs_of (snd p) s | None => [] end.
  Definition the_fin (i s : nat) : option K := match nth_error g i with Some p => fin_of (snd p) s | None => None end.
  Definition the_start (i : nat) : option nat := match nth_error g i with Some p => vstart (snd p) | None => None end.

  (** The labels put on calls and returns. *)
  Context (opts : replace_opts).
  Definition eps_call : bool := match ro_call_output opts with Some O => true | _ => false end.
  Definition call_il (t : tr K) : nat :=
    if eps_call then O else match ro_call opts with LInput | LBoth => il t | _ => O end.
  Definition call_ol (t : tr K) : nat :=
    if eps_call then O
    else match ro_call opts with
         | LOutput | LBoth => match ro_call_output opts with Some l => l | None => ol t end
         | _ => O
         end.
  Definition ret_il : nat := match ro_return opts with LInput | LBoth => ro_return_label opts | _ => O end.
  Definition ret_ol : nat := match ro_return opts with LOutput | LBoth => ro_return_label opts | _ => O end.

  (** The call of [a] by the transition [t] followed by [b]: labels are concatenated, weights multiplied;
      the weight of [a] includes the final weight of the machine called. *)
  Definition returning (a b : reading K) : reading K :=
    ((fst (fst a) ++ lab ret_il ++ fst (fst b))%list, (snd (fst a) ++ lab ret_ol ++ snd (fst b))%list, snd a * snd b).
  Definition calling (t : tr K) (a b : reading K) : reading K := pre (call_il t) (call_ol t) (wgt t) (returning a b).

  (** All complete expansions of exactly [n] steps from state [s] of machine [i]: a terminal transition is
      one step, a call is one step, the steps of the machine called, and one step to return.  [d] bounds
      the depth of the definition; any [d > n] will do. *)
  Fixpoint expand (d n i s : nat) : list (reading K) :=
    match d with
    | O => []
    | S d' =>
        match n with
        | O => match the_fin i s with Some w => [([], [], w)] | None => [] end
        | S m =>
            flat_map (fun t =>
              match nonterminal (ol t) with
              | None => map (pre (il t) (ol t) (wgt t)) (expand d' m i (ns t))
              | Some j =>
                  match the_start j with
                  | None => []
                  | Some q => flat_map (fun k => flat_map (fun a => map (calling t a) (expand d' (m - 1 - k) i (ns t))) (expand d' k j q))
                                (seq 0 m)
                  end
              end) (the_trs i s)
        end
    end.
  Definition expansions (n : nat) : list (reading K) :=
    match last_idx g 0 (ro_root opts) with
    | Some r => match the_start r with Some s => expand (S n) n r s | None => [] end
    | None => []
    end.
End Spec.

(** ** Sums over lists of readings *)
Section Sums.
  Context {K : SR} (L : lsr_laws K).
  Definition sig (l : list (reading K)) (F : reading K -> K) : K := ksum (map F l).
  Lemma sig_app l m F : sig (l ++ m) F = sig l F + sig m F.
  Proof. unfold sig. rewrite map_app. apply (ksum_app L). Qed.
  Lemma sig_flat {A} (f : A -> list (reading K)) l F : sig (flat_map f l) F = ksum (map (fun a => sig (f a) F) l).
  Proof. induction l as [|a l IH]; cbn [flat_map map ksum]; auto. rewrite sig_app, IH. auto. Qed.
  Lemma sig_map f l F : sig (map f l) F = sig l (fun r => F (f r)).
  Proof. unfold sig. rewrite map_map. auto. Qed.
  Lemma sig_ext l F G : (forall r, F r = G r) -> sig l F = sig l G.
  Proof. intros H. apply ksum_map_ext. auto. Qed.
  Lemma ksum_first (F : nat -> K) n : ksum (map F (seq 0 (S n))) = F O + ksum (map (fun k => F (S k)) (seq 0 n)).
  Proof. cbn [seq map ksum]. rewrite <- seq_shift, map_map. auto. Qed.
  Lemma ksum_tri2 (H : nat -> nat -> K) m :
    ksum (map (fun k => ksum (map (fun a => H a (k - 1 - a)%nat) (seq 0 k))) (seq 0 m)) =
    ksum (map (fun a => ksum (map (fun b => H a b) (seq 0 (m - 1 - a)))) (seq 0 m)).
  Proof.
    destruct m as [|[|M]]; [reflexivity|reflexivity|].
    rewrite (ksum_last L (fun a => ksum (map (fun b => H a b) (seq 0 (S (S M) - 1 - a)))) (S M)).
    rewrite (ksum_first (fun k => ksum (map (fun a => H a (k - 1 - a)%nat) (seq 0 k))) (S M)).
    replace (S (S M) - 1 - S M)%nat with O by lia.
    change (ksum (map (fun a => H a (0 - 1 - a)%nat) (seq 0 0))) with (@kzero K).
    change (ksum (map (fun b => H (S M) b) (seq 0 0))) with (@kzero K). rewrite (kplus_0_r L), (kplus_0_l _ L).
    transitivity (ksum (map (fun k => ksum (map (fun i => H i (k - i)%nat) (seq 0 (S k)))) (seq 0 (S M)))).
    - apply ksum_map_ext. intros k _. apply ksum_map_ext. intros a _. f_equal. lia.
    - rewrite (ksum_tri L H M). apply ksum_map_ext. intros a Ha. apply in_seq in Ha.
      replace (S (S M) - 1 - a)%nat with (S (M - a)) by lia. auto.
  Qed.
End Sums.

Section C40.
  Context {K : SR} (L : lsr_laws K) (g : list (nat * vfst K)) (opts : replace_opts).
  Notation exp := (expand g opts).


  Lemma flat_map_eq {A B} (f h : A -> list B) l : (forall a, In a l -> f a = h a) -> flat_map f l = flat_map h l.
  Proof. induction l as [|a l IH]; intros H; cbn; auto. rewrite IH, (H a); cbn; auto. intros. apply H. cbn. auto. Qed.

  Theorem C40_depth d : forall e n i s, (n < d)%nat -> (n < e)%nat -> exp d n i s = exp e n i s.
  Proof.
    induction d as [|d IH]; intros e n i s H H'; [lia|]. destruct e as [|e]; [lia|]. cbn [expand]. destruct n as [|m]; auto.
    apply flat_map_eq. intros t _. destruct (nonterminal g (ol t)) as [j|].
    - destruct (the_start g j) as [q|]; auto. apply flat_map_eq. intros k Hk. apply in_seq in Hk.
      rewrite (IH e k), (IH e (m - 1 - k)%nat) by lia. auto.
    - f_equal. apply IH; lia.
  Qed.

  Lemma exp_S d m i s : exp (S d) (S m) i s = flat_map (fun t =>
      match nonterminal g (ol t) with
      | None => map (pre (il t) (ol t) (wgt t)) (exp d m i (ns t))
      | Some j => match the_start g j with
                  | None => []
                  | Some q => flat_map (fun k => flat_map (fun a => map (calling opts t a) (exp d (m - 1 - k) i (ns t))) (exp d k j q)) (seq 0 m)
                  end
      end) (the_trs g i s).
  Proof. reflexivity. Qed.
  Definition ex (n i s : nat) : list (reading K) := exp (S n) n i s.
  Lemma ex_S m i s : ex (S m) i s = flat_map (fun t =>
      match nonterminal g (ol t) with
      | None => map (pre (il t) (ol t) (wgt t)) (ex m i (ns t))
      | Some j => match the_start g j with
                  | None => []
                  | Some q => flat_map (fun k => flat_map (fun a => map (calling opts t a) (ex (m - 1 - k) i (ns t))) (ex k j q)) (seq 0 m)
                  end
      end) (the_trs g i s).
  Proof.
    unfold ex. rewrite exp_S. apply flat_map_eq. intros t _. destruct (nonterminal g (ol t)) as [j|]; auto.
    destruct (the_start g j) as [q|]; auto. apply flat_map_eq. intros k Hk. apply in_seq in Hk.
    rewrite (C40_depth (S m) (S k) k), (C40_depth (S m) (S (m - 1 - k)) (m - 1 - k)%nat) by lia. auto.
  Qed.

  (** ** The abstract machine of (stack, machine, state) *)
  Context (E : replace_env K) (HE : replace_new g opts = Ok E).

  Lemma env_fsts : re_fsts E = map snd g /\ re_set E = map fst g /\ re_hash E = nonterminals 0 g [] /\
    lookup (nonterminals 0 g []) (ro_root opts) = Some (re_root E) /\ re_call_output E = ro_call_output opts /\
    re_call E = (match ro_call_output opts with Some O => LNeither | _ => ro_call opts end) /\
    re_return E = (if Nat.eqb (ro_return_label opts) 0 then LNeither else ro_return opts) /\ re_return_label E = ro_return_label opts.
  Proof.
    revert HE. unfold replace_new. destruct (replace_properties _ _ _ _ _); cbn [rbind]; try discriminate.
    destruct (lookup (nonterminals 0 g []) (ro_root opts)) eqn:F; [|discriminate]. intros [= <-]. cbn. repeat split; auto.
  Qed.

  Lemma hash_last (l : list (nat * vfst K)) : forall i h o, lookup (nonterminals i l h) o =
    match last_idx l i o with Some j => Some j | None => lookup h o end.
  Proof.
    induction l as [|p l IH]; intros i h o; cbn [nonterminals last_idx]; auto. rewrite IH, lookup_insert.
    destruct (last_idx l (S i) o); auto. destruct (Nat.eqb (fst p) o); auto.
  Qed.
  Lemma last_in (l : list (nat * vfst K)) : forall i o j, last_idx l i o = Some j -> In o (map fst l) /\ (i <= j < i + length l)%nat.
  Proof.
    induction l as [|p l IH]; intros i o j; cbn [last_idx]; [discriminate|]. destruct (last_idx l (S i) o) as [k|] eqn:F.
    - intros [= <-]. destruct (IH _ _ _ F). cbn. split; [auto|lia].
    - destruct (Nat.eqb_spec (fst p) o); [|discriminate]. intros [= <-]. cbn. split; [auto|lia].
  Qed.
  Lemma fold_min a l o : In o (a :: l) -> (fold_right Nat.min a l <= o)%nat.
  Proof.
    induction l as [|b l IH]; cbn; [intros [->|[]]; lia|]. intros [H|[H|H]]; [specialize (IH (or_introl H))|subst|specialize (IH (or_intror H))]; lia.
  Qed.
  Lemma fold_max a l o : In o (a :: l) -> (o <= fold_right Nat.max a l)%nat.
  Proof.
    induction l as [|b l IH]; cbn; [intros [->|[]]; lia|]. intros [H|[H|H]]; [specialize (IH (or_introl H))|subst|specialize (IH (or_intror H))]; lia.
  Qed.

  (** The range check changes nothing. *)
  Lemma kind o : exists r, terminal_range E o = Ok r /\ (if r then None else lookup (re_hash E) o) = nonterminal g o.
  Proof.
    destruct env_fsts as (_ & ES & EH & ER & _). unfold terminal_range, nonterminal. rewrite EH, hash_last. cbn [lookup].
    destruct (Nat.eqb_spec o 0) as [->|N]; [exists true; auto|].
    unfold set_min, set_max. rewrite ES. destruct (map fst g) as [|a l] eqn:Em.
    { exfalso. rewrite hash_last in ER. destruct g; cbn in *; discriminate. }
    eexists. split; [reflexivity|]. destruct (last_idx g 0 o) as [j|] eqn:F; [|destruct (_ || _); auto].
    apply last_in in F as [I _]. rewrite Em in I. pose proof (fold_min a l o I). pose proof (fold_max a l o I).
    destruct (Nat.ltb_spec o (fold_right Nat.min a l)); [lia|]. destruct (Nat.ltb_spec (fold_right Nat.max a l) o); [lia|]. auto.
  Qed.

  Lemma nth_fst_in i p : nth_error g i = Some p -> nth_fst E i = Ok (snd p).
  Proof. intros H. unfold nth_fst. destruct env_fsts as (-> & _). rewrite nth_error_map, H. auto. Qed.

  Lemma call_labels (t : tr K) : call_il opts t = (if epsilon_on_input (re_call E) then O else il t) /\
    call_ol opts t = (if epsilon_on_output (re_call E) then O else match re_call_output E with Some l => l | None => ol t end).
  Proof.
    destruct env_fsts as (_ & _ & _ & _ & EO & EC & _). rewrite EO, EC. unfold call_il, call_ol, eps_call.
    destruct (ro_call_output opts) as [[|l]|]; cbn; auto; destruct (ro_call opts); cbn; auto.
  Qed.
  Lemma ret_labels : ret_il opts = (if epsilon_on_input (re_return E) then O else re_return_label E) /\
    ret_ol opts = (if epsilon_on_output (re_return E) then O else re_return_label E).
  Proof.
    destruct env_fsts as (_ & _ & _ & _ & _ & _ & ER & ->). rewrite ER. unfold ret_il, ret_ol.
    destruct (Nat.eqb_spec (ro_return_label opts) 0) as [->|N]; destruct (ro_return opts); cbn; auto.
  Qed.

  (** Tuples met from the start. *)
  Context (D : forall p, In p g -> closed (snd p)).
  Definition good (i s : nat) : Prop := exists p, nth_error g i = Some p /\ (s < num_states (snd p))%nat.
  Definition Uv (t : atuple) : Prop := good (snd (fst t)) (snd t) /\ forall e, In e (fst (fst t)) -> good (fst e) (snd e).

  Lemma good_next i s t : good i s -> In t (the_trs g i s) -> good i (ns t).
  Proof.
    intros (p & N & H) I. unfold the_trs in I. rewrite N in I. exists p. split; auto.
    exact (proj1 (D p (nth_error_In _ _ N)) s t I).
  Qed.
  Lemma good_start j q : the_start g j = Some q -> good j q.
  Proof.
    unfold the_start. destruct (nth_error g j) as [p|] eqn:N; [|discriminate]. intros H. exists p. split; auto.
    exact (proj2 (D p (nth_error_In _ _ N)) q H).
  Qed.

  Definition the_call (stk : stack) (i : nat) (t : tr K) : option (ttr K atuple) :=
    match nonterminal g (ol t) with
    | None => Some (TT (il t) (ol t) (wgt t) (stk, i, ns t))
    | Some j => match the_start g j with
                | None => None
                | Some q => Some (TT (call_il opts t) (call_ol opts t) (wgt t) ((i, ns t) :: stk, j, q))
                end
    end.
  Lemma a_tr_eq stk i s t : a_tr E (stk, i, s) t = Ok (the_call stk i t).
  Proof.
    unfold a_tr, the_call. destruct (kind (ol t)) as (r & -> & R). cbn [rbind]. rewrite <- R.
    destruct r; auto. destruct (lookup (re_hash E) (ol t)) as [j|] eqn:F; auto.
    assert (j < length g)%nat as Hj.
    { destruct env_fsts as (_ & _ & EH & _). rewrite EH, hash_last in F. cbn in F. destruct (last_idx g 0 (ol t)) eqn:G; [|discriminate].
      injection F as <-. apply last_in in G. lia. }
    destruct (nth_error g j) as [p|] eqn:N; [|apply nth_error_None in N; lia].
    rewrite (nth_fst_in _ _ N). cbn [rbind]. unfold the_start. rewrite N. destruct (call_labels t) as [-> ->]. destruct (vstart (snd p)); auto.
  Qed.
  Definition the_ret (stk : stack) (i s : nat) : option (ttr K atuple) :=
    match stk, the_fin g i s with
    | top :: rest, Some w => Some (TT (ret_il opts) (ret_ol opts) w (rest, fst top, snd top))
    | _, _ => None
    end.
  Lemma a_ret_eq stk i s : good i s -> a_ret E (stk, i, s) = Ok (the_ret stk i s).
  Proof.
    intros (p & N & H). unfold a_ret, the_ret, the_fin. rewrite (nth_fst_in _ _ N), N. cbn [rbind].
    rewrite is_final_in, final_in by auto. cbn [unwrap_r rbind]. destruct ret_labels as [-> ->].
    destruct (fin_of (snd p) s); cbn [some_b]; destruct stk; auto.
  Qed.
  Lemma a_loop_eq stk i s l : a_loop E (stk, i, s) l = Ok (flat_map (fun t => ocons (the_call stk i t) []) l).
  Proof.
    induction l as [|t l IH]; cbn [a_loop]; auto.
    rewrite a_tr_eq. cbn [rbind]. rewrite IH. cbn [rbind flat_map]. destruct (the_call stk i t); auto.
  Qed.
  Lemma a_trs_eq stk i s : good i s -> a_trs E (stk, i, s) =
    Ok (ocons (the_ret stk i s) (flat_map (fun t => ocons (the_call stk i t) []) (the_trs g i s))).
  Proof.
    intros G. unfold a_trs. rewrite a_ret_eq by auto. destruct G as (p & N & H). cbn [rbind fst snd]. rewrite (nth_fst_in _ _ N). cbn [rbind].
    rewrite get_trs_in by auto. cbn [rbind]. rewrite a_loop_eq. cbn [rbind]. unfold the_trs. rewrite N. auto.
  Qed.
  Lemma a_fin_eq stk i s : good i s -> a_fin E (stk, i, s) = Ok (match stk with [] => the_fin g i s | _ => None end).
  Proof.
    intros (p & N & H). unfold a_fin. cbn [fst snd]. destruct stk; auto. rewrite (nth_fst_in _ _ N). cbn [rbind].
    rewrite final_in by auto. unfold the_fin. rewrite N. auto.
  Qed.
  Lemma root_good : exists p, nth_error g (re_root E) = Some p /\ last_idx g 0 (ro_root opts) = Some (re_root E).
  Proof.
    destruct env_fsts as (_ & _ & _ & ER & _). rewrite hash_last in ER. cbn in ER.
    destruct (last_idx g 0 (ro_root opts)) as [r|] eqn:F; [|discriminate]. injection ER as <-.
    apply last_in in F as [_ F]. destruct (nth_error g r) as [p|] eqn:N; [eauto|apply nth_error_None in N; lia].
  Qed.
  Lemma a_start_eq : a_start E = Ok (match the_start g (re_root E) with Some s => Some ([], re_root E, s) | None => None end).
  Proof.
    destruct root_good as (p & N & _). unfold a_start. destruct env_fsts as (EF & _). destruct (re_fsts E) eqn:R.
    - destruct g; [destruct (re_root E); discriminate|discriminate].
    - rewrite (nth_fst_in _ _ N). cbn [rbind]. unfold the_start. rewrite N. auto.
  Qed.

  Lemma Uv_start t : a_start E = Ok (Some t) -> Uv t.
  Proof.
    rewrite a_start_eq. destruct (the_start g (re_root E)) as [s|] eqn:S; [|discriminate]. intros [= <-].
    split; [apply good_start; auto|intros e []].
  Qed.
  Lemma next_cases stk i s l u : good i s -> a_trs E (stk, i, s) = Ok l -> In u l ->
    (exists top rest w, stk = top :: rest /\ u = TT (ret_il opts) (ret_ol opts) w (rest, fst top, snd top)) \/
    (exists t, In t (the_trs g i s) /\ nonterminal g (ol t) = None /\ u = TT (il t) (ol t) (wgt t) (stk, i, ns t)) \/
    (exists t j q, In t (the_trs g i s) /\ nonterminal g (ol t) = Some j /\ the_start g j = Some q /\
       u = TT (call_il opts t) (call_ol opts t) (wgt t) ((i, ns t) :: stk, j, q)).
  Proof.
    intros G. rewrite a_trs_eq by auto. intros [= <-] I.
    assert (In u (ocons (the_ret stk i s) []) \/ In u (flat_map (fun t => ocons (the_call stk i t) []) (the_trs g i s))) as [H|H].
    { destruct (the_ret stk i s); cbn in *; tauto. }
    - left. unfold the_ret in H. destruct stk as [|top rest]; [destruct H|]. destruct (the_fin g i s) as [w|]; [|destruct H].
      destruct H as [<-|[]]. eauto 6.
    - right. apply in_flat_map in H as (t & It & H). unfold the_call in H. destruct (nonterminal g (ol t)) as [j|] eqn:Ej.
      + destruct (the_start g j) as [q|] eqn:Eq; [|destruct H]. destruct H as [<-|[]]. right. exists t, j, q. auto.
      + destruct H as [<-|[]]. left. exists t. auto.
  Qed.
  Lemma Uv_next t l u : Uv t -> a_trs E t = Ok l -> In u l -> Uv (tn u).
  Proof.
    destruct t as [[stk i] s]. intros [G S] A I. cbn [fst snd] in *.
    destruct (next_cases _ _ _ _ _ G A I) as [(top & rest & w & -> & ->)|[(t & It & _ & ->)|(t & j & q & It & _ & Sj & ->)]]; split; cbn [tn fst snd] in *.
    - apply S. left. auto.
    - intros e He. apply S. right. auto.
    - eapply good_next; eauto.
    - auto.
    - apply good_start. auto.
    - intros e [<-|He]; [cbn; eapply good_next; eauto|auto].
  Qed.
  Lemma Uv_live t : Uv t -> (exists l, a_trs E t = Ok l) /\ exists w, a_fin E t = Ok w.
  Proof. destruct t as [[stk i] s]. intros [G _]. cbn in G. rewrite a_trs_eq, a_fin_eq by auto. eauto. Qed.

  (** ** Complete paths of the abstract machine are expansions *)
  Notation BG n t := (bag (a_trs E) (a_fin E) n t).

  (** Sums that ignore readings of weight zero. *)
  Definition zeroed (F : reading K -> K) : Prop := forall x y, F (x, y, 0) = 0.
  Lemma zeroed_pre i o w F : zeroed F -> zeroed (fun r => F (pre i o w r)).
  Proof. intros Z x y. unfold pre. cbn. rewrite (ktimes_0_r _ L). apply Z. Qed.
  Lemma zeroed_ret a F : zeroed F -> zeroed (fun r => F (returning opts a r)).
  Proof. intros Z x y. unfold returning. cbn. rewrite (ktimes_0_r _ L). apply Z. Qed.

  Definition conv (n i s : nat) (G : nat -> list (reading K)) : list (reading K) :=
    flat_map (fun k => flat_map (fun a => map (returning opts a) (G (n - 1 - k)%nat)) (ex k i s)) (seq 0 n).
  Definition stack_ex (n : nat) (stk : stack) (i s : nat) : list (reading K) :=
    match stk with
    | [] => ex n i s
    | top :: rest => conv n i s (fun m => BG m (rest, fst top, snd top))
    end.

  Lemma sig_conv n i s G F : sig (conv n i s G) F =
    ksum (map (fun k => sig (ex k i s) (fun a => sig (G (n - 1 - k)%nat) (fun b => F (returning opts a b)))) (seq 0 n)).
  Proof.
    unfold conv. rewrite (sig_flat L). apply ksum_map_ext. intros k _. rewrite (sig_flat L). apply ksum_map_ext. intros a _.
    apply sig_map.
  Qed.
  Lemma returning_pre i o w (a b : reading K) : returning opts (pre i o w a) b = pre i o w (returning opts a b).
  Proof.
    unfold returning, pre. cbn [fst snd]. rewrite <- !app_assoc, (ktimes_assoc _ L). auto.
  Qed.
  Lemma returning_assoc (a b c : reading K) : returning opts (returning opts a b) c = returning opts a (returning opts b c).
  Proof.
    unfold returning. cbn [fst snd]. rewrite <- !app_assoc, (ktimes_assoc _ L). auto.
  Qed.
  Lemma sig_ex_S m i s F : sig (ex (S m) i s) F = ksum (map (fun t =>
      match nonterminal g (ol t) with
      | None => sig (ex m i (ns t)) (fun r => F (pre (il t) (ol t) (wgt t) r))
      | Some j => match the_start g j with
                  | None => 0
                  | Some q => ksum (map (fun k => sig (ex k j q) (fun a => sig (ex (m - 1 - k) i (ns t))
                       (fun b => F (pre (call_il opts t) (call_ol opts t) (wgt t) (returning opts a b))))) (seq 0 m))
                  end
      end) (the_trs g i s)).
  Proof.
    rewrite ex_S, (sig_flat L). apply ksum_map_ext. intros t _. destruct (nonterminal g (ol t)) as [j|]; [|apply sig_map].
    destruct (the_start g j) as [q|]; [|auto]. rewrite (sig_flat L). apply ksum_map_ext. intros k _.
    rewrite (sig_flat L). apply ksum_map_ext. intros a _. rewrite sig_map. auto.
  Qed.

  Lemma ksum_map_flat {A} (H : ttr K atuple -> K) (f : A -> list (ttr K atuple)) l :
    ksum (map H (flat_map f l)) = ksum (map (fun a => ksum (map H (f a))) l).
  Proof. induction l as [|a l IHl]; cbn [flat_map map ksum]; auto. rewrite map_app, (ksum_app L), IHl. auto. Qed.
  Lemma ksum_ocons (H : ttr K atuple -> K) o l : ksum (map H (ocons o l)) = match o with Some u => H u | None => 0 end + ksum (map H l).
  Proof. destruct o; cbn; auto. symmetry. apply (kplus_0_l _ L). Qed.

  Lemma bag_stack : forall n stk i s, Uv (stk, i, s) -> forall F, zeroed F -> sig (BG n (stk, i, s)) F = sig (stack_ex n stk i s) F.
  Proof.
    induction n as [n IH] using lt_wf_ind. intros stk i s [G GS] F Z. cbn [fst snd] in G, GS. destruct n as [|m].
    - cbn [bag]. unfold fin_at. rewrite a_fin_eq by auto. destruct stk as [|top rest]; cbn [stack_ex].
      + unfold ex. cbn [expand]. destruct (the_fin g i s); cbn [fw]; [auto|]. unfold sig. cbn. rewrite Z. apply (kplus_0_l _ L).
      + unfold conv. cbn. unfold sig. cbn. rewrite Z. apply (kplus_0_l _ L).
    - cbn [bag]. rewrite (sig_flat L). unfold trs_at. rewrite a_trs_eq by auto. rewrite ksum_ocons, ksum_map_flat.
      (* the transitions of the machine *)
      assert (TR : ksum (map (fun t => ksum (map (fun u => sig (map (pre (ti u) (to u) (tw u)) (BG m (tn u))) F) (ocons (the_call stk i t) []))) (the_trs g i s)) =
        ksum (map (fun t => match nonterminal g (ol t) with
          | None => sig (stack_ex m stk i (ns t)) (fun r => F (pre (il t) (ol t) (wgt t) r))
          | Some j => match the_start g j with
            | None => 0
            | Some q => ksum (map (fun k => sig (ex k j q) (fun a => sig (stack_ex (m - 1 - k) stk i (ns t))
                         (fun b => F (pre (call_il opts t) (call_ol opts t) (wgt t) (returning opts a b))))) (seq 0 m))
            end end) (the_trs g i s))).
      { apply ksum_map_ext. intros t It. rewrite ksum_ocons. cbn [map ksum]. rewrite (kplus_0_r L). unfold the_call.
        destruct (nonterminal g (ol t)) as [j|].
        - destruct (the_start g j) as [q|] eqn:Sq; [|auto]. cbn [ti to tw tn]. rewrite sig_map.
          rewrite IH; [|lia| |apply zeroed_pre; auto].
          2: { split; cbn [fst snd]; [apply good_start; auto|]. intros e [<-|He]; [cbn; eapply good_next; eauto|auto]. }
          cbn [stack_ex]. rewrite sig_conv. cbn [fst snd]. apply ksum_map_ext. intros k Hk. apply in_seq in Hk. apply sig_ext. intros a.
          apply IH; [lia| |]; [split; cbn [fst snd]; [eapply good_next; eauto|auto]|]. apply (zeroed_ret a (fun r => F (pre _ _ _ r))). apply zeroed_pre. auto.
        - cbn [ti to tw tn]. rewrite sig_map. apply IH; [lia| |apply zeroed_pre; auto]. split; cbn [fst snd]; [eapply good_next; eauto|auto]. }
      rewrite TR. clear TR. destruct stk as [|top rest]; cbn [stack_ex the_ret].
      + rewrite (kplus_0_l _ L), sig_ex_S. auto.
      + rewrite sig_conv, (ksum_first). f_equal.
        * replace (S m - 1 - 0)%nat with m by lia. unfold ex. cbn [expand]. destruct (the_fin g i s) as [w|]; cbn [ti to tw tn].
          -- rewrite sig_map. unfold sig at 2. cbn [map ksum]. rewrite (kplus_0_r L). apply sig_ext. intros r. f_equal.
          -- auto.
        * set (B := fun x => BG x (rest, fst top, snd top)).
          transitivity (ksum (map (fun k => ksum (map (fun t =>
             match nonterminal g (ol t) with
             | None => sig (ex k i (ns t)) (fun a => sig (B (m - 1 - k)%nat) (fun b => F (pre (il t) (ol t) (wgt t) (returning opts a b))))
             | Some j => match the_start g j with
                | None => 0
                | Some q => ksum (map (fun a => sig (ex a j q) (fun x => sig (ex (k - 1 - a) i (ns t)) (fun y => sig (B (m - 1 - k)%nat) (fun z =>
                      F (pre (call_il opts t) (call_ol opts t) (wgt t) (returning opts x (returning opts y z))))))) (seq 0 k))
                end end) (the_trs g i s))) (seq 0 m))).
          -- rewrite (ksum_swap L). apply ksum_map_ext. intros t _. destruct (nonterminal g (ol t)) as [j|].
             ++ destruct (the_start g j) as [q|]; [|symmetry; apply (ksum_map_zero L); auto].
                transitivity (ksum (map (fun a => ksum (map (fun b => sig (ex a j q) (fun x => sig (ex b i (ns t)) (fun y => sig (B (m - 2 - a - b)%nat) (fun z =>
                  F (pre (call_il opts t) (call_ol opts t) (wgt t) (returning opts x (returning opts y z))))))) (seq 0 (m - 1 - a)))) (seq 0 m))).
                ** apply ksum_map_ext. intros k Hk. apply in_seq in Hk.
                   etransitivity; [|apply (ksum_swap L (fun x b => sig (ex b i (ns t)) (fun y => sig (B (m - 2 - k - b)%nat) (fun z =>
                     F (pre (call_il opts t) (call_ol opts t) (wgt t) (returning opts x (returning opts y z)))))) (ex k j q))].
                   apply ksum_map_ext. intros x _. rewrite sig_conv. apply ksum_map_ext. intros b Hb. apply in_seq in Hb.
                   apply sig_ext. intros y. unfold B. replace (m - 1 - k - 1 - b)%nat with (m - 2 - k - b)%nat by lia. auto.
                ** rewrite <- (ksum_tri2 L (fun a b => sig (ex a j q) (fun x => sig (ex b i (ns t)) (fun y => sig (B (m - 2 - a - b)%nat) (fun z =>
                     F (pre (call_il opts t) (call_ol opts t) (wgt t) (returning opts x (returning opts y z)))))))).
                   apply ksum_map_ext. intros k Hk. apply in_seq in Hk. apply ksum_map_ext. intros a Ha. apply in_seq in Ha.
                   replace (m - 2 - a - (k - 1 - a))%nat with (m - 1 - k)%nat by lia. auto.
             ++ rewrite sig_conv. apply ksum_map_ext. intros k _. auto.
          -- apply ksum_map_ext. intros k _. rewrite sig_ex_S. replace (S m - 1 - S k)%nat with (m - 1 - k)%nat by lia. fold (B (m - 1 - k)%nat).
             apply ksum_map_ext. intros t _. destruct (nonterminal g (ol t)) as [j|].
             ++ destruct (the_start g j) as [q|]; [|auto]. apply ksum_map_ext. intros a _. apply sig_ext. intros x. apply sig_ext. intros y.
                apply sig_ext. intros z. rewrite returning_pre, returning_assoc. auto.
             ++ apply sig_ext. intros a. apply sig_ext. intros b. rewrite returning_pre. auto.
  Qed.

  Lemma pick_sig x y l : pick x y l = sig l (fun r : reading K => if leqb (fst (fst r)) x && leqb (snd (fst r)) y then snd r else 0).
  Proof. reflexivity. Qed.
  Lemma root_expansions n x y : grel (a_trs E) (a_fin E) (a_start E) n x y = pick x y (expansions g opts n).
  Proof.
    unfold grel, expansions. destruct root_good as (p & N & ->). rewrite a_start_eq.
    destruct (the_start g (re_root E)) as [s|] eqn:S; [|reflexivity]. rewrite (gwt_bag L), !pick_sig. rewrite bag_stack.
    - reflexivity.
    - split; cbn [fst snd]; [apply good_start; auto|intros e []].
    - intros a b. cbn. destruct (_ && _); auto.
  Qed.

  Definition SPx (U : atuple -> Prop) US UN := transfer_spec _ _ rabs rJ (rp_hstart E) (rp_htrs E) (rp_hfin E)
    _ _ _ _ _ (table_spec atuple_eqb atuple_eqb_spec (a_start E) (a_trs E) (a_fin E) (re_props E) U US UN).
  Lemma rp_zok {C} (X : fst_cache K C) inv c (U : atuple -> Prop) : cache_empty X inv c ->
    zok X inv (fun o => rJ o /\ tI atuple_eqb U (rabs o)) (fun o => tS (a_start E) (rabs o))
      (fun o => tT (a_trs E) (rabs o)) (fun o => tF (a_fin E) (rabs o)) (rt_new, c).
  Proof. intros H. apply zok_empty; [split; [apply rJ_new|apply tI_new]|exact H]. Qed.
End C40.

(** ** The result *)

(** Every complete path of the result is an expansion and conversely, with the same labels and weight,
    for every grammar of machines built through the API (recursive or not) and every choice of labels. *)
Theorem C40_replace {K : SR} (L : lsr_laws K) (g : list (nat * vfst K)) (opts : replace_opts) fuel h :
  (forall p, In p g -> closed (snd p)) -> replace_with opts g fuel = Some (Ok h) ->
  closed h /\ cnt h /\
  (forall n x y, rel (mach h) n x y = pick x y (expansions g opts n)) /\
  (vstart h <> None -> exists p, nth_error g 0 = Some p /\ visymt h = visymt (snd p) /\ vosymt h = vosymt (snd p)) /\
  (vstart h = None -> num_states h = O /\ exists r, last_idx g 0 (ro_root opts) = Some r /\ the_start g r = None).
Proof.
  intros D. unfold replace_with. destruct (replace_new g opts) as [E| |] eqn:HE; try discriminate.
  destruct (compute _ _ fuel _ _ _) as [[[h' z]| |]|] eqn:C; cbn [rmap]; try discriminate. intros [= <-].
  destruct (compute_ok (rp_op E) map_cache_ops map_inv _ _ _ _ _ map_cache_laws
    (SPx E (fun _ => True) (fun _ _ => Logic.I) (fun _ _ _ _ _ _ => Logic.I)) fuel _ _ _ _ _
    (rp_zok E map_cache_ops map_inv map_cache_new _ map_cache_empty) C) as (_ & _ & B & S).
  cbn [fst]. split; [apply B|]. split; [apply B|]. split; [|split].
  - intros n x y. rewrite <- (root_expansions L g opts E HE D). exact (built_rel _ _ _ (rabs (fst z), snd z) h' B n x y).
  - intros N. destruct (S N) as (S1 & S2 & _). destruct (root_good g opts E HE) as (p & Np & _). destruct g as [|p0 g']; [destruct (re_root E); discriminate|].
    exists p0. auto.
  - destruct B as (_ & _ & B). intros N. rewrite N in B. destruct B as [B1 B2]. split; [unfold num_states; rewrite B1; auto|].
    destruct (root_good g opts E HE) as (p & Np & Rp). exists (re_root E). split; auto. cbn in B2. rewrite (a_start_eq g opts E HE D) in B2.
    destruct (the_start g (re_root E)); [discriminate|auto].
Qed.
Print Assumptions C40_replace.

(** The lazy machine, also of an infinite expansion, with any provided cache and after any history of
    questions: as far as a client's picture [m] of it comes from answers, it denotes the expansions. *)
From Verif Require Import Props.C21.
Theorem C40_lazy {K : SR} (L : lsr_laws K) (g : list (nat * vfst K)) (opts : replace_opts) E
  {C} (X : fst_cache K C) c0 inv (P : provided C X c0 inv) qs ans z :
  (forall p, In p g -> closed (snd p)) -> replace_new g opts = Ok E -> ask (rp_op E) X (rt_new, c0) qs = Ok (ans, z) ->
  forall (m : machine K) n,
  (exists k, nth_error qs k = Some QStart /\ nth_error ans k = Some (AStart (mstart m))) ->
  (forall s p, mstart m = Some s -> is_path m s p ->
     ((length p < n)%nat -> exists k, nth_error qs k = Some (QTrs (dst s p)) /\ nth_error ans k = Some (ATrs (mtrs m (dst s p)))) /\
     (length p = n -> exists k, nth_error qs k = Some (QFinal (dst s p)) /\ nth_error ans k = Some (AFinal (mfin m (dst s p))))) ->
  forall x y, rel m n x y = pick x y (expansions g opts n).
Proof.
  intros D HE A m n (k0 & Q0 & A0) KN x y. destruct (provided_laws _ _ _ _ P) as [LX EX].
  destruct (ask_ok (rp_op E) X inv _ _ _ _ _ LX (SPx E (fun _ => True) (fun _ _ => Logic.I) (fun _ _ _ _ _ _ => Logic.I)) qs _ _ _
    (rp_zok E X inv c0 _ EX) A) as (Z & _ & _ & H2 & _).
  destruct Z as (_ & _ & ZS & ZT & ZF).
  assert (TT : forall q, (exists k, nth_error qs k = Some (QTrs q) /\ nth_error ans k = Some (ATrs (mtrs m q))) -> tT (a_trs E) (rabs (fst z)) q (mtrs m q)).
  { intros q (k & Hq & Ha). destruct (H2 _ _ _ Hq Ha) as [H|H]; [discriminate|]. apply ZT. exact H. }
  assert (FF : forall q, (exists k, nth_error qs k = Some (QFinal q) /\ nth_error ans k = Some (AFinal (mfin m q))) -> tF (a_fin E) (rabs (fst z)) q (mfin m q)).
  { intros q (k & Hq & Ha). destruct (H2 _ _ _ Hq Ha) as [H|H]; [discriminate|]. apply ZF. exact H. }
  assert (SS : tS (a_start E) (rabs (fst z)) (mstart m)).
  { destruct (H2 _ _ _ Q0 A0) as [H|H]; [discriminate|]. apply ZS. exact H. }
  rewrite <- (root_expansions L g opts E HE D). unfold rel, grel. destruct (mstart m) as [s|] eqn:Es.
  2: { cbn in SS. rewrite SS. auto. }
  destruct SS as (t0 & N0 & ->).
  assert (G : forall j q t x y, nth_error (id_to_tuple (rabs (fst z))) q = Some t ->
    (forall p, is_path m q p -> ((length p < j)%nat -> tT (a_trs E) (rabs (fst z)) (dst q p) (mtrs m (dst q p))) /\
       (length p = j -> tF (a_fin E) (rabs (fst z)) (dst q p) (mfin m (dst q p)))) ->
    wt m j q x y = gwt (a_trs E) (a_fin E) j t x y).
  { clear. induction j as [|j IH]; intros q t x y N H; cbn [wt gwt].
    - destruct (proj2 (H [] Logic.I) eq_refl) as (t2 & N2 & E2). cbn [dst] in *. unfold fin_at. replace t with t2 by congruence. rewrite E2. auto.
    - destruct (proj1 (H [] Logic.I) ltac:(cbn; lia)) as (t1 & u & N1 & E1 & F1). cbn [dst] in *. unfold trs_at. replace t with t1 by congruence. rewrite E1.
      assert (AT : forall v, In v (mtrs m q) -> forall p, is_path m (ns v) p ->
        ((length p < j)%nat -> tT (a_trs E) (rabs (fst z)) (dst (ns v) p) (mtrs m (dst (ns v) p))) /\
        (length p = j -> tF (a_fin E) (rabs (fst z)) (dst (ns v) p) (mfin m (dst (ns v) p)))).
      { intros v Hv p Hp. destruct (H (v :: p)) as [H1 H2]; [cbn; auto|]. cbn [dst length] in *. split; intros; [apply H1|apply H2]; lia. }
      revert F1 AT. generalize (mtrs m q). clear -IH. intros l F AT. f_equal.
      induction F as [|v w l u (H1 & H2 & H3 & H4) F IHF]; cbn [map]; auto.
      rewrite IHF by (intros w' Hw; apply AT; simpl; auto). f_equal. rewrite H1, H2, H3.
      destruct (strip (ti w) x); auto. destruct (strip (to w) y); auto. f_equal. apply IH; auto.
      apply AT. simpl. auto. }
  apply G; auto. intros p Hp. destruct (KN s p eq_refl Hp) as [K1 K2]. split; auto.
Qed.
Print Assumptions C40_lazy.

(** No machine for the root label: an error. *)
Theorem C40_no_root {K : SR} (g : list (nat * vfst K)) opts fuel :
  (forall p, In p g -> fst p <> ro_root opts) -> replace_with opts g fuel = Some Err.
Proof.
  intros H. unfold replace_with, replace_new.
  assert (PR : exists w, replace_properties (ro_root opts) g (ro_call opts) (ro_return opts) (ro_call_output opts) = Ok w).
  { unfold replace_properties, mut_replace_properties. destruct g as [|p0 g']; cbn [map]; [eauto|].
    assert (root_idx 0 (ro_root opts) (p0 :: g') 0 < length (p0 :: g'))%nat as R.
    { assert (forall l : list (nat * vfst K), forall i a N, (a < N)%nat -> (i + length l <= N)%nat -> (root_idx i (ro_root opts) l a < N)%nat) as G.
      { induction l as [|q l IH]; intros i a N A B; cbn [root_idx]; auto. cbn in B. apply IH; [destruct (Nat.eqb _ _); lia|lia]. }
      apply G; cbn; lia. }
    change (vprops (snd p0) :: map (fun p => vprops (snd p)) g') with (map (fun p : nat * vfst K => vprops (snd p)) (p0 :: g')).
    destruct (nth_error (map (fun p : nat * vfst K => vprops (snd p)) (p0 :: g')) (root_idx 0 (ro_root opts) (p0 :: g') 0)) eqn:N; [eauto|].
    apply nth_error_None in N. rewrite map_length in N. lia. }
  destruct PR as [w ->]. cbn [rbind]. rewrite hash_last. cbn [lookup].
  destruct (last_idx g 0 (ro_root opts)) as [j|] eqn:F; auto.
  apply last_in in F as [I _]. apply in_map_iff in I as (p & E & I). exfalso. apply (H p I E).
Qed.
Print Assumptions C40_no_root.

(** Without non-terminals the root machine is copied. *)
Theorem C40_no_calls {K : SR} (L : lsr_laws K) (g : list (nat * vfst K)) opts fuel h r p :
  (forall p, In p g -> closed (snd p)) -> replace_with opts g fuel = Some (Ok h) ->
  last_idx g 0 (ro_root opts) = Some r -> nth_error g r = Some p ->
  (forall s t, In t (trs_of (snd p) s) -> nonterminal g (ol t) = None) ->
  forall n x y, rel (mach h) n x y = rel (mach (snd p)) n x y.
Proof.
  intros D R Hr Np NT n x y. destruct (C40_replace L g opts fuel h D R) as (_ & _ & -> & _).
  unfold expansions, rel, the_start. rewrite Hr, Np. cbn [mach mstart]. destruct (vstart (snd p)) as [s|]; [|reflexivity].
  change (expand g opts (S n) n r s) with (ex g opts n r s). revert s x y. induction n as [|n IH]; intros s x y.
  - unfold ex. cbn [expand wt mach mfin]. unfold the_fin. rewrite Np. destruct (fin_of (snd p) s) as [w|]; unfold pick; cbn.
    + rewrite !leqb_nil. apply (kplus_0_r L).
    + destruct (_ && _); auto.
  - rewrite ex_S. cbn [wt mach mtrs]. rewrite (pick_flat_map L). unfold the_trs. rewrite Np. apply ksum_map_ext. intros t It.
    rewrite (NT s t It), (pick_pre L). unfold off. destruct (strip (il t) x); auto. destruct (strip (ol t) y); auto. rewrite IH. auto.
Qed.
Print Assumptions C40_no_calls.

(** ** Termination *)

(** Machine [i] mentions machine [j]. *)
Definition mentions {K : SR} (g : list (nat * vfst K)) (i j : nat) : Prop :=
  exists s t, In t (the_trs g i s) /\ nonterminal g (ol t) = Some j.
(** No chain of mentions comes back: machines can be ranked. *)
Definition ranked {K : SR} (g : list (nat * vfst K)) (rank : nat -> nat) : Prop :=
  forall i j, mentions g i j -> (rank j < rank i)%nat.

Fixpoint words {A} (n : nat) (l : list A) : list (list A) :=
  match n with O => [[]] | S n' => [] :: flat_map (fun a => map (cons a) (words n' l)) l end.
Lemma words_in {A} n (l : list A) : forall w, (length w <= n)%nat -> (forall a, In a w -> In a l) -> In w (words n l).
Proof.
  induction n as [|n IH]; intros [|a w] H I; cbn in *; auto; [lia|]. right. apply in_flat_map. exists a. split; auto.
  apply in_map. apply IH; [lia|auto].
Qed.

Section Termination.
  Context {K : SR} (L : lsr_laws K) (g : list (nat * vfst K)) (opts : replace_opts) (rank : nat -> nat) (RK : ranked g rank)
    (D : forall p, In p g -> closed (snd p)).

  Definition places : list (nat * nat) :=
    flat_map (fun i => match nth_error g i with Some p => map (pair i) (seq 0 (num_states (snd p))) | None => [] end) (seq 0 (length g)).
  Lemma places_in i s : good g i s -> In (i, s) places.
  Proof.
    intros (p & N & H). apply in_flat_map. exists i. split; [apply in_seq; split; [lia|]; apply nth_error_Some; congruence|].
    rewrite N. apply in_map. apply in_seq. lia.
  Qed.

  Fixpoint rising (R : nat) (stk : stack) (i : nat) : Prop :=
    match stk with [] => (rank i <= R)%nat | e :: rest => (rank i < rank (fst e))%nat /\ rising R rest (fst e) end.
  Lemma rising_len R stk : forall i, rising R stk i -> (length stk + rank i <= R)%nat.
  Proof. induction stk as [|e stk IH]; intros i; cbn; [lia|]. intros [A B]. apply IH in B. lia. Qed.

  Theorem C40_terminates : In (ro_root opts) (map fst g) ->
    exists fuel, forall fuel', (fuel <= fuel')%nat -> exists h, replace_with opts g fuel' = Some (Ok h).
  Proof.
    intros HR.
    assert (exists E, replace_new g opts = Ok E) as [E HE].
    { unfold replace_new.
      destruct (replace_properties (ro_root opts) g (ro_call opts) (ro_return opts) (ro_call_output opts)) as [w| |] eqn:PR.
      - cbn [rbind]. rewrite hash_last. cbn [lookup]. destruct (last_idx g 0 (ro_root opts)) eqn:F; [eauto|].
        exfalso. revert F HR. generalize O. clear. induction g as [|p l IH]; intros i F H; [destruct H|]. cbn in F.
        destruct (last_idx l (S i) (ro_root opts)) eqn:G; [discriminate|]. destruct (Nat.eqb_spec (fst p) (ro_root opts)); [discriminate|].
        destruct H; [congruence|]. eapply IH; eauto.
      - exfalso. revert PR. unfold replace_properties, mut_replace_properties. destruct (map (fun p => vprops (snd p)) g); [discriminate|]. destruct (nth_error _ _); discriminate.
      - exfalso. revert PR. unfold replace_properties, mut_replace_properties. destruct g as [|p0 g']; [discriminate|].
        assert (root_idx 0 (ro_root opts) (p0 :: g') 0 < length (p0 :: g'))%nat as R.
        { assert (forall l : list (nat * vfst K), forall i a N, (a < N)%nat -> (i + length l <= N)%nat -> (root_idx i (ro_root opts) l a < N)%nat) as G.
          { induction l as [|q l IH]; intros i a N A B; cbn [root_idx]; auto. cbn in B. apply IH; [destruct (Nat.eqb _ _); lia|lia]. }
          apply G; cbn; lia. }
        cbn [map]. change (vprops (snd p0) :: map (fun p => vprops (snd p)) g') with (map (fun p : nat * vfst K => vprops (snd p)) (p0 :: g')).
        destruct (nth_error (map (fun p : nat * vfst K => vprops (snd p)) (p0 :: g')) (root_idx 0 (ro_root opts) (p0 :: g') 0)) eqn:N; [discriminate|].
        apply nth_error_None in N. rewrite map_length in N. lia. }
    set (R := rank (re_root E)).
    set (U := fun t : atuple => Uv g t /\ rising R (fst (fst t)) (snd (fst t))).
    assert (US : forall t, a_start E = Ok (Some t) -> U t).
    { intros t H. split; [exact (Uv_start g opts E HE D t H)|]. rewrite (a_start_eq g opts E HE D) in H.
      destruct (the_start g (re_root E)); [|discriminate]. injection H as <-. cbn. apply Nat.le_refl. }
    assert (UN : forall t l u, U t -> a_trs E t = Ok l -> In u l -> U (tn u)).
    { intros t l u [V S] H I. split; [exact (Uv_next g opts E HE D t l u V H I)|]. destruct t as [[stk i] s]. cbn [fst snd] in S. pose proof V as [G _]. cbn in G.
      destruct (next_cases g opts E HE _ _ _ _ _ G H I) as [(top & rest & w & -> & ->)|[(t & It & _ & ->)|(t & j & q & It & Nj & Sj & ->)]]; cbn [tn fst snd] in *.
      - apply S.
      - exact S.
      - cbn. split; auto. apply RK. exists s, t. auto. }
    set (univ := flat_map (fun stk => map (fun e : nat * nat => (stk, fst e, snd e)) places) (words R places)).
    assert (HU : forall t, U t -> In t univ).
    { intros [[stk i] s] [[V1 V2] S]. cbn [fst snd] in *. apply in_flat_map. exists stk. split.
      - apply words_in; [apply rising_len in S; lia|]. intros [a b] Ha. apply places_in. apply (V2 (a, b) Ha).
      - apply in_map_iff. exists (i, s). split; auto. apply places_in. auto. }
    exists (length univ). intros fuel HF. unfold replace_with. rewrite HE.
    assert (LS : exists o, a_start E = Ok o) by (rewrite (a_start_eq g opts E HE D); eauto).
    pose proof (table_live atuple_eqb (a_start E) (a_trs E) (a_fin E) (re_props E) U US LS
      (fun t H => proj1 (Uv_live g opts E HE t (proj1 H))) (fun t H => proj2 (Uv_live g opts E HE t (proj1 H)))) as TL.
    pose proof (transfer_live _ (rp_op E) rabs rJ _ _ _ _ _ (rp_lstart E) (rp_ltrs E) (rp_lfin E) TL) as LV.
    destruct (compute_total (rp_op E) map_cache_ops map_inv _ _ _ _ _ map_cache_laws (SPx E U US UN) _ LV (length univ)
      (fun o i H V => table_bound atuple_eqb U univ HU (rabs o) i (proj2 H) V) fuel
      (match g with p :: _ => visymt (snd p) | [] => None end) (match g with p :: _ => vosymt (snd p) | [] => None end) _
      (rp_zok E map_cache_ops map_inv map_cache_new U map_cache_empty) HF) as ((h & z) & C).
    rewrite C. cbn. eauto.
  Qed.
End Termination.
Print Assumptions C40_terminates.

(** ** Witnesses *)
Local Close Scope K_scope.
Definition built_by (c : list (op natSR)) : vfst natSR := match run vnew c with Ok f => f | _ => vnew end.
(** Root 10: reads 1, calls 11, reads 2; machine 11: reads 3 or calls 12 (weight 5); machine 12: reads 4. *)
Definition c40_g : list (nat * vfst natSR) :=
  [(10, built_by [OAddStates 4; OSetStart 0; OSetFinal 3 2; OAddTr 0 (Tr 1 1 3 1); OAddTr 1 (Tr 7 11 1 2); OAddTr 2 (Tr 2 2 1 3)]);
   (11, built_by [OAddStates 2; OSetStart 0; OSetFinal 1 7; OAddTr 0 (Tr 3 3 1 1); OAddTr 0 (Tr 8 12 5 1)]);
   (12, built_by [OAddStates 2; OSetStart 0; OSetFinal 1 11; OAddTr 0 (Tr 4 4 1 1)])].
(** S -> 1 S 2 | 3. *)
Definition c40_rec : list (nat * vfst natSR) :=
  [(10, built_by [OAddStates 4; OSetStart 0; OSetFinal 3 1; OAddTr 0 (Tr 1 1 2 1); OAddTr 1 (Tr 10 10 1 2); OAddTr 2 (Tr 2 2 1 3); OAddTr 0 (Tr 3 3 1 3)])].

Lemma c40_closed : (forall p, In p c40_g -> closed (snd p)) /\ (forall p, In p c40_rec -> closed (snd p)).
Proof. split; intros p H; repeat destruct H as [<-|H]; try destruct H; apply closedb_ok; vm_compute; reflexivity. Qed.

Definition c40_out {K : SR} (x : option (res (vfst K))) : vfst K := match x with Some (Ok f) => f | _ => vnew end.
Example C40_witness :
  (forall p, In p c40_g -> closed (snd p)) /\ ranked c40_g (fun i => 3 - i) /\ In 10 (map fst c40_g) /\
  exists h1 h2, replace c40_g 10 true 20 = Some (Ok h1) /\ replace c40_g 10 false 20 = Some (Ok h2) /\
    rel (mach h1) 5 [1; 3; 2] [1; 3; 2] = 3 * 7 * 2 /\ rel (mach h1) 7 [1; 4; 2] [1; 4; 2] = 3 * 5 * 11 * 7 * 2 /\
    rel (mach h2) 7 [1; 7; 8; 4; 2] [1; 4; 2] = 3 * 5 * 11 * 7 * 2 /\ num_states h1 = 8 /\
    pick [1; 7; 8; 4; 2] [1; 4; 2] (expansions c40_g (replace_opts_new 10 false) 7) = 3 * 5 * 11 * 7 * 2 /\
    pick [1; 1; 3; 2; 2] [1; 1; 3; 2; 2] (expansions c40_rec (replace_opts_new 10 true) 9) = 4 /\
    replace c40_rec 10 true 50 = None.
Proof.
  split; [apply c40_closed|]. split.
  { intros i j (s & t & I & N). unfold the_trs in I. destruct i as [|[|[|i]]]; cbn [nth_error c40_g] in I; try (destruct i; destruct I).
    all: assert (C : s < 4 \/ 4 <= s) by lia; destruct C as [C|C]; [|rewrite trs_of_oob in I by (vm_compute; lia); destruct I];
      do 4 (destruct s as [|s]; [vm_compute in I; repeat destruct I as [<-|I]; try destruct I; vm_compute in N; try discriminate; injection N as <-; vm_compute; lia|]); lia. }
  split; [vm_compute; auto|].
  exists (c40_out (replace c40_g 10 true 20)), (c40_out (replace c40_g 10 false 20)).
  repeat match goal with |- _ /\ _ => split end; vm_compute; reflexivity.
Qed.

(** The bit I_LABEL_SORTED is claimed when calls become epsilon transitions in the middle of a sorted list. *)
Theorem C40_bits_refuted : exists (g : list (nat * vfst natSR)) h, replace g 1 true 20 = Some (Ok h) /\
  (forall p, In p g -> closed (snd p)) /\ has (vprops h) I_LABEL_SORTED = true /\ ~ holds I_LABEL_SORTED (num_states h) (mach h).
Proof.
  set (g := [(1, built_by [OAddStates 2; OSetStart 0; OSetFinal 1 1; OAddTr 0 (Tr 1 5 1 1); OAddTr 0 (Tr 3 2 1 1)]);
             (2, built_by [OAddStates 1; OSetStart 0; OSetFinal 0 1])]).
  exists g, (c40_out (replace g 1 true 20)). split; [vm_compute; reflexivity|]. split; [|split; [vm_compute; reflexivity|]].
  - intros p H. repeat destruct H as [<-|H]; try destruct H; apply closedb_ok; vm_compute; reflexivity.
  - intros H. cbn [holds] in H. specialize (H 0). vm_compute in H. inversion H as [|? ? ? X]. subst. inversion X. lia.
Qed.
Print Assumptions C40_bits_refuted.
