(** The distances that determinization hands over, and the paths of a deterministic acceptor. *)
From Coq Require Import List Arith NArith Bool Lia Permutation.
From Verif Require Import Base.Util Base.Semiring Base.Machine Base.PropSpec Model.Props Model.VectorFst Model.BiMap Model.Lazy Model.Rational Model.FstPath Model.NShortest Model.Determinize
  Proofs.VectorFacts Proofs.TrOpsFacts Proofs.OpFacts Proofs.RationalFacts Proofs.BiMapFacts Proofs.LazyFacts Proofs.TableFacts Proofs.TableReach Proofs.FactorTable Proofs.DetTable Proofs.DetFacts Proofs.DetBits
  Proofs.ShortestTree Proofs.NSearch Proofs.NLoop Proofs.NBest Proofs.NPaths Proofs.NFinal Props.C38 Props.C47.
Import ListNotations.
Local Open Scope K_scope.

Lemma NoDup_app_intro {A} (l l' : list A) : NoDup l -> NoDup l' -> (forall x, In x l -> In x l' -> False) -> NoDup (l ++ l').
Proof.
  induction l as [|x l IH]; intros N N' H; cbn; auto. inversion N; subst. constructor.
  - intros Hx. apply in_app_or in Hx as [Hx|Hx]; [auto|]. apply (H x); [left; auto|auto].
  - apply IH; auto. intros y Hy. apply H. right. auto.
Qed.

Section Le.
  Context {K : SR} (L : sr_laws K) (Pp : path_plus K).
  Lemma le_sum (x : K) l : (forall y, In y l -> le x y) -> le x (ksum l).
  Proof.
    induction l as [|y l IH]; intros H; cbn [ksum]; [apply (le_0 L)|]. unfold le in *. rewrite (kplus_assoc _ L), (H y) by (left; auto).
    apply IH. intros; apply H; right; auto.
  Qed.
  Lemma sum_le_sum {A} (h h' : A -> K) l : (forall a, In a l -> le (h a) (h' a)) -> le (ksum (map h l)) (ksum (map h' l)).
  Proof.
    intros H. apply le_sum. intros y Hy. apply in_map_iff in Hy as (a & <- & Ha). eapply (le_trans L); [|apply H; auto].
    apply (ksum_le L _ _ Pp). apply in_map. auto.
  Qed.
End Le.

(** ** A deterministic acceptor: one path for a word *)
Section Words.
  Context {K : SR} (L : sr_laws K) (Cm : commutative_times K) (Pp : path_plus K).
  Context (I : vfst K) (Det : deterministic (mach I)) (Acc : is_acceptor (mach I)).
  Notation gext := (gext (fun w : K => w) I).
  Notation spell := (spell (mach I)).

  (** The words of [k] labels, the end of the path counting as one, that lead from [q] to an end. *)
  Fixpoint words (k q : nat) : list (list nat) :=
    match k with
    | O => []
    | S k' => flat_map (fun t => map (cons (il t)) (words k' (ns t))) (trs_of I q) ++
              match fin_of I q with Some w => if keqb w 0 then [] else if Nat.eqb k' 0 then [[]] else [] | None => [] end
    end.
  Definition str (u : list nat) : list nat := flat_map lab (rev u).
  Lemma str_cons a u : str (a :: u) = str u ++ lab a.
  Proof. unfold str. cbn [rev]. rewrite flat_map_app. cbn [flat_map]. rewrite app_nil_r. auto. Qed.

  Lemma only q t : In t (trs_of I q) -> filter (fun v => Nat.eqb (il v) (il t)) (trs_of I q) = [t].
  Proof.
    pose proof (Det q) as N. cbn [mach mtrs] in N. revert N. induction (trs_of I q) as [|v l IH]; intros N Ht; [destruct Ht|].
    cbn [map] in N. inversion N as [|? ? N1 N2]; subst. cbn [filter].
    assert (X : forall a, ~ In a (map il l) -> filter (fun v => Nat.eqb (il v) a) l = []).
    { clear. induction l as [|w l IH]; intros a H; auto. cbn [filter]. cbn in H. destruct (Nat.eqb_spec (il w) a); [tauto|]. apply IH. tauto. }
    destruct Ht as [<-|Ht].
    - rewrite Nat.eqb_refl, X by auto. auto.
    - destruct (Nat.eqb_spec (il v) (il t)) as [E|E]; [|auto]. exfalso. apply N1. rewrite E. apply in_map. auto.
  Qed.
  Lemma spell_step q t u : In t (trs_of I q) -> spell q (il t :: u) = wgt t * spell (ns t) u.
  Proof. intros H. cbn [C38.spell mach mtrs]. rewrite (only q t H). cbn [map ksum]. apply (kplus_0_r L). Qed.

  Lemma gext_words k : forall q suf,
    gext k (Some q) suf = map (fun u => FP (str u ++ pil suf) (str u ++ pol suf) (spell q u * pwgt suf)) (words k q).
  Proof.
    induction k as [|k IH]; intros q suf; cbn [NSearch.gext words]; auto. rewrite map_app. f_equal.
    - assert (X : forall l, incl l (trs_of I q) ->
        flat_map (fun t => gext k (Some (ns t)) (consr (il t) (ol t) (wgt t) suf)) l =
        map (fun u => FP (str u ++ pil suf) (str u ++ pol suf) (spell q u * pwgt suf)) (flat_map (fun t => map (cons (il t)) (words k (ns t))) l)).
      { induction l as [|t l IHl]; intros Hl; auto. cbn [flat_map]. rewrite map_app, IHl by (intros x Hx; apply Hl; right; auto). f_equal.
        assert (Ht : In t (trs_of I q)) by (apply Hl; left; auto). rewrite IH, map_map. apply map_ext. intros u.
        rewrite (spell_step q t u Ht), str_cons. unfold consr. cbn [pil pol pwgt]. rewrite (Acc q t Ht), <- !app_assoc. f_equal.
        rewrite (ktimes_assoc _ L). f_equal. apply Cm. }
      apply X, incl_refl.
    - destruct (fin_of I q) as [w|] eqn:F; auto. destruct (keqb w 0); auto. destruct k; auto. cbn [Nat.eqb NSearch.gext map C38.spell mach mfin].
      rewrite F. reflexivity.
  Qed.
  Lemma words_length k : forall q u, In u (words k q) -> k = S (length u).
  Proof.
    induction k as [|k IH]; intros q u H; cbn [words] in H; [destruct H|]. apply in_app_or in H as [H|H].
    - apply in_flat_map in H as (t & _ & H). apply in_map_iff in H as (v & <- & Hv). apply IH in Hv. cbn. lia.
    - destruct (fin_of I q) as [w|]; [|destruct H]. destruct (keqb w 0); [destruct H|]. destruct (Nat.eqb_spec k 0); [|destruct H].
      destruct H as [<-|[]]. cbn. lia.
  Qed.
  Lemma words_nodup k : forall q, NoDup (words k q).
  Proof.
    induction k as [|k IH]; intros q; cbn [words]; [constructor|].
    assert (X : forall l, NoDup (map (@il K) l) -> NoDup (flat_map (fun t => map (cons (il t)) (words k (ns t))) l)).
    { induction l as [|t l IHl]; intros N; cbn [flat_map]; [constructor|]. cbn [map] in N. inversion N as [|? ? N1 N2]; subst. apply NoDup_app_intro.
      - apply FinFun.Injective_map_NoDup; auto. intros a b E. congruence.
      - apply IHl. auto.
      - intros u Hu Hv. apply in_map_iff in Hu as (u' & <- & _). apply in_flat_map in Hv as (t' & Ht' & Hv). apply in_map_iff in Hv as (v' & E & _).
        apply N1. injection E as E _. rewrite <- E. apply in_map. auto. }
    specialize (X _ (Det q)). destruct (fin_of I q) as [w|]; [|rewrite app_nil_r; auto]. destruct (keqb w 0); [rewrite app_nil_r; auto|].
    destruct (Nat.eqb k 0); [|rewrite app_nil_r; auto]. apply NoDup_app_intro; auto.
    - repeat constructor. intros [].
    - intros u Hu [<-|[]]. apply in_flat_map in Hu as (t & _ & Hu). apply in_map_iff in Hu as (v & E & _). discriminate.
  Qed.
  Lemma words_all u : forall q, spell q u <> 0 -> In u (words (S (length u)) q).
  Proof.
    induction u as [|a u IH]; intros q H; cbn [words length]; apply in_or_app.
    - right. cbn [C38.spell mach mfin] in H. destruct (fin_of I q) as [w|]; [|destruct H; reflexivity]. cbn [fw] in H. destruct (keqb w 0) eqn:Q.
      + apply (keqb_true L) in Q. congruence.
      + left. auto.
    - left. cbn [C38.spell mach mtrs] in H. apply in_flat_map. destruct (filter (fun t => Nat.eqb (il t) a) (trs_of I q)) as [|t l] eqn:Ef; [destruct H; reflexivity|].
      assert (Ht : In t (filter (fun t => Nat.eqb (il t) a) (trs_of I q))) by (rewrite Ef; left; auto). apply filter_In in Ht as [Ht Ea].
      apply Nat.eqb_eq in Ea. subst a. exists t. split; auto. apply in_map. apply IH. rewrite (only q t Ht) in Ef. injection Ef as <-.
      cbn [map ksum] in H. intros E. apply H. rewrite E, (ktimes_0_r _ L). apply (kplus_0_l _ L).
  Qed.
  (** The labels of a word are labels of transitions met on the way. *)
  Lemma words_path k : forall q u, In u (words k q) -> exists p, is_path (mach I) q p /\ map il p = u.
  Proof.
    induction k as [|k IH]; intros q u H; cbn [words] in H; [destruct H|]. apply in_app_or in H as [H|H].
    - apply in_flat_map in H as (t & Ht & H). apply in_map_iff in H as (v & <- & Hv). apply IH in Hv as (p & Hp & <-). exists (t :: p). cbn. auto.
    - destruct (fin_of I q) as [w|]; [|destruct H]. destruct (keqb w 0); [destruct H|]. destruct (Nat.eqb k 0); [|destruct H].
      destruct H as [<-|[]]. exists []. cbn. auto.
  Qed.

  Lemma spell_low dist : (forall q t, In t (trs_of I q) -> le (nth q dist 0) (nth (ns t) dist 0 * wgt t)) ->
    (forall q w, fin_of I q = Some w -> le (nth q dist 0) w) -> forall u q, le (nth q dist 0) (spell q u).
  Proof.
    intros D1 D2. induction u as [|a u IH]; intros q; cbn [C38.spell mach mfin mtrs].
    - destruct (fin_of I q) as [w|] eqn:F; [apply D2; auto|apply (le_0 L)].
    - apply (le_sum L). intros y Hy. apply in_map_iff in Hy as (t & <- & Ht). apply filter_In in Ht as [Ht _].
      eapply (le_trans L); [apply (D1 q t Ht)|]. rewrite Cm. apply (le_mult_l L). auto.
  Qed.
End Words.

(** ** The subset machine with distances *)
Section Det.
  Context {K : SR} (L : sr_laws K) (Pp : path_plus K) (Cm : commutative_times K) (Can : cancellative K).
  Context (div : K -> K -> res K) (quant : K -> K) (ord : dtuple K -> nat -> list (nat * K) -> list (nat * K)) (f : vfst K).
  Context (DX : exact_division div quant) (HO : any_order ord) (CL : closed f).
  Notation D := (default_weight div quant true).
  Context (dist : list K) (fuel : nat) (g : vfst K) (out : list K).
  Context (H1 : forall q t, In t (trs_of f q) -> le (nth q dist 0) (nth (ns t) dist 0 * wgt t)).
  Context (H2 : forall q w, fin_of f q = Some w -> le (nth q dist 0) w).

  Let act (k : K) (F : unit -> K) (y : unit) : K := k * F y.
  Definition dsum (t : dtuple K) (F : nat -> K) : K := ksum (map (fun e => snd e * F (fst e)) (fst t)).
  Definition ahead (F : nat -> K) (a q : nat) : K := ksum (map (fun t => wgt t * F (ns t)) (filter (fun t => Nat.eqb (il t) a) (trs_of f q))).

  Lemma step_sum (F : nat -> K) t l : det_trs D ord f t = Ok l -> forall a,
    dsum t (ahead F a) = ksum (map (fun x => tw x * dsum (tn x) F) (filter (fun x => Nat.eqb (ti x) a) l)).
  Proof.
    intros El a. refine (det_step_any D ord f HO L act _ _ _ _ _ _ (fun q _ => F q) t l El a tt); unfold act.
    - intros k F0 G H y. f_equal. auto.
    - intros. apply (ktimes_0_r _ L).
    - intros. apply (kdistr_l _ L).
    - intros. symmetry. apply (ktimes_assoc _ L).
    - intros b c d F0 y X. cbn [d_plus default_weight] in X. injection X as <-. apply (kdistr_r _ L).
    - intros l0 d m q w z F0 y Ed Em Hm Ez. destruct (divisor_part L div quant true _ _ _ _ _ Ed Em Hm) as [r ->]. rewrite (ktimes_assoc _ L). f_equal.
      apply DX. exact Ez.
  Qed.

  Section Run.
    Context (tb : det_table K) (Er : det_run D ord f (Some dist) fuel = Some (Ok (g, tb))).
    Notation tup s := (nth_error (id_to_tuple (dabs tb)) s).
    Context (Ho : forall s t, tup s = Some t -> (s < length out)%nat /\ nth s out 0 = dsum t (fun q => nth q dist 0)).

    Lemma run_sum F s t v t' : accessible (mach g) s -> tup s = Some t -> In v (trs_of g s) -> tup (ns v) = Some t' ->
      dsum t (ahead F (il v)) = wgt v * dsum t' F.
    Proof.
      intros A N Hv N'. destruct (run_trs L D ord f fuel g tb Er s t A N) as (l & El & F2). rewrite (step_sum F t l El).
      destruct (Forall2_in_l _ _ _ _ F2 Hv) as (x & Hx & (X1 & X2 & X3 & X4)). destruct (det_trs_shape D ord f t l El) as (ND & _ & _).
      assert (tn x = t') as Ex by congruence.
      assert (Fx : filter (fun y => Nat.eqb (ti y) (il v)) l = [x]).
      { rewrite X1. clear -ND Hx. induction l as [|y l IH]; [destruct Hx|]. cbn [map] in ND. inversion ND as [|? ? N1 N2]; subst. cbn [filter].
        assert (X : forall a, ~ In a (map ti l) -> filter (fun v => Nat.eqb (ti v) a) l = []).
        { clear. induction l as [|w l IH]; intros a H; auto. cbn [filter]. cbn in H. destruct (Nat.eqb_spec (ti w) a); [tauto|]. apply IH. tauto. }
        destruct Hx as [<-|Hx].
        - rewrite Nat.eqb_refl, X by auto. auto.
        - destruct (Nat.eqb_spec (ti y) (ti x)) as [E|E]; [|auto]. exfalso. apply N1. rewrite E. apply in_map. auto. }
      rewrite Fx. cbn [map ksum]. rewrite (kplus_0_r L), Ex, X3. auto.
    Qed.

    Lemma out_step s v : In v (trs_of g s) -> le (nth s out 0) (nth (ns v) out 0 * wgt v).
    Proof.
      intros Hv. pose proof (has_trs L D ord f fuel g tb Er s v Hv) as A. destruct (run_tup L D ord f fuel g tb Er s A) as (t & N & _).
      destruct (run_step L D ord f HO fuel g tb Er s t v A N Hv) as (_ & t' & N' & _). rewrite Cm, (proj2 (Ho _ _ N)), (proj2 (Ho _ _ N')).
      rewrite <- (run_sum _ s t v t' A N Hv N'). apply (sum_le_sum L Pp). intros e _. apply (le_mult_l L). apply (le_sum L).
      intros y Hy. apply in_map_iff in Hy as (w & <- & Hw). apply filter_In in Hw as [Hw _]. rewrite Cm. apply H1. auto.
    Qed.
    Lemma out_fin s : accessible (mach g) s -> le (nth s out 0) (fw (fin_of g s)).
    Proof.
      intros A. destruct (run_tup L D ord f fuel g tb Er s A) as (t & N & _). destruct (run_met L D ord f fuel g tb Er) as (_ & _ & (c & B) & _).
      pose proof (built_spell L div quant true ord f DX HO (dabs tb, c) g B [] s t A N) as X. cbn [spell mach mfin] in X. rewrite X, (proj2 (Ho _ _ N)).
      apply (sum_le_sum L Pp). intros e _. apply (le_mult_l L). destruct (fin_of f (fst e)) as [w|] eqn:F; cbn [fw]; [auto|apply (le_0 L)].
    Qed.

    Lemma out_optimal q0 : optimal (fun w : K => w) f dist q0 -> forall s t e, accessible (mach g) s -> tup s = Some t -> In e (fst t) -> fst e = q0 ->
      nth s out 0 = snd e * nth q0 dist 0 -> nth s out 0 <> 0 -> optimal (fun w : K => w) g out s.
    Proof.
      induction 1 as [q w F Nw Ew|q u Hu Eu _ IH]; intros s t e A N He Eq Es Nz.
      - destruct (run_met L D ord f fuel g tb Er) as (_ & _ & (c & B) & _).
        pose proof (built_spell L div quant true ord f DX HO (dabs tb, c) g B [] s t A N) as X. cbn [spell mach mfin] in X.
        assert (Y : le (fw (fin_of g s)) (nth s out 0)).
        { rewrite X, Es, Ew. apply (ksum_le L _ _ Pp). apply in_map_iff. exists e. split; auto. rewrite Eq, F. auto. }
        pose proof (le_antisym L _ _ Y (out_fin s A)) as Z. destruct (fin_of g s) as [w'|] eqn:Fg; cbn [fw] in Z; [|congruence].
        apply (opt_end _ _ _ _ w'); auto. congruence.
      - subst q. destruct (run_cover L D ord f HO fuel g tb Er s t e u A N He Hu) as (v & Hv & Ev).
        destruct (run_step L D ord f HO fuel g tb Er s t v A N Hv) as (_ & t' & N' & _).
        set (F := fun p => if Nat.eqb p (ns u) then nth (ns u) dist 0 else 0).
        pose proof (run_sum F s t v t' A N Hv N') as X. set (x := dsum t' F) in *.
        assert (Y1 : le (wgt v * x) (nth s out 0)).
        { rewrite <- X. eapply (le_trans L); [apply (ksum_le L _ _ Pp); apply in_map_iff; exists e; split; [reflexivity|auto]|].
          rewrite Es, Eu. apply (le_mult_l L). apply (ksum_le L _ _ Pp). apply in_map_iff. exists u. split; [|apply filter_In; rewrite Ev, Nat.eqb_refl; auto].
          unfold F. rewrite Nat.eqb_refl. apply Cm. }
        assert (Y2 : le (nth (ns v) out 0) x).
        { rewrite (proj2 (Ho _ _ N')). apply (sum_le_sum L Pp). intros e' _. apply (le_mult_l L). unfold F.
          destruct (Nat.eqb_spec (fst e') (ns u)) as [->|]; [apply (le_refl Pp)|apply (le_0 L)]. }
        pose proof (out_step s v Hv) as Y3. rewrite Cm in Y3.
        assert (Z1 : nth s out 0 = wgt v * nth (ns v) out 0).
        { apply (le_antisym L); auto. eapply (le_trans L); [|exact Y1]. apply (le_mult_l L). auto. }
        assert (Z2 : wgt v * x = wgt v * nth (ns v) out 0).
        { apply (le_antisym L); [rewrite <- Z1; auto|]. apply (le_mult_l L). auto. }
        assert (Nv : wgt v <> 0) by (intros Y; rewrite Y, (ktimes_0_l _ L) in Z1; auto).
        assert (Z3 : nth (ns v) out 0 = x) by (apply (Can (wgt v)); auto; rewrite (Cm x), (Cm (nth (ns v) out 0)); auto).
        assert (Nn : nth (ns v) out 0 <> 0) by (intros Y; rewrite Y, (ktimes_0_r _ L) in Z1; auto).
        assert (Ix : In x (map (fun e => snd e * F (fst e)) (fst t'))) by (apply (ksum_in _ Pp); fold (dsum t' F); fold x; congruence).
        apply in_map_iff in Ix as (e' & Ex & He'). assert (fst e' = ns u) as Ee.
        { unfold F in Ex. destruct (Nat.eqb_spec (fst e') (ns u)); auto. exfalso. apply Nn. rewrite Z3, <- Ex. apply (ktimes_0_r _ L). }
        apply (opt_arc _ _ _ _ v); auto; [rewrite Cm; auto|]. apply (IH (ns v) t' e'); auto.
        + eapply acc_step; eauto.
        + rewrite Z3, <- Ex. unfold F. rewrite Ee, Nat.eqb_refl. auto.
    Qed.
    Lemma tup_acc s t : vstart g <> None -> tup s = Some t -> accessible (mach g) s.
    Proof.
      intros Sg N. destruct (run_met L D ord f fuel g tb Er) as (_ & TI & (c & B) & _). 
      assert (M : met (det_start f) (det_trs D ord f) t) by (destruct TI as [_ TI]; apply TI; eapply nth_error_In; eauto).
      destruct (met_accessible _ _ _ (dabs tb, c) g B t Sg M) as (i & Ni & Ai). replace s with i; auto.
      eapply (tup_inj L D ord f fuel g tb Er); eauto.
    Qed.
  End Run.
End Det.
