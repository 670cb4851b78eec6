(** C27: the weights satisfy the laws they promise. *)
From Coq Require Import List Arith ZArith QArith Qcanon Bool Lia.
From Verif Require Import Base.Util Base.Semiring Model.Weights.
Import ListNotations.
Local Close Scope Qc_scope.
Local Close Scope Q_scope.
Local Open Scope nat_scope.

(** What the trait promises of a weight: [plus] and [times] are monoids with an annihilating
    zero, and the laws of the declared properties hold. A sum may be undefined ([Err]); then it
    is so however it is bracketed or ordered, and the distributive laws speak of defined sums. *)
Record lawful (W : weight) : Prop := {
  lw_eqb : forall x y : W, weqb x y = true <-> x = y;
  lw_nopanic : forall x y : W, wplus x y <> Panic;
  lw_times_ok : forall x y : W, exists z, wtimes x y = Ok z;
  lw_plus_assoc : forall x y z : W, (s <-- wplus x y ;; wplus s z) = (s <-- wplus y z ;; wplus x s);
  lw_plus_comm : forall x y : W, wplus x y = wplus y x;
  lw_plus_zero : forall x : W, wplus wzero x = Ok x;
  lw_times_assoc : forall x y z : W, (s <-- wtimes x y ;; wtimes s z) = (s <-- wtimes y z ;; wtimes x s);
  lw_times_one : forall x : W, wtimes wone x = Ok x /\ wtimes x wone = Ok x;
  lw_times_zero : forall x : W, wtimes wzero x = Ok wzero /\ wtimes x wzero = Ok wzero;
  lw_left : sp_left (wprops W) = true -> forall c x y s : W, wplus x y = Ok s ->
    wtimes c s = (a <-- wtimes c x ;; b <-- wtimes c y ;; wplus a b);
  lw_right : sp_right (wprops W) = true -> forall c x y s : W, wplus x y = Ok s ->
    wtimes s c = (a <-- wtimes x c ;; b <-- wtimes y c ;; wplus a b);
  lw_comm : sp_comm (wprops W) = true -> forall x y : W, wtimes x y = wtimes y x;
  lw_idem : sp_idem (wprops W) = true -> forall x : W, wplus x x = Ok x;
  lw_path : sp_path (wprops W) = true -> forall x y : W, wplus x y = Ok x \/ wplus x y = Ok y
}.

(** Every weight total on sums that promises both distributive laws is a semiring in the sense
    used by all other statements. *)
Theorem C27_semiring : forall (W : weight) (p t : W -> W -> W), lawful W ->
  (forall x y, wplus x y = Ok (p x y)) -> (forall x y, wtimes x y = Ok (t x y)) ->
  sp_left (wprops W) = true -> sp_right (wprops W) = true ->
  sr_laws (mkSR W wzero wone p t weqb).
Proof.
  intros W p t H Hp Ht El Er.
  assert (I : forall (x y : W), Ok x = Ok y -> x = y) by (intros x y E; injection E; auto).
  split; [split; [split|]|]; cbn; intros; apply I || idtac.
  - apply (lw_eqb _ H).
  - pose proof (lw_plus_assoc _ H x y z) as E. rewrite !Hp in E. cbn [rbind] in E. rewrite !Hp in E. auto.
  - rewrite <- !Hp. apply (lw_plus_comm _ H).
  - rewrite <- Hp. apply (lw_plus_zero _ H).
  - pose proof (lw_times_assoc _ H x y z) as E. rewrite !Ht in E. cbn [rbind] in E. rewrite !Ht in E. auto.
  - rewrite <- Ht. apply (lw_times_one _ H).
  - rewrite <- Ht. apply (lw_times_one _ H).
  - rewrite <- Ht. apply (lw_times_zero _ H).
  - rewrite <- Ht. apply (lw_times_zero _ H).
  - rewrite <- Ht. rewrite (lw_left _ H El x y z (p y z) (Hp y z)), !Ht. cbn [rbind]. apply Hp.
  - rewrite <- Ht. rewrite (lw_right _ H Er z x y (p x y) (Hp x y)), !Ht. cbn [rbind]. apply Hp.
Qed.

Theorem C27_boolean : lawful boolean_weight.
Proof.
  split; cbn; intros; repeat match goal with b : bool |- _ => destruct b end; cbn; eauto; try discriminate; try (split; congruence);
  repeat match goal with H : Ok _ = Ok _ |- _ => injection H as <- end; auto.
Qed.

Theorem C27_integer : lawful integer_weight.
Proof.
  split; cbn -[Z.mul Z.add]; intros; eauto; try discriminate; try (split; f_equal; lia); try (f_equal; lia);
  repeat match goal with H : Ok _ = Ok _ |- _ => injection H as <- end; try (f_equal; ring).
Qed.

Lemma ext_ltbP x y : ext_ltb x y = true -> x <> y /\ ext_ltb y x = false.
Proof. destruct x as [|a|], y as [|b|]; cbn; try discriminate; intros H; split; auto; try discriminate; [apply Z.ltb_lt in H; intros E; injection E; lia|apply Z.ltb_lt in H; apply Z.ltb_ge; lia]. Qed.
Ltac trop := repeat match goal with
  | |- context [Z.ltb ?a ?b] => destruct (Z.ltb_spec a b)
  | H : ext |- _ => destruct H; cbn
  end; cbn; try (f_equal; lia); auto.
Theorem C27_tropical : lawful tropical_weight.
Proof.
  assert (C : forall x y, trop_plus x y = trop_plus y x) by (intros x y; unfold trop_plus; trop).
  assert (D : forall x y, trop_times x y = trop_times y x) by (intros x y; trop).
  assert (DD : forall c x y, trop_times c (trop_plus x y) = trop_plus (trop_times c x) (trop_times c y)).
  { intros c x y. unfold trop_plus. destruct x as [|x|], y as [|y|], c as [|c|]; cbn; auto.
    - destruct (Z.ltb_spec y x), (Z.ltb_spec (c + y) (c + x)); cbn; try lia; auto.
    - destruct (Z.ltb_spec y x); auto. }
  split; cbn; intros; eauto; try discriminate; repeat match goal with H : Ok _ = Ok _ |- _ => injection H as <- end.
  - destruct x as [|a|], y as [|b|]; cbn; split; intros E; try discriminate; auto; [apply Z.eqb_eq in E; congruence|injection E as <-; apply Z.eqb_refl].
  - f_equal. unfold trop_plus. destruct x as [|a|], y as [|b|], z as [|c|]; cbn; auto;
    repeat match goal with |- context [Z.ltb ?a ?b] => destruct (Z.ltb_spec a b); cbn end; auto; try lia; try (f_equal; lia).
  - f_equal. apply C.
  - destruct x; auto.
  - f_equal. destruct x, y, z; cbn; auto. f_equal. lia.
  - destruct x; cbn; auto. rewrite Z.add_0_r. auto.
  - destruct x; cbn; auto.
  - f_equal. apply DD.
  - f_equal. rewrite D, DD, (D c x), (D c y). auto.
  - f_equal. apply D.
  - destruct x; cbn; auto. unfold trop_plus. cbn. rewrite Z.ltb_irrefl. auto.
  - unfold trop_plus. destruct (ext_ltb y x); auto.
Qed.

Theorem C27_probability : lawful probability_weight.
Proof.
  split; cbn; intros; eauto; try discriminate; repeat match goal with H : Ok _ = Ok _ |- _ => injection H as <- end;
  try (split; f_equal; ring); try (f_equal; ring).
  split; [apply Qc_eq_bool_correct|]. intros ->. unfold Qc_eq_bool. destruct (Qc_eq_dec y y); auto; contradiction.
Qed.

(** Strings. *)
Lemma list_eqbP x y : list_eqb x y = true <-> x = y.
Proof.
  revert y. induction x as [|a x IH]; intros [|b y]; cbn; split; intros H; try discriminate; auto.
  - apply andb_true_iff in H as [H1 H2]. apply Nat.eqb_eq in H1. apply IH in H2. congruence.
  - injection H as -> ->. rewrite Nat.eqb_refl. apply IH. auto.
Qed.
Lemma sv_eqbP x y : sv_eqb x y = true <-> x = y.
Proof.
  destruct x as [x|], y as [y|]; cbn; split; intros H; try discriminate; auto; [apply list_eqbP in H; congruence|].
  apply list_eqbP. congruence.
Qed.
Lemma lcp_comm x y : lcp x y = lcp y x.
Proof.
  revert y. induction x as [|a x IH]; intros [|b y]; cbn; auto. rewrite (Nat.eqb_sym b a).
  destruct (Nat.eqb_spec a b); auto. subst. rewrite IH. auto.
Qed.
Lemma lcp_assoc x y z : lcp (lcp x y) z = lcp x (lcp y z).
Proof.
  revert y z. induction x as [|a x IH]; intros [|b y] [|c z]; cbn; auto; [destruct (Nat.eqb_spec a b); auto|].
  destruct (Nat.eqb_spec a b) as [->|N], (Nat.eqb_spec b c) as [->|N']; cbn; auto.
  - rewrite Nat.eqb_refl, IH. auto.
  - destruct (Nat.eqb_spec b c); auto. contradiction.
  - destruct (Nat.eqb_spec a c); auto. contradiction.
Qed.
Lemma lcp_idem x : lcp x x = x.
Proof. induction x as [|a x IH]; cbn; auto. rewrite Nat.eqb_refl, IH. auto. Qed.
Lemma lcp_app c x y : lcp (c ++ x) (c ++ y) = c ++ lcp x y.
Proof. induction c as [|a c IH]; cbn; auto. rewrite Nat.eqb_refl, IH. auto. Qed.
Lemma lcp_prefix x y : x = lcp x y ++ skipn (length (lcp x y)) x.
Proof. revert y. induction x as [|a x IH]; intros [|b y]; cbn; auto. destruct (Nat.eqb a b); cbn; auto. f_equal. apply IH. Qed.

Theorem C27_string_left : lawful string_left.
Proof.
  split; cbn; intros; eauto; try discriminate.
  - apply sv_eqbP.
  - destruct x, y; discriminate.
  - destruct x, y, z; cbn; auto. rewrite lcp_assoc. auto.
  - destruct x, y; cbn; auto. rewrite lcp_comm. auto.
  - destruct x, y, z; cbn; auto. rewrite app_assoc. auto.
  - destruct x; cbn; auto. rewrite app_nil_r. auto.
  - destruct x; cbn; auto.
  - destruct c, x, y; cbn in *; injection H0 as <-; cbn; auto. rewrite lcp_app. auto.
  - destruct x; cbn; auto. rewrite lcp_idem. auto.
Qed.

Theorem C27_string_right : lawful string_right.
Proof.
  split; cbn; intros; eauto; try discriminate; unfold lcs in *.
  - apply sv_eqbP.
  - destruct x, y; discriminate.
  - destruct x, y, z; cbn; auto. rewrite !rev_involutive, lcp_assoc. auto.
  - destruct x, y; cbn; auto. rewrite lcp_comm. auto.
  - destruct x, y, z; cbn; auto. rewrite app_assoc. auto.
  - destruct x; cbn; auto. rewrite app_nil_r. auto.
  - destruct x; cbn; auto.
  - destruct c, x, y; cbn in *; injection H0 as <-; cbn; auto. rewrite !rev_app_distr, lcp_app, rev_app_distr, rev_involutive. auto.
  - destruct x; cbn; auto. rewrite lcp_idem, rev_involutive. auto.
Qed.

Theorem C27_string_restrict : lawful string_restrict.
Proof.
  assert (R : forall x, list_eqb x x = true) by (intros; apply list_eqbP; auto).
  split; cbn; intros; eauto; try discriminate.
  - apply sv_eqbP.
  - destruct x as [x|], y as [y|]; cbn; try discriminate. destruct (list_eqb x y); discriminate.
  - destruct x as [x|], y as [y|], z as [z|]; cbn; auto; try (match goal with |- context [list_eqb ?a ?b] => destruct (list_eqb a b) end; cbn; auto; fail).
    destruct (list_eqb x y) eqn:E1; cbn.
    + apply list_eqbP in E1 as ->. destruct (list_eqb y z) eqn:E2; cbn; auto. apply list_eqbP in E2 as ->. rewrite R. auto.
    + destruct (list_eqb y z); cbn; auto. rewrite E1. auto.
  - destruct x as [x|], y as [y|]; cbn; auto. destruct (list_eqb x y) eqn:E1; [apply list_eqbP in E1 as ->; rewrite R; auto|].
    destruct (list_eqb y x) eqn:E2; auto. apply list_eqbP in E2 as ->. rewrite R in E1. discriminate.
  - destruct x, y, z; cbn; auto. rewrite app_assoc. auto.
  - destruct x; cbn; auto. rewrite app_nil_r. auto.
  - destruct x; cbn; auto.
  - destruct c as [c|], x as [x|], y as [y|]; cbn in *; try (injection H0 as <-; cbn; auto; fail).
    + destruct (list_eqb x y) eqn:E; cbn in H0; [|discriminate]. injection H0 as <-. apply list_eqbP in E as ->. rewrite R. auto.
    + destruct (list_eqb x y) eqn:E; cbn in H0; [|discriminate]. injection H0 as <-. auto.
  - destruct c as [c|], x as [x|], y as [y|]; cbn in *; try (injection H0 as <-; cbn; auto; fail).
    + destruct (list_eqb x y) eqn:E; cbn in H0; [|discriminate]. injection H0 as <-. apply list_eqbP in E as ->. rewrite R. auto.
    + destruct (list_eqb x y) eqn:E; cbn in H0; [|discriminate]. injection H0 as <-. auto.
  - destruct x; cbn; auto. rewrite R. auto.
Qed.

Lemma pair_seq {A B C D} (F1 : res A) (F2 : res B) (G1 : A -> res C) (G2 : B -> res D) :
  F2 <> Panic -> (forall a, G1 a <> Panic) ->
  (p <-- (a <-- F1 ;; b <-- F2 ;; Ok (a, b)) ;; c <-- G1 (fst p) ;; d <-- G2 (snd p) ;; Ok (c, d)) =
  (c <-- (a <-- F1 ;; G1 a) ;; d <-- (b <-- F2 ;; G2 b) ;; Ok (c, d)).
Proof.
  intros N1 N2. destruct F1 as [a| |]; cbn; auto. destruct F2 as [b| |]; cbn; auto; [|congruence].
  specialize (N2 a). destruct (G1 a); cbn; congruence.
Qed.

(** Pairs keep every law, and so do the three kinds of weight built from a string and a weight. *)
Theorem C27_product : forall W1 W2, lawful W1 -> lawful W2 -> lawful (product_weight W1 W2).
Proof.
  intros W1 W2 H1 H2.
  assert (A : forall b1 b2 b3, b1 && b2 && b3 = true -> b1 = true /\ b2 = true) by (intros [] [] []; cbn; auto).
  split; cbn; unfold pair_op.
  - intros [x1 x2] [y1 y2]. cbn. rewrite andb_true_iff, (lw_eqb _ H1), (lw_eqb _ H2). split; [intros [-> ->]; auto|intros E; injection E; auto].
  - intros [x1 x2] [y1 y2]. cbn. pose proof (lw_nopanic _ H1 x1 y1). pose proof (lw_nopanic _ H2 x2 y2).
    destruct (wplus x1 y1), (wplus x2 y2); cbn; congruence.
  - intros [x1 x2] [y1 y2]. cbn. destruct (lw_times_ok _ H1 x1 y1) as (z1 & ->), (lw_times_ok _ H2 x2 y2) as (z2 & ->). cbn. eauto.
  - intros [x1 x2] [y1 y2] [z1 z2]. cbn.
    change (fst (x1, x2)) with x1.
    transitivity (c <-- (a <-- wplus x1 y1 ;; wplus a z1) ;; d <-- (b <-- wplus x2 y2 ;; wplus b z2) ;; Ok (c, d)).
    + apply (pair_seq (wplus x1 y1) (wplus x2 y2) (fun a => wplus a z1) (fun b => wplus b z2)); [apply (lw_nopanic _ H2)|intros; apply (lw_nopanic _ H1)].
    + rewrite (lw_plus_assoc _ H1 x1 y1 z1), (lw_plus_assoc _ H2 x2 y2 z2). symmetry.
      apply (pair_seq (wplus y1 z1) (wplus y2 z2) (fun a => wplus x1 a) (fun b => wplus x2 b)); [apply (lw_nopanic _ H2)|intros; apply (lw_nopanic _ H1)].
  - intros [x1 x2] [y1 y2]. cbn. rewrite (lw_plus_comm _ H1), (lw_plus_comm _ H2). auto.
  - intros [x1 x2]. cbn. rewrite (lw_plus_zero _ H1), (lw_plus_zero _ H2). auto.
  - intros [x1 x2] [y1 y2] [z1 z2]. cbn. pose proof (lw_times_assoc _ H1 x1 y1 z1) as E1. pose proof (lw_times_assoc _ H2 x2 y2 z2) as E2.
    destruct (lw_times_ok _ H1 x1 y1) as (a1 & F1), (lw_times_ok _ H2 x2 y2) as (a2 & F2), (lw_times_ok _ H1 y1 z1) as (b1 & G1), (lw_times_ok _ H2 y2 z2) as (b2 & G2).
    rewrite F1, F2, G1, G2 in *. cbn in *. rewrite E1, E2. auto.
  - intros [x1 x2]. cbn. destruct (lw_times_one _ H1 x1) as [-> ->], (lw_times_one _ H2 x2) as [-> ->]. auto.
  - intros [x1 x2]. cbn. destruct (lw_times_zero _ H1 x1) as [-> ->], (lw_times_zero _ H2 x2) as [-> ->]. auto.
  - intros E [c1 c2] [x1 x2] [y1 y2] s. apply A in E as [El1 El2]. cbn.
    destruct (wplus x1 y1) as [s1| |] eqn:F1; cbn; try discriminate. destruct (wplus x2 y2) as [s2| |] eqn:F2; cbn; try discriminate.
    intros E; injection E as <-. cbn. rewrite (lw_left _ H1 El1 c1 _ _ _ F1), (lw_left _ H2 El2 c2 _ _ _ F2).
    destruct (lw_times_ok _ H1 c1 x1) as (a1 & ->), (lw_times_ok _ H1 c1 y1) as (b1 & ->), (lw_times_ok _ H2 c2 x2) as (a2 & ->), (lw_times_ok _ H2 c2 y2) as (b2 & ->).
    cbn. auto.
  - intros E [c1 c2] [x1 x2] [y1 y2] s. apply A in E as [El1 El2]. cbn.
    destruct (wplus x1 y1) as [s1| |] eqn:F1; cbn; try discriminate. destruct (wplus x2 y2) as [s2| |] eqn:F2; cbn; try discriminate.
    intros E; injection E as <-. cbn. rewrite (lw_right _ H1 El1 c1 _ _ _ F1), (lw_right _ H2 El2 c2 _ _ _ F2).
    destruct (lw_times_ok _ H1 x1 c1) as (a1 & ->), (lw_times_ok _ H1 y1 c1) as (b1 & ->), (lw_times_ok _ H2 x2 c2) as (a2 & ->), (lw_times_ok _ H2 y2 c2) as (b2 & ->).
    cbn. auto.
  - intros E [x1 x2] [y1 y2]. apply A in E as [E1 E2]. cbn. rewrite (lw_comm _ H1 E1 x1), (lw_comm _ H2 E2 x2). auto.
  - intros E [x1 x2]. apply A in E as [E1 E2]. cbn. rewrite (lw_idem _ H1 E1), (lw_idem _ H2 E2). auto.
  - rewrite andb_false_r. discriminate.
Qed.

Theorem C27_gallic : forall W, lawful W -> lawful (gallic_left W) /\ lawful (gallic_right W) /\ lawful (gallic_restrict W).
Proof.
  intros W H. split; [|split]; apply C27_product; auto; [apply C27_string_left|apply C27_string_right|apply C27_string_restrict].
Qed.

(** Division by a nonzero sum gives back what is to be multiplied with it. *)
Definition left_divides (W : weight) (d : dtype) (ok : W -> Prop) : Prop :=
  forall x y s : W, wplus x y = Ok s -> ok s -> exists z, wdivide x s d = Ok z /\ wtimes s z = Ok x.
Definition right_divides (W : weight) (d : dtype) (ok : W -> Prop) : Prop :=
  forall x y s : W, wplus x y = Ok s -> ok s -> exists z, wdivide x s d = Ok z /\ wtimes z s = Ok x.
Definition divides (W : weight) (d : dtype) (ok : W -> Prop) : Prop :=
  match d with DivideLeft => left_divides W d ok | DivideRight => right_divides W d ok | DivideAny => left_divides W d ok /\ right_divides W d ok end.

Theorem C27_divide_tropical : forall d, divides tropical_weight d (fun s => s <> PInf /\ s <> MInf).
Proof.
  assert (H : forall x y s : ext, trop_plus x y = s -> s <> PInf /\ s <> MInf ->
    exists z, (forall e, trop_divide x s e = Ok z) /\ trop_times s z = x /\ trop_times z s = x).
  { intros x y s <- [H1 H2]. unfold trop_plus in *. destruct x as [|u|], y as [|v|]; cbn in *; try congruence;
      try (destruct (Z.ltb v u)); cbn; eexists; (split; [intros e; reflexivity|]); cbn; split; auto; f_equal; lia. }
  intros [| |]; cbn; [| |split]; intros x y s E O; injection E as E; destruct (H x y s E O) as (z & A & B & C); exists z; (split; [apply A|first [exact (f_equal Ok B)|exact (f_equal Ok C)]]).
Qed.

Theorem C27_divide_probability : forall d, divides probability_weight d (fun s => s <> Q2Qc 0).
Proof.
  assert (H : forall (x s : Qc), s <> Q2Qc 0 -> forall d, prob_divide x s d = Ok (Qcdiv x s) /\ Qcmult s (Qcdiv x s) = x /\ Qcmult (Qcdiv x s) s = x).
  { intros x s Hs d. unfold prob_divide. assert (Qc_eq_bool s (Q2Qc 0) = false) as ->.
    { destruct (Qc_eq_bool s (Q2Qc 0)) eqn:E; auto. apply Qc_eq_bool_correct in E. contradiction. }
    split; auto. split; [field; auto|field; auto]. }
  intros [| |]; cbn; [| |split]; intros x y s _ O; destruct (H x s O DivideAny) as (E & E1 & E2); eexists; (split; [apply H; auto|]); first [exact (f_equal Ok E1)|exact (f_equal Ok E2)].
Qed.

Theorem C27_divide_string :
  divides string_left DivideLeft (fun s => s <> wzero) /\ divides string_right DivideRight (fun s => s <> wzero) /\
  divides string_restrict DivideLeft (fun s => s <> wzero) /\ divides string_restrict DivideRight (fun s => s <> wzero).
Proof.
  split; [|split; [|split]]; intros x y s E O; destruct x as [x|], y as [y|]; cbn in *; try (destruct (list_eqb x y) eqn:El; cbn in E; [|discriminate]);
    injection E as <-; try congruence; cbn; eexists; (split; [reflexivity|]); cbn; try reflexivity; do 2 f_equal.
  - symmetry. apply lcp_prefix.
  - rewrite skipn_all, app_nil_r. auto.
  - unfold lcs. rewrite <- rev_app_distr, rev_length, <- lcp_prefix. apply rev_involutive.
  - rewrite <- (rev_length x), skipn_all. auto.
  - rewrite skipn_all, app_nil_r. auto.
  - rewrite skipn_all, app_nil_r. auto.
  - rewrite <- (rev_length x), skipn_all. auto.
  - rewrite <- (rev_length x), skipn_all. auto.
Qed.

(** Both components of the divisor must be fit to divide by. *)
Theorem C27_divide_product : forall W1 W2 d ok1 ok2, divides W1 d ok1 -> divides W2 d ok2 ->
  divides (product_weight W1 W2) d (fun s => ok1 (fst s) /\ ok2 (snd s)).
Proof.
  assert (SL : forall W1 W2 d ok1 ok2, left_divides W1 d ok1 -> left_divides W2 d ok2 ->
    left_divides (product_weight W1 W2) d (fun s => ok1 (fst s) /\ ok2 (snd s))).
  { intros W1 W2 d ok1 ok2 H1 H2 [x1 x2] [y1 y2] s. cbn. unfold pair_op. cbn. destruct (wplus x1 y1) as [s1| |] eqn:E1; cbn; try discriminate.
    destruct (wplus x2 y2) as [s2| |] eqn:E2; cbn; try discriminate. intros E [O1 O2]. injection E as <-. cbn in *.
    destruct (H1 _ _ _ E1 O1) as (z1 & -> & T1), (H2 _ _ _ E2 O2) as (z2 & -> & T2). cbn. exists (z1, z2). cbn. rewrite T1, T2. auto. }
  assert (SR : forall W1 W2 d ok1 ok2, right_divides W1 d ok1 -> right_divides W2 d ok2 ->
    right_divides (product_weight W1 W2) d (fun s => ok1 (fst s) /\ ok2 (snd s))).
  { intros W1 W2 d ok1 ok2 H1 H2 [x1 x2] [y1 y2] s. cbn. unfold pair_op. cbn. destruct (wplus x1 y1) as [s1| |] eqn:E1; cbn; try discriminate.
    destruct (wplus x2 y2) as [s2| |] eqn:E2; cbn; try discriminate. intros E [O1 O2]. injection E as <-. cbn in *.
    destruct (H1 _ _ _ E1 O1) as (z1 & -> & T1), (H2 _ _ _ E2 O2) as (z2 & -> & T2). cbn. exists (z1, z2). cbn. rewrite T1, T2. auto. }
  intros W1 W2 [| |] ok1 ok2; cbn [divides]; auto. intros [A1 A2] [B1 B2]. auto.
Qed.

(** Reversal turns prefixes into suffixes: it exchanges the two string semirings and the order of
    factors, and reversing back restores the value. *)
Theorem C27_string_reverse : forall x y : svariant,
  sv_reverse (sv_reverse x) = x /\
  sv_reverse (sv_times x y) = sv_times (sv_reverse y) (sv_reverse x) /\
  rmap sv_reverse (wplus (w := string_left) x y) = wplus (w := string_right) (sv_reverse x) (sv_reverse y) /\
  rmap sv_reverse (wplus (w := string_right) x y) = wplus (w := string_left) (sv_reverse x) (sv_reverse y) /\
  rmap sv_reverse (wplus (w := string_restrict) x y) = wplus (w := string_restrict) (sv_reverse x) (sv_reverse y).
Proof.
  intros x y. split; [destruct x; cbn; auto; rewrite rev_involutive; auto|].
  destruct x as [x|], y as [y|]; cbn; auto. unfold lcs. rewrite rev_app_distr, !rev_involutive. repeat split; auto.
  destruct (list_eqb x y) eqn:E; [apply list_eqbP in E as ->; assert (list_eqb (rev y) (rev y) = true) as -> by (apply list_eqbP; auto); auto|].
  destruct (list_eqb (rev x) (rev y)) eqn:E'; auto. apply list_eqbP in E'. apply (f_equal (@rev nat)) in E'. rewrite !rev_involutive in E'.
  assert (list_eqb x y = true) by (apply list_eqbP; auto). congruence.
Qed.

(** Strings do not distribute on the other side, so the missing flags are right. *)
Theorem C27_string_one_sided :
  ~ (forall c x y s : string_left, wplus x y = Ok s -> wtimes s c = (a <-- wtimes x c ;; b <-- wtimes y c ;; wplus a b)) /\
  ~ (forall c x y s : string_right, wplus x y = Ok s -> wtimes c s = (a <-- wtimes c x ;; b <-- wtimes c y ;; wplus a b)).
Proof.
  split; intros H.
  - specialize (H (Some [3]) (Some [1]) (Some [2]) _ eq_refl). discriminate.
  - specialize (H (Some [3]) (Some [1]) (Some [2]) _ eq_refl). discriminate.
Qed.

(** The sum of the min variant takes its second argument on a tie: it does not commute, and
    a value cannot always be recovered from its quotient by a sum. *)
Theorem C27_gallic_min_refuted :
  ~ lawful (gallic_min tropical_weight) /\
  exists x y s z v : gallic_min tropical_weight, wplus x y = Ok s /\ fst s <> None /\ snd s = Fin 0 /\ wdivide x s DivideLeft = Ok z /\ wtimes s z = Ok v /\ v <> x.
Proof.
  split.
  - intros H. pose proof (lw_plus_comm _ H (Some [1], Fin 0) (Some [2], Fin 0)) as E. discriminate.
  - exists (Some [1], Fin 1), (Some [2], Fin 0). do 3 eexists. split; [reflexivity|]. split; [discriminate|]. split; [reflexivity|]. split; [reflexivity|]. split; [reflexivity|]. discriminate.
Qed.

(** The two infinities of the tropical weight: the sum of a value and its quotient by -inf. *)
Theorem C27_tropical_divide_refuted :
  exists x y s z : tropical_weight, wplus x y = Ok s /\ s <> wzero /\ wdivide x s DivideAny = Ok z /\ wtimes s z <> Ok x.
Proof. exists (Fin 3), MInf. do 2 eexists. split; [reflexivity|]. split; [discriminate|]. split; [reflexivity|]. discriminate. Qed.

(** Reversing a probability back is not implemented. *)
Theorem C27_probability_reverse_refuted : forall x, (y <-- probability_reverse x ;; probability_reverse_back y) = Panic.
Proof. reflexivity. Qed.

Print Assumptions C27_semiring.
Print Assumptions C27_boolean.
Print Assumptions C27_integer.
Print Assumptions C27_tropical.
Print Assumptions C27_probability.
Print Assumptions C27_string_left.
Print Assumptions C27_string_right.
Print Assumptions C27_string_restrict.
Print Assumptions C27_product.
Print Assumptions C27_gallic.
Print Assumptions C27_divide_tropical.
Print Assumptions C27_divide_probability.
Print Assumptions C27_divide_string.
Print Assumptions C27_divide_product.
Print Assumptions C27_string_reverse.
Print Assumptions C27_string_one_sided.
Print Assumptions C27_gallic_min_refuted.
Print Assumptions C27_tropical_divide_refuted.
Print Assumptions C27_probability_reverse_refuted.

(** A sum, a product and a quotient that do something. *)
Example C27_instance :
  lawful (gallic_left tropical_weight) /\
  wplus (w := gallic_left tropical_weight) (Some [1; 2; 3], Fin 4) (Some [1; 2; 5; 6], Fin 3) = Ok (Some [1; 2], Fin 3) /\
  wtimes (w := gallic_left tropical_weight) (Some [1; 2], Fin 3) (Some [3], Fin 1) = Ok (Some [1; 2; 3], Fin 4) /\
  wdivide (w := gallic_left tropical_weight) (Some [1; 2; 3], Fin 4) (Some [1; 2], Fin 3) DivideLeft = Ok (Some [3], Fin 1) /\
  wplus (w := string_restrict) (Some [1]) (Some [2]) = Err /\
  sr_laws (mkSR ext PInf (Fin 0) trop_plus trop_times ext_eqb).
Proof.
  split; [apply C27_gallic; apply C27_tropical|]. repeat (split; [reflexivity|]).
  apply (C27_semiring tropical_weight); try reflexivity. apply C27_tropical.
Qed.
