(** C69: log weights are nonnegative numbers under minus the logarithm; what follows for them. *)
From Coq Require Import List Arith NArith Bool Reals Lra Permutation.
From Verif Require Import Base.Util Base.Semiring Base.Machine Base.PropSpec
  Model.Props Model.VectorFst Model.History Model.Weights Model.LogWeight Model.Determinize
  Proofs.VectorFacts Proofs.ClosedB Proofs.NFinal Props.C27 Props.C38 Props.C47.
Import ListNotations.
Local Open Scope R_scope.

(** ** Specification *)

(** The number a weight stands for. *)
Definition pr (x : option R) : R := match x with Some r => exp (- r) | None => 0 end.

Lemma pr_nonneg x : 0 <= pr x.
Proof. destruct x; cbn; [left; apply exp_pos|right; auto]. Qed.
Lemma pr_inj x y : pr x = pr y -> x = y.
Proof.
  destruct x as [a|], y as [b|]; cbn; intros E; auto.
  - apply exp_inv in E. f_equal. lra.
  - pose proof (exp_pos (- a)). lra.
  - pose proof (exp_pos (- b)). lra.
Qed.
Lemma pr_onto v : 0 <= v -> exists x, pr x = v.
Proof.
  intros [H|<-]; [|exists None; auto]. exists (Some (- ln v)). cbn. rewrite Ropp_involutive. apply exp_ln. auto.
Qed.
Lemma sub_ln a b : exp (- (a - ln_pos_exp (b - a))) = exp (- a) + exp (- b).
Proof.
  unfold ln_pos_exp. replace (- (a - ln (1 + exp (- (b - a))))) with (- a + ln (1 + exp (- (b - a)))) by lra.
  rewrite exp_plus, exp_ln by (pose proof (exp_pos (- (b - a))); lra). rewrite Rmult_plus_distr_l, Rmult_1_r, <- exp_plus. f_equal. f_equal. lra.
Qed.

(** Sums and products of weights are sums and products of the numbers, and every nonnegative
    number is that of one weight. *)
Theorem C69_numbers :
  (forall x y, pr (log_plus x y) = pr x + pr y) /\ (forall x y, pr (log_times x y) = pr x * pr y) /\
  pr (wzero (w := log_weight)) = 0 /\ pr (wone (w := log_weight)) = 1 /\
  (forall x y, pr x = pr y -> x = y) /\ (forall v, 0 <= v <-> exists x, pr x = v).
Proof.
  split.
  { intros [a|] [b|]; cbn -[exp ln_pos_exp]; try lra. destruct (Rlt_dec b a); rewrite sub_ln; lra. }
  split.
  { intros [a|] [b|]; cbn; try lra. rewrite <- exp_plus. f_equal. lra. }
  split; [reflexivity|]. split; [cbn; rewrite Ropp_0; apply exp_0|]. split; [exact pr_inj|]. intros v. split; [apply pr_onto|]. intros (x & <-). apply pr_nonneg.
Qed.
Lemma pr_plus x y : pr (log_plus x y) = pr x + pr y. Proof. apply C69_numbers. Qed.
Lemma pr_times x y : pr (log_times x y) = pr x * pr y. Proof. apply C69_numbers. Qed.
Lemma pr_one : pr (Some 0) = 1. Proof. apply C69_numbers. Qed.

Lemma log_eqbP x y : log_eqb x y = true <-> x = y.
Proof.
  destruct x as [a|], y as [b|]; cbn; split; try discriminate; auto; destruct (Req_EM_T a b); intros H; try discriminate; try congruence; auto.
Qed.

(** The laws of trait [Semiring] and those of the declared properties. *)
Theorem C69_lawful : lawful log_weight.
Proof.
  assert (I : forall x y : option R, pr x = pr y -> Ok x = Ok y) by (intros; f_equal; apply pr_inj; auto).
  split; cbn [log_weight wcar wzero wone wplus wtimes weqb wprops sp_left sp_right sp_comm sp_idem sp_path rbind]; try discriminate.
  - apply log_eqbP.
  - eauto.
  - intros. apply I. rewrite !pr_plus. lra.
  - intros. apply I. rewrite !pr_plus. lra.
  - reflexivity.
  - intros. apply I. rewrite !pr_times. lra.
  - intros. split; apply I; rewrite pr_times, pr_one; lra.
  - intros. split; apply I; rewrite pr_times; cbn; lra.
  - intros _ c x y s [= <-]. apply I. rewrite pr_plus, !pr_times, pr_plus. lra.
  - intros _ c x y s [= <-]. apply I. rewrite pr_plus, !pr_times, pr_plus. lra.
  - intros _ x y. apply I. rewrite !pr_times. lra.
Qed.

(** The properties it does not declare do not hold: no finite weight is twice itself. *)
Theorem C69_not_idempotent : forall x, log_plus x x = x <-> x = None.
Proof.
  intros x. split; [|intros ->; reflexivity]. intros E. apply pr_inj. apply (f_equal pr) in E. rewrite pr_plus in E. cbn. lra.
Qed.

Lemma divide_number x y d z : log_divide x y d = Ok z -> pr z * pr y = pr x /\ y <> None.
Proof.
  destruct x as [a|], y as [b|]; cbn; try discriminate; intros [= <-]; (split; [|discriminate]); cbn; [|lra]. rewrite <- exp_plus. f_equal. lra.
Qed.
(** Dividing by a weight that is not zero undoes multiplying, whatever the side. *)
Theorem C69_divide : forall d, divides log_weight d (fun s => s <> None).
Proof.
  assert (H : forall x s : option R, s <> None -> exists z, (forall d, log_divide x s d = Ok z) /\ log_times s z = x /\ log_times z s = x).
  { intros x [b|] Hb; [|congruence]. assert (exists z, forall d, log_divide x (Some b) d = Ok z) as (z & Hz) by (destruct x; cbn; eauto).
    exists z. split; auto. destruct (divide_number _ _ _ _ (Hz DivideAny)) as [E _]. split; apply pr_inj; rewrite pr_times; lra. }
  intros [| |]; cbn; [| |split]; intros x y s _ O; destruct (H x s O) as (z & A & B & C); exists z; (split; [apply A|first [exact (f_equal Ok B)|exact (f_equal Ok C)]]).
Qed.
Theorem C69_divide_unique : forall x y d z, log_divide (log_times x y) y d = Ok z -> z = x.
Proof.
  intros x y d z E. destruct (divide_number _ _ _ _ E) as [H N]. apply pr_inj. rewrite pr_times in H. destruct y as [b|]; [|congruence].
  cbn [pr] in H. pose proof (exp_pos (- b)). apply Rmult_eq_reg_r in H; auto. lra.
Qed.

(** [closure] is not the star: [c = 1 + x c] holds of its answer only where [exp (-x) = x];
    where the answer is negative infinity a star may exist all the same. *)
Definition star_of (x c : option R) : Prop := log_plus (Some 0) (log_times x c) = c.
Theorem C69_star : forall r, 0 < r -> star_of (Some r) (Some (ln (1 - exp (- r)))) /\ forall c, star_of (Some r) c -> c = Some (ln (1 - exp (- r))).
Proof.
  intros r Hr. assert (H : 0 < 1 - exp (- r)) by (pose proof (exp_increasing (- r) 0); rewrite exp_0 in *; lra).
  assert (U : forall c, star_of (Some r) c <-> 1 + exp (- r) * pr c = pr c).
  { intros c. unfold star_of. split.
    - intros E. apply (f_equal pr) in E. rewrite pr_plus, pr_times, pr_one in E. exact E.
    - intros E. apply pr_inj. rewrite pr_plus, pr_times, pr_one. exact E. }
  assert (P : pr (Some (ln (1 - exp (- r)))) = / (1 - exp (- r))).
  { cbn. rewrite exp_Ropp, exp_ln by auto. auto. }
  split.
  - apply U. rewrite P. field. lra.
  - intros c Hc. apply U in Hc. apply pr_inj. rewrite P. apply (Rmult_eq_reg_r (1 - exp (- r))); [|lra]. rewrite Rinv_l by lra. lra.
Qed.
Theorem C69_closure : forall r c, log_closure (Some r) = Some c -> (star_of (Some r) c <-> exp (- r) = r).
Proof.
  intros r c. cbn. destruct (Rle_dec 0 r); [|discriminate]. destruct (Rlt_dec r 1); [|discriminate]. intros [= <-].
  assert (P : pr (Some (ln (1 - r))) = / (1 - r)) by (cbn; rewrite exp_Ropp, exp_ln by lra; auto).
  unfold star_of. split.
  - intros E. apply (f_equal pr) in E. rewrite pr_plus, pr_times, pr_one, P in E. cbn [pr] in E. apply (f_equal (fun v => v * (1 - r))) in E.
    rewrite Rmult_plus_distr_r, Rmult_assoc, Rinv_l in E by lra. lra.
  - intros E. apply pr_inj. rewrite pr_plus, pr_times, pr_one, P. cbn [pr]. rewrite E. field. lra.
Qed.
Theorem C69_closure_refuted : exists x c, log_closure x = Some c /\ ~ star_of x c /\ log_closure (Some 2) = None /\ exists c', star_of (Some 2) c'.
Proof.
  exists (Some (/ 2)), (Some (ln (1 - / 2))). assert (E : log_closure (Some (/ 2)) = Some (Some (ln (1 - / 2)))).
  { cbn. destruct (Rle_dec 0 (/ 2)); [|lra]. destruct (Rlt_dec (/ 2) 1); [auto|lra]. }
  split; auto. split; [|split].
  - intros H. apply (C69_closure _ _ E) in H. pose proof exp_le_3 as E3. replace 1 with (/ 2 + / 2) in E3 by lra. rewrite exp_plus in E3.
    rewrite exp_Ropp in H. assert (exp (/ 2) = 2) as E2 by (rewrite <- (Rinv_inv (exp (/ 2))), H; apply Rinv_inv). rewrite E2 in E3. lra.
  - cbn. destruct (Rle_dec 0 2); auto. destruct (Rlt_dec 2 1); auto. exfalso. lra.
  - destruct (C69_star 2) as [H _]; [lra|]. eexists. exact H.
Qed.

(** ** As a semiring of the other statements *)
Theorem C69_semiring : sr_laws logSR /\ commutative_times logSR /\ zero_free logSR /\ cancellative logSR /\
  exact_division (fun x y : logSR => log_divide x y DivideLeft) (fun w : logSR => w) /\ divides_always (K := logSR) (fun x y : logSR => log_divide x y DivideLeft).
Proof.
  split; [apply (C27_semiring log_weight log_plus log_times C69_lawful); reflexivity|].
  split; [intros x y; apply pr_inj; cbn; rewrite !pr_times; lra|].
  split; [split; [discriminate|split]|split; [|split]].
  - intros a b E. apply (f_equal pr) in E. cbn in E. rewrite pr_plus in E. apply pr_inj. cbn in *. pose proof (pr_nonneg a). pose proof (pr_nonneg b). lra.
  - intros [a|] [b|]; cbn; auto. discriminate.
  - intros x y z Hx E. apply (f_equal pr) in E. cbn in E. rewrite !pr_times in E. apply pr_inj. destruct x as [a|]; [|exfalso; apply Hx; reflexivity]. cbn [pr] in E.
    pose proof (exp_pos (- a)). apply Rmult_eq_reg_r in E; auto. lra.
  - intros w r z E. destruct (divide_number _ _ _ _ E) as [H _]. apply pr_inj. cbn. rewrite pr_times. cbn in H. lra.
  - intros w r Hw. cbn. assert (N : log_plus w r <> None).
    { intros E. apply Hw. apply (f_equal pr) in E. rewrite pr_plus in E. apply pr_inj. cbn in *. pose proof (pr_nonneg w). pose proof (pr_nonneg r). lra. }
    destruct (log_plus w r); [|congruence]. destruct w; cbn; eauto.
Qed.

(** The number of a sum of weights. *)
Lemma pr_sum (l : list logSR) : pr (ksum l) = fold_right Rplus 0 (map pr l).
Proof. induction l as [|a l IH]; cbn; auto. rewrite pr_plus, IH. auto. Qed.

(** Determinizing an acceptor with log weights and without cycles ends and gives every string
    the number it had. *)
Theorem C69_determinize : forall ord (f : vfst logSR) distinct,
  any_order ord -> closed f -> has (vprops f) ACCEPTOR = true -> is_acceptor (mach f) ->
  (forall s t, In t (trs_of f s) -> wgt t <> None) -> (forall s, ~ on_cycle (mach f) s) ->
  exists N, forall fuel, (N <= fuel)%nat -> exists g,
    determinize_acceptor (default_weight (fun x y : logSR => log_divide x y DivideLeft) (fun w : logSR => w) true) ord f distinct fuel = Some (Ok g) /\
    deterministic (mach g) /\ forall u, pr (spelled (mach g) u) = pr (spelled (mach f) u).
Proof.
  intros ord f distinct HO C HA Ac Nz Cy. destruct C69_semiring as (L & _ & ZF & _ & DX & DA).
  destruct (C38_terminates L _ _ ord f distinct DX DA HO ZF C Nz Cy HA) as (N & HN). exists N. intros fuel Hf. destruct (HN fuel Hf) as (g & E).
  exists g. split; auto. destruct (C38_determinize L _ _ true ord f DX HO distinct fuel g C (fun _ => Ac) E) as (_ & _ & Dt & _ & S & _).
  split; auto. intros u. rewrite S. auto.
Qed.
Print Assumptions C69_numbers.
Print Assumptions C69_lawful.
Print Assumptions C69_not_idempotent.
Print Assumptions C69_divide.
Print Assumptions C69_divide_unique.
Print Assumptions C69_star.
Print Assumptions C69_closure.
Print Assumptions C69_closure_refuted.
Print Assumptions C69_semiring.
Print Assumptions C69_determinize.

(** Twice the weight 0 is minus the logarithm of 2, and taking it away again. *)
Example C69_witness : log_plus (Some 0) (Some 0) = Some (- ln 2) /\ log_divide (log_times (Some 3) (Some 5)) (Some 5) DivideAny = Ok (Some (3 + 5 - 5)) /\
  log_plus (Some 1) None = Some 1 /\ log_times (Some 1) None = None.
Proof.
  split; [|repeat split]. apply pr_inj. rewrite pr_plus, pr_one. cbn. rewrite Ropp_involutive, exp_ln; lra.
Qed.
(** Two transitions on one label, with weights 1 and 2. *)
Definition c69_f : vfst logSR :=
  VF [@VS logSR None [@Tr logSR 1 1 (Some 1) 1; @Tr logSR 1 1 (Some 2) 2] 0 0; @VS logSR (Some (Some 0)) [] 0 0; @VS logSR (Some (Some 3)) [@Tr logSR 2 2 (Some 1) 1] 0 0]
     (Some 0%nat) None None (mask [ACCEPTOR]).
Example C69_determinize_witness : any_order (K := logSR) idord /\ closed c69_f /\ has (vprops c69_f) ACCEPTOR = true /\ is_acceptor (mach c69_f) /\
  (forall s t, In t (trs_of c69_f s) -> wgt t <> None) /\ (forall s, ~ on_cycle (mach c69_f) s) /\ ~ deterministic (mach c69_f).
Proof.
  split; [apply idord_ok|]. split; [apply closedb_ok; reflexivity|]. split; [reflexivity|]. split.
  { intros s t. do 3 (destruct s as [|s]; [cbn; intros H; repeat destruct H as [<-|H]; try destruct H; reflexivity|]). cbn. destruct s; intros []. }
  split.
  { intros s t. do 3 (destruct s as [|s]; [cbn; intros H; repeat destruct H as [<-|H]; try destruct H; discriminate|]). cbn. destruct s; intros []. }
  split.
  { apply (ranked_acyclic (mach c69_f) (fun s => match s with O => 2 | 2 => 1 | _ => 0 end)%nat). intros s t.
    do 3 (destruct s as [|s]; [cbn; intros H; repeat destruct H as [<-|H]; try destruct H; cbn; Lia.lia|]). cbn. destruct s; intros []. }
  intros D. specialize (D 0%nat). cbn in D. inversion D as [|? ? X _]. apply X. left. reflexivity.
Qed.
