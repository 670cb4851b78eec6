(** A boolean check of [closed] for concrete machines. *)
From Coq Require Import List Arith Bool Lia.
From Verif Require Import Base.Util Base.Semiring Base.Machine Model.VectorFst Proofs.VectorFacts.
Import ListNotations.

Definition closedb {K : SR} (f : vfst K) : bool :=
  forallb (fun st => forallb (fun t => ns t <? num_states f) (vtrs st)) (vstates f) &&
  match vstart f with Some s => s <? num_states f | None => true end.

Lemma closedb_ok {K : SR} (f : vfst K) : closedb f = true -> closed f.
Proof.
  intros H. apply andb_prop in H. destruct H as [A B]. split.
  - intros s t I. unfold trs_of in I. destruct (nth_error (vstates f) s) eqn:E; [|destruct I].
    rewrite forallb_forall in A. specialize (A _ (nth_error_In _ _ E)). rewrite forallb_forall in A.
    specialize (A _ I). apply Nat.ltb_lt in A. exact A.
  - intros s E. rewrite E in B. apply Nat.ltb_lt in B. exact B.
Qed.
