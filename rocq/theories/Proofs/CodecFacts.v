(** Facts about the byte-level readers and writers. *)
From Coq Require Import List Arith NArith ZArith Bool Lia.
From Verif Require Import Base.Util Model.Codec.
Import ListNotations.
Local Open Scope N_scope.

(** [p] reads back [a] from the bytes [b], whatever follows. *)
Definition rt {A} (p : parser A) (b : bytes) (a : A) : Prop := forall r, p (b ++ r) = Ok (a, r).

Lemma rt_ret {A} (a : A) : rt (fun i => Ok (a, i)) [] a.
Proof. intros r. reflexivity. Qed.

Lemma rt_bind {A B} (p : parser A) (q : A -> parser B) b1 b2 a c :
  rt p b1 a -> rt (q a) b2 c -> rt (fun i => pbind (p i) (fun a i => q a i)) (b1 ++ b2) c.
Proof. intros H1 H2 r. rewrite <- app_assoc, H1. simpl. apply H2. Qed.

Lemma rt_bind0 {A B} (p : parser A) (q : A -> parser B) b a c :
  rt p b a -> rt (q a) [] c -> rt (fun i => pbind (p i) (fun a i => q a i)) b c.
Proof. intros H1 H2. rewrite <- (app_nil_r b). eapply rt_bind; eauto. Qed.

Lemma rt_verify {A} (p : parser A) ok b a : rt p b a -> ok a = true -> rt (verify p ok) b a.
Proof. intros H E r. unfold verify. rewrite H. simpl. now rewrite E. Qed.

Lemma rt_take b : rt (take (N.of_nat (length b))) b b.
Proof.
  intros r. unfold take. rewrite app_length.
  destruct (N.ltb_spec (N.of_nat (length b + length r)) (N.of_nat (length b))); [lia|].
  rewrite Nnat.Nat2N.id, firstn_app, Nat.sub_diag, firstn_all, skipn_app, skipn_all, Nat.sub_diag.
  simpl. now rewrite app_nil_r.
Qed.

Lemma le_bytes_length k v : length (le_bytes k v) = k.
Proof. revert v. induction k; simpl; auto. Qed.
Lemma le_val_bytes k : forall v, v < 256 ^ N.of_nat k -> le_val (le_bytes k v) = v.
Proof.
  induction k; intros v H; cbn [le_val le_bytes].
  - simpl in H. lia.
  - rewrite IHk.
    + pose proof (N.div_mod' v 256). lia.
    + rewrite Nnat.Nat2N.inj_succ, N.pow_succ_r' in H. apply N.div_lt_upper_bound; lia.
Qed.

Lemma rt_u k v : v < 256 ^ N.of_nat k -> rt (parse_u k) (write_u k v) v.
Proof.
  intros H r. unfold parse_u, write_u.
  assert (E := rt_take (le_bytes k v) r). rewrite le_bytes_length in E. rewrite E. simpl.
  now rewrite le_val_bytes.
Qed.

Lemma signed_ok k z : (0 < k)%nat -> (- 256 ^ Z.of_nat k <= 2 * z < 256 ^ Z.of_nat k)%Z ->
  signed k (Z.to_N (z mod 256 ^ Z.of_nat k)) = z.
Proof.
  intros K H. unfold signed. set (M := (256 ^ Z.of_nat k)%Z) in *.
  assert (MP : (0 < M)%Z) by (apply Z.pow_pos_nonneg; lia).
  assert (MN : 256 ^ N.of_nat k = Z.to_N M).
  { unfold M. rewrite <- (nat_N_Z k). change 256%Z with (Z.of_N 256). rewrite <- N2Z.inj_pow, N2Z.id. auto. }
  rewrite MN. destruct (Z_lt_le_dec z 0).
  - assert (E : (z mod M = z + M)%Z).
    { rewrite <- (Z_mod_plus_full z 1 M). rewrite Z.mod_small; lia. }
    rewrite E. destruct (N.ltb_spec (2 * Z.to_N (z + M)) (Z.to_N M)); lia.
  - rewrite Z.mod_small by lia. destruct (N.ltb_spec (2 * Z.to_N z) (Z.to_N M)); lia.
Qed.

Lemma rt_i k z : (0 < k)%nat -> (- 256 ^ Z.of_nat k <= 2 * z < 256 ^ Z.of_nat k)%Z ->
  rt (parse_i k) (write_i k z) z.
Proof.
  intros K H r. unfold parse_i, write_i. rewrite rt_u.
  - simpl. now rewrite signed_ok.
  - assert (MN : 256 ^ N.of_nat k = Z.to_N (256 ^ Z.of_nat k)).
    { rewrite <- (nat_N_Z k). change 256%Z with (Z.of_N 256). rewrite <- N2Z.inj_pow, N2Z.id. auto. }
    rewrite MN. assert (MP : (0 < 256 ^ Z.of_nat k)%Z) by (apply Z.pow_pos_nonneg; lia).
    pose proof (Z.mod_pos_bound z (256 ^ Z.of_nat k) MP). lia.
Qed.

Lemma rt_i32 z : (- 2147483648 <= z < 2147483648)%Z -> rt parse_bin_i32 (write_bin_i32 z) z.
Proof. intros H. apply rt_i; [lia|]. change (256 ^ Z.of_nat 4)%Z with 4294967296%Z. lia. Qed.
Lemma rt_i64 z : (- 9223372036854775808 <= z < 9223372036854775808)%Z -> rt parse_bin_i64 (write_bin_i64 z) z.
Proof. intros H. apply rt_i; [lia|]. change (256 ^ Z.of_nat 8)%Z with 18446744073709551616%Z. lia. Qed.
Lemma rt_u32 v : v < 4294967296 -> rt parse_bin_u32 (write_bin_u32 v) v.
Proof. intros H. apply rt_u. exact H. Qed.
Lemma rt_u64 v : v < 18446744073709551616 -> rt parse_bin_u64 (write_bin_u64 v) v.
Proof. intros H. apply rt_u. exact H. Qed.
Lemma rt_u8 v : v < 256 -> rt parse_bin_u8 (write_bin_u8 v) v.
Proof. intros H. apply rt_u. exact H. Qed.

(** Casts. *)
Lemma as_i32_range v : (- 2147483648 <= as_i32 v < 2147483648)%Z.
Proof.
  unfold as_i32, signed. change (256 ^ N.of_nat 4) with 4294967296. change (256 ^ Z.of_nat 4)%Z with 4294967296%Z.
  assert (v mod 2 ^ 32 < 4294967296) by (apply N.mod_lt; discriminate).
  revert H. generalize (v mod 2 ^ 32). intros w H.
  destruct (N.ltb_spec (2 * w) 4294967296); lia.
Qed.
Lemma as_i64_range v : (- 9223372036854775808 <= as_i64 v < 9223372036854775808)%Z.
Proof.
  unfold as_i64, signed. change (256 ^ N.of_nat 8) with 18446744073709551616.
  change (256 ^ Z.of_nat 8)%Z with 18446744073709551616%Z.
  assert (v mod 2 ^ 64 < 18446744073709551616) by (apply N.mod_lt; discriminate).
  revert H. generalize (v mod 2 ^ 64). intros w H.
  destruct (N.ltb_spec (2 * w) 18446744073709551616); lia.
Qed.
Lemma as_i32_u32 v : v < 4294967296 -> as_u32 (as_i32 v) = v.
Proof.
  intros H. unfold as_i32, as_u32, signed. change (256 ^ N.of_nat 4) with 4294967296.
  change (256 ^ Z.of_nat 4)%Z with 4294967296%Z. change (2 ^ 32)%Z with 4294967296%Z. change (2 ^ 32) with 4294967296.
  rewrite N.mod_small by auto. destruct (N.ltb_spec (2 * v) 4294967296).
  - rewrite Z.mod_small; lia.
  - rewrite <- (Z_mod_plus_full _ 1 4294967296), Z.mod_small; lia.
Qed.
Lemma as_i32_small v : v < 2147483648 -> as_i32 v = Z.of_N v.
Proof.
  intros H. unfold as_i32, signed. change (256 ^ N.of_nat 4) with 4294967296. change (2 ^ 32) with 4294967296.
  rewrite N.mod_small by lia. destruct (N.ltb_spec (2 * v) 4294967296); lia.
Qed.
Lemma as_i64_small v : v < 9223372036854775808 -> as_i64 v = Z.of_N v.
Proof.
  intros H. unfold as_i64, signed. change (256 ^ N.of_nat 8) with 18446744073709551616.
  change (2 ^ 64) with 18446744073709551616.
  rewrite N.mod_small by lia. destruct (N.ltb_spec (2 * v) 18446744073709551616); lia.
Qed.
Lemma as_usize_small z : (0 <= z < 18446744073709551616)%Z -> as_usize z = Z.to_N z.
Proof. intros H. unfold as_usize. rewrite Z.mod_small; auto. Qed.
Lemma as_u32_small z : (0 <= z < 4294967296)%Z -> as_u32 z = Z.to_N z.
Proof. intros H. unfold as_u32. rewrite Z.mod_small; auto. Qed.

Lemma rt_string s : utf8_ok s = true -> N.of_nat (length s) < 2147483648 ->
  rt parse_string (write_string s) s.
Proof.
  intros U L. unfold parse_string, write_string. eapply (rt_bind parse_bin_i32).
  - apply rt_i32, as_i32_range.
  - intros r. rewrite as_i32_small by auto. rewrite as_usize_small by lia. rewrite N2Z.id, rt_take.
    simpl. now rewrite U.
Qed.

Lemma count_loop_ok {A} (p : parser A) : forall (l : list A) (bl : list bytes) fuel r,
  Forall2 (fun a b => rt p b a) l bl -> (length l <= fuel)%nat ->
  count_loop p fuel (N.of_nat (length l)) (concat bl ++ r) = Ok (l, r).
Proof.
  induction l as [|a l IH]; intros bl fuel r F L; inversion F; subst.
  - destruct fuel; reflexivity.
  - destruct fuel as [|fuel]; [simpl in L; lia|]. cbn [count_loop length concat].
    destruct (N.eqb_spec (N.of_nat (S (length l))) 0); [lia|].
    rewrite <- app_assoc. rewrite H1. cbn [pbind].
    replace (N.of_nat (S (length l)) - 1) with (N.of_nat (length l)) by lia.
    rewrite IH; auto. simpl in L. lia.
Qed.

Lemma Forall2_length {A B} (R : A -> B -> Prop) l l' : Forall2 R l l' -> length l = length l'.
Proof. induction 1; simpl; auto. Qed.

Lemma rt_count {A} (p : parser A) (l : list A) (bl : list bytes) n :
  Forall2 (fun a b => rt p b a) l bl -> Forall (fun b => b <> []) bl -> n = N.of_nat (length l) ->
  rt (pcount p n) (concat bl) l.
Proof.
  intros F NE -> r. unfold pcount. apply count_loop_ok; auto.
  assert (length bl <= length (concat bl))%nat.
  { clear F. induction NE as [|b bl Hb _ IH]; simpl; auto. rewrite app_length.
    destruct b; [congruence|]. simpl. lia. }
  rewrite <- (Forall2_length _ _ _ F) in H. rewrite app_length. lia.
Qed.

(** Parsers look only at what they consume. *)
Definition local {A} (p : parser A) : Prop :=
  (forall i a r, p i = Ok (a, r) -> exists c, i = c ++ r /\ forall r', p (c ++ r') = Ok (a, r')) /\
  (forall i r, p i = Panic -> p (i ++ r) = Panic).

(** So an input that is read to the end is not accepted when cut short. *)
Lemma local_prefix {A} (p : parser A) b a n : local p -> p b = Ok (a, []) -> (n < length b)%nat ->
  p (firstn n b) = Err.
Proof.
  intros [L P] H N. destruct (p (firstn n b)) as [[a' r]| |] eqn:E; auto; exfalso.
  - destruct (L _ _ _ E) as (c & Hc & K).
    assert (B : b = c ++ (r ++ skipn n b)).
    { rewrite app_assoc, <- Hc. symmetry. apply firstn_skipn. }
    specialize (K (r ++ skipn n b)). rewrite <- B, H in K. injection K as _ K.
    symmetry in K. apply app_eq_nil in K as [_ K].
    assert (X : length (skipn n b) = (length b - n)%nat) by apply skipn_length.
    rewrite K in X. simpl in X. lia.
  - specialize (P _ (skipn n b) E). rewrite firstn_skipn in P. congruence.
Qed.

Lemma local_ret {A} (a : A) : local (fun i => Ok (a, i)).
Proof. split; [|discriminate]. intros i a' r [= <- <-]. exists []. auto. Qed.
Lemma local_err {A} : local (fun i => @Err (A * bytes)).
Proof. split; [discriminate|discriminate]. Qed.
Lemma local_panic {A} : local (fun i => @Panic (A * bytes)).
Proof. split; [discriminate|auto]. Qed.
Lemma local_bind {A B} (p : parser A) (q : A -> parser B) : local p -> (forall a, local (q a)) ->
  local (fun i => pbind (p i) (fun a i => q a i)).
Proof.
  intros [L1 P1] Q. split.
  - intros i b r H. destruct (p i) as [[a i']| |] eqn:E; try discriminate. simpl in H.
    destruct (L1 _ _ _ E) as (c1 & -> & K1). destruct (proj1 (Q a) _ _ _ H) as (c2 & -> & K2).
    exists (c1 ++ c2). rewrite app_assoc. split; auto. intros r'. rewrite <- app_assoc, K1. simpl. auto.
  - intros i r H. destruct (p i) as [[a i']| |] eqn:E; try discriminate.
    + simpl in H. destruct (L1 _ _ _ E) as (c1 & -> & K1). rewrite <- app_assoc, K1. simpl.
      apply (proj2 (Q a)); auto.
    + rewrite (P1 _ r E). auto.
Qed.
Lemma local_if {A} (b : bool) (p q : parser A) : local p -> local q -> local (fun i => if b then p i else q i).
Proof. destruct b; auto. Qed.

Lemma local_take n : local (take n).
Proof.
  split.
  - intros i a r. unfold take. destruct (N.ltb_spec (N.of_nat (length i)) n); [discriminate|].
    intros [= <- <-]. exists (firstn (N.to_nat n) i). split; [symmetry; apply firstn_skipn|].
    intros r'. assert (L : N.of_nat (length (firstn (N.to_nat n) i)) = n).
    { rewrite firstn_length. lia. }
    pose proof (rt_take (firstn (N.to_nat n) i) r') as X. unfold take in X. rewrite L in X. exact X.
  - intros i r. unfold take. destruct (_ <? _); discriminate.
Qed.

Lemma local_u k : local (parse_u k).
Proof.
  apply (local_bind (take (N.of_nat k)) (fun c i => Ok (le_val c, i))); [apply local_take|].
  intros. apply local_ret.
Qed.
Lemma local_i k : local (parse_i k).
Proof.
  apply (local_bind (parse_u k) (fun c i => Ok (signed k c, i))); [apply local_u|].
  intros. apply local_ret.
Qed.
Lemma local_verify {A} (p : parser A) ok : local p -> local (verify p ok).
Proof.
  intros H. apply (local_bind p (fun a r => if ok a then Ok (a, r) else Err)); auto.
  intros a. destruct (ok a); [apply local_ret | apply local_err].
Qed.
Lemma local_string : local parse_string.
Proof.
  apply (local_bind parse_bin_i32 (fun n i => s & i <~ take (as_usize n) i ;; if utf8_ok s then Ok (s, i) else Panic)).
  - apply local_i.
  - intros n. apply (local_bind (take (as_usize n)) (fun s i => if utf8_ok s then Ok (s, i) else Panic)).
    + apply local_take.
    + intros s. destruct (utf8_ok s); [apply local_ret | apply local_panic].
Qed.

(** A parser that always takes something from the input. *)
Definition eats {A} (p : parser A) : Prop := forall i a r, p i = Ok (a, r) -> (length r < length i)%nat.

Lemma local_len {A} (p : parser A) i a r : local p -> p i = Ok (a, r) -> (length r <= length i)%nat.
Proof. intros [L _] H. destruct (L _ _ _ H) as (c & -> & _). rewrite app_length. lia. Qed.

Lemma eats_bind_l {A B} (p : parser A) (q : A -> parser B) : eats p -> (forall a, local (q a)) ->
  eats (fun i => pbind (p i) (fun a i => q a i)).
Proof.
  intros E L i b r H. destruct (p i) as [[a i']| |] eqn:Ep; try discriminate. simpl in H.
  apply E in Ep. apply local_len in H; auto. lia.
Qed.
Lemma eats_bind_r {A B} (p : parser A) (q : A -> parser B) : local p -> (forall a, eats (q a)) ->
  eats (fun i => pbind (p i) (fun a i => q a i)).
Proof.
  intros E L i b r H. destruct (p i) as [[a i']| |] eqn:Ep; try discriminate. simpl in H.
  apply local_len in Ep; auto. apply L in H. lia.
Qed.
Lemma eats_u k : (0 < k)%nat -> eats (parse_u k).
Proof.
  intros K i a r. unfold parse_u, take. destruct (N.ltb_spec (N.of_nat (length i)) (N.of_nat k)); [discriminate|].
  simpl. intros [= _ <-]. rewrite skipn_length. lia.
Qed.
Lemma eats_i k : (0 < k)%nat -> eats (parse_i k).
Proof.
  intros K. apply (eats_bind_l (parse_u k) (fun c i => Ok (signed k c, i))); [apply eats_u; auto|].
  intros. apply local_ret.
Qed.
Lemma eats_string : eats parse_string.
Proof.
  apply (eats_bind_l parse_bin_i32 (fun n i => s & i <~ take (as_usize n) i ;; if utf8_ok s then Ok (s, i) else Panic)).
  - apply eats_i; lia.
  - intros n. apply (local_bind (take (as_usize n)) (fun s i => if utf8_ok s then Ok (s, i) else Panic)).
    + apply local_take.
    + intros s. destruct (utf8_ok s); [apply local_ret | apply local_panic].
Qed.

Lemma count_loop_fuel {A} (p : parser A) : eats p -> forall fuel fuel' n i,
  (length i < fuel)%nat -> (length i < fuel')%nat -> count_loop p fuel n i = count_loop p fuel' n i.
Proof.
  intros E. induction fuel; intros fuel' n i H1 H2; [lia|]. destruct fuel' as [|fuel']; [lia|]. simpl.
  destruct (n =? 0); auto. destruct (p i) as [[a r]| |] eqn:Ep; auto. simpl.
  apply E in Ep. rewrite (IHfuel fuel'); auto; lia.
Qed.

Lemma local_count {A} (p : parser A) n : local p -> eats p -> local (pcount p n).
Proof.
  intros L E.
  assert (G : forall fuel n i l r, count_loop p fuel n i = Ok (l, r) -> exists c, i = c ++ r /\
            forall r', count_loop p (S (length (c ++ r'))) n (c ++ r') = Ok (l, r')).
  { induction fuel; intros m i l r H; simpl in H.
    - destruct (N.eqb_spec m 0) as [->|]; [|discriminate]. injection H as <- <-. exists []. auto.
    - destruct (N.eqb_spec m 0) as [->|NZ]; [injection H as <- <-; exists []; auto|].
      destruct (p i) as [[a i']| |] eqn:Ep; try discriminate. simpl in H.
      destruct (count_loop p fuel (m - 1) i') as [[l' i'']| |] eqn:El; try discriminate. simpl in H.
      injection H as <- <-.
      destruct (proj1 L _ _ _ Ep) as (c1 & -> & K1). destruct (IHfuel _ _ _ _ El) as (c2 & -> & K2).
      exists (c1 ++ c2). rewrite app_assoc. split; auto. intros r'. rewrite <- app_assoc. cbn [count_loop].
      destruct (N.eqb_spec m 0); [lia|]. pose proof (K1 (c2 ++ r')) as X. rewrite X. cbn [pbind].
      apply E in X. rewrite (count_loop_fuel p E _ (S (length (c2 ++ r')))); [|lia|lia].
      now rewrite K2. }
  split.
  - intros i l r H. exact (G _ _ _ _ _ H).
  - assert (G2 : forall fuel n i r, (length i < fuel)%nat -> count_loop p fuel n i = Panic ->
              count_loop p (S (length (i ++ r))) n (i ++ r) = Panic).
    { induction fuel; intros m i r F H; [lia|]. simpl in H. cbn [count_loop].
      destruct (N.eqb_spec m 0) as [->|NZ]; [discriminate|].
      destruct (p i) as [[a i']| |] eqn:Ep; try discriminate; simpl in H.
      - destruct (count_loop p fuel (m - 1) i') as [[l' i'']| |] eqn:El; try discriminate.
        pose proof (E _ _ _ Ep) as F2.
        destruct (proj1 L _ _ _ Ep) as (c1 & -> & K1). rewrite <- app_assoc.
        pose proof (K1 (i' ++ r)) as X. rewrite X. cbn [pbind]. apply E in X.
        rewrite (count_loop_fuel p E _ (S (length (i' ++ r)))); [|lia|lia].
        rewrite IHfuel; auto. lia.
      - rewrite (proj2 L _ r Ep). auto. }
    intros i r H. unfold pcount in *. eapply G2; [|exact H]. lia.
Qed.

(** Decimal numbers. *)
Lemma dec_val_app a b : dec_val (a ++ [b]) = 10 * dec_val a + (b - 48).
Proof. unfold dec_val. now rewrite fold_left_app. Qed.

Lemma digits_ok fuel : forall n, n < 10 ^ N.of_nat fuel ->
  dec_val (digits fuel n) = n /\ Forall (fun b => is_digit b = true) (digits fuel n).
Proof.
  induction fuel; intros n H.
  { simpl in H. simpl. split; [|constructor]. unfold dec_val. simpl. lia. }
  cbn [digits]. destruct (N.ltb_spec n 10).
  - split; [change (10 * 0 + (48 + n - 48) = n); lia|]. repeat constructor. unfold is_digit.
    apply andb_true_iff. rewrite !N.leb_le. lia.
  - destruct (IHfuel (n / 10)) as [A B].
    { rewrite Nnat.Nat2N.inj_succ, N.pow_succ_r' in H. apply N.div_lt_upper_bound; lia. }
    rewrite dec_val_app, A. split.
    + rewrite (N.add_comm 48), N.add_sub. symmetry. apply N.div_mod'.
    + apply Forall_app. split; auto. repeat constructor. unfold is_digit.
      assert (M : n mod 10 < 10) by (apply N.mod_lt; lia). revert M. generalize (n mod 10). intros d M.
      apply andb_true_iff. rewrite !N.leb_le. lia.
Qed.
Lemma digits_nonempty fuel n : digits (S fuel) n <> [].
Proof. simpl. destruct (_ <? _); [discriminate|]. destruct (digits fuel (n / 10)); discriminate. Qed.

Lemma size_pow p : N.pos p < 2 ^ N.of_nat (Pos.size_nat p).
Proof.
  induction p; simpl Pos.size_nat; rewrite ?Nnat.Nat2N.inj_succ, ?N.pow_succ_r'; try lia.
Qed.
Lemma dec_bound n : n < 10 ^ N.of_nat (S (N.size_nat n)).
Proof.
  rewrite Nnat.Nat2N.inj_succ, N.pow_succ_r'.
  assert (n < 2 ^ N.of_nat (N.size_nat n) \/ n = 0).
  { destruct n; auto. left. apply size_pow. }
  assert (2 ^ N.of_nat (N.size_nat n) <= 10 ^ N.of_nat (N.size_nat n)) by (apply N.pow_le_mono_l; lia).
  assert (0 < 10 ^ N.of_nat (N.size_nat n)) by (apply N.neq_0_lt_0, N.pow_nonzero; lia). lia.
Qed.
Lemma dec_val_dec n : dec_val (dec n) = n.
Proof. apply digits_ok, dec_bound. Qed.
Lemma dec_digits n : Forall (fun b => is_digit b = true) (dec n).
Proof. apply digits_ok, dec_bound. Qed.
Lemma dec_nonempty n : dec n <> [].
Proof. apply digits_nonempty. Qed.

Lemma take_while_all p u v : Forall (fun b => p b = true) u ->
  (forall b v', v = b :: v' -> p b = false) -> take_while p (u ++ v) = (u, v).
Proof.
  intros F S. induction F as [|b u Hb F IH]; simpl.
  - destruct v as [|b v]; simpl; auto. now rewrite (S _ _ eq_refl).
  - now rewrite Hb, IH.
Qed.

Lemma num_dec m n b r : n <= m -> is_digit b = false -> num m (dec n ++ b :: r) = Ok (n, b :: r).
Proof.
  intros H B. unfold num. rewrite take_while_all; [|apply dec_digits|intros ? ? [= <- <-]; auto].
  destruct (dec n) as [|d ds] eqn:E; [apply dec_nonempty in E; tauto|]. rewrite <- E, dec_val_dec.
  destruct (N.leb_spec n m); auto. lia.
Qed.

Lemma bytes_eqb_spec a b : reflect (a = b) (bytes_eqb a b).
Proof.
  revert b. induction a as [|x a IH]; intros [|y b]; simpl; try (constructor; congruence).
  destruct (N.eqb_spec x y); simpl; [|constructor; congruence].
  destruct (IH b); constructor; congruence.
Qed.
