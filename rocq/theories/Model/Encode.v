(** Encoding labels and weights into one label: rustfst/src/algorithms/encode/*.rs. *)
From Coq Require Import List Arith NArith Bool.
From Verif Require Import Base.Util Base.Semiring Base.Machine Model.Props Model.VectorFst Model.Rational
  Model.ShortestPath Model.BiMap Model.TrMap.
Import ListNotations.

(** encode_type.rs 3-30. *)
Inductive etype := EncodeWeights | EncodeLabels | EncodeWeightsAndLabels.
Definition eweights (e : etype) : bool := match e with EncodeWeights | EncodeWeightsAndLabels => true | _ => false end.
Definition elabels (e : etype) : bool := match e with EncodeLabels | EncodeWeightsAndLabels => true | _ => false end.
Definition etype_from_bools (w l : bool) : res etype :=
  match w, l with
  | true, true => Ok EncodeWeightsAndLabels
  | true, false => Ok EncodeWeights
  | false, true => Ok EncodeLabels
  | false, false => Err
  end.

Section E.
  Context {K : SR}.

  (** table.rs 9-14; [Eq] compares the three fields. *)
  Definition etuple : Type := (nat * nat * K)%type.
  Definition et_eqb (a b : etuple) : bool :=
    Nat.eqb (fst (fst a)) (fst (fst b)) && Nat.eqb (snd (fst a)) (snd (fst b)) && keqb (snd a) (snd b).
  (** table.rs 16-21 without the encode type, which is passed separately. *)
  Definition etable : Type := bimap etuple.

  (** table.rs 34-48 and 50-64. *)
  Definition tuple_of (e : etype) (i o : nat) (w : K) : etuple :=
    (i, (if elabels e then o else 0), (if eweights e then w else @kone K)).
  (** table.rs 66-76: the code is the id plus one (the cast to [Label] is not modelled). *)
  Definition enc (b : etable) (t : etuple) : etable * nat :=
    let (b, i) := get_id_or_insert et_eqb b t in (b, S i).
  (** table.rs 78-80: [tuple_id - 1] underflows for 0. *)
  Definition dec (b : etable) (n : nat) : res (option etuple) :=
    match n with O => Panic | S i => Ok (nth_error (id_to_tuple b) i) end.

  (** encode_static.rs 30-79. *)
  Definition encode_mapper (e : etype) : mapper etable K K :=
    Mapper
      (fun b t => let (b, c) := enc b (tuple_of e (il t) (ol t) (wgt t)) in
         Ok (b, Tr c (if elabels e then c else ol t) (if eweights e then @kone K else wgt t) (ns t)))
      (fun b t =>
         if eweights e then
           let (b, c) := enc b (tuple_of e (fil t) (fol t) (fwt t)) in
           Ok (b, FT c (if elabels e then c else fol t) (@kone K))
         else Ok (b, t))
      (if eweights e then MapRequireSuperfinal else MapNoSuperfinal)
      (fun p =>
         let p := if elabels e then pkeep (pkeep p pm_i_label_invariant_properties) pm_o_label_invariant_properties else p in
         if eweights e then pkeep (pkeep (pkeep p pm_i_label_invariant_properties) pm_weight_invariant_properties) pm_add_super_final_properties else p).
  (** encode_static.rs 90-100. *)
  Definition encode (f : vfst K) (e : etype) : res (vfst K * etable) := tr_map (encode_mapper e) f bm_new.

  (** decode_static.rs 27-67. *)
  Definition decode_mapper (e : etype) (b : etable) : mapper unit K K :=
    Mapper
      (fun _ t =>
         o <-- dec b (il t) ;;
         match o with
         | None => Err
         | Some (i, o, w) => Ok (tt, Tr i (if elabels e then o else ol t) (if eweights e then w else wgt t) (ns t))
         end)
      (fun _ t => Ok (tt, t)) MapNoSuperfinal
      (fun p =>
         let p := if elabels e then pkeep (pkeep p pm_i_label_invariant_properties) pm_o_label_invariant_properties else p in
         if eweights e then pkeep (pkeep (pkeep p pm_i_label_invariant_properties) pm_weight_invariant_properties) pm_rm_super_final_properties else p).
  (** decode_static.rs 71-81. *)
  Definition decode (f : vfst K) (e : etype) (b : etable) : res (vfst K) :=
    x <-- tr_map (decode_mapper e b) f tt ;; rm_final_epsilon (fst x).
End E.
