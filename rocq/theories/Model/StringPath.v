(** Paths with their symbol tables: rustfst/src/string_path.rs and
    rustfst/src/fst_traits/string_paths_iterator.rs (fst_traits/fst.rs 314-319).

    The tables of a machine are opaque in Model/VectorFst.v, so they are separate arguments here. *)
From Coq Require Import List Arith NArith Bool.
From Verif Require Import Base.Util Base.Semiring Base.Machine Model.BiMap Model.Codec Model.SymbolTable Model.VectorFst Model.FstPath Model.Paths.
Import ListNotations.

(** [join(" ")]. *)
Fixpoint join_space (l : list bytes) : bytes :=
  match l with
  | [] => []
  | s :: l' => s ++ match l' with [] => [] | _ => 32%N :: join_space l' end
  end.
(** [map(..).collect::<Result<Vec<_>>>()]: the first missing label is the error. *)
Fixpoint all_symbols (t : symt) (l : list nat) : res (list bytes) :=
  match l with
  | [] => Ok []
  | a :: l' => match get_symbol t a with
               | Some s => r <-- all_symbols t l' ;; Ok (s :: r)
               | None => Err
               end
  end.

Section S.
  Context {K : SR}.

  (** string_path.rs 5-20. *)
  Record string_path := SPath { sp_path : fpath K; sp_isymt : symt; sp_osymt : symt }.
  (** 22-32. *)
  Definition sp_weight (p : string_path) : K := pwgt (sp_path p).
  Definition sp_ilabels (p : string_path) : list nat := pil (sp_path p).
  Definition sp_olabels (p : string_path) : list nat := pol (sp_path p).
  (** 34-48, 50-64. *)
  Definition istring (p : string_path) : res bytes := r <-- all_symbols (sp_isymt p) (pil (sp_path p)) ;; Ok (join_space r).
  Definition ostring (p : string_path) : res bytes := r <-- all_symbols (sp_osymt p) (pol (sp_path p)) ;; Ok (join_space r).

  (** string_paths_iterator.rs 9-17. *)
  Record string_paths := SPI { spi_isymt : symt; spi_osymt : symt; spi_queue : list (nat * fpath K) }.
  (** 24-37. *)
  Definition spi_new (f : vfst K) (it ot : option symt) : res string_paths :=
    match it, ot with
    | Some i, Some o => Ok (SPI i o (pi_new f))
    | _, _ => Err
    end.
  (** 47-51. *)
  Definition spi_next (fuel : nat) (f : vfst K) (s : string_paths) : option (res (option string_path * string_paths)) :=
    match pi_next fuel f (spi_queue s) with
    | Some r => Some (rmap (fun a => (match fst a with Some p => Some (SPath p (spi_isymt s) (spi_osymt s)) | None => None end,
                                      SPI (spi_isymt s) (spi_osymt s) (snd a))) r)
    | None => None
    end.
  (** [n] successive calls of [next]. *)
  Fixpoint spi_calls (fuel : nat) (f : vfst K) (n : nat) (s : string_paths) : option (res (list (option string_path))) :=
    match n with
    | O => Some (Ok [])
    | S n' =>
        match spi_next fuel f s with
        | Some (Ok (o, s')) => match spi_calls fuel f n' s' with Some (Ok l) => Some (Ok (o :: l)) | r => r end
        | Some _ => Some Panic
        | None => None
        end
    end.
End S.
Arguments string_path : clear implicits.
Arguments string_paths : clear implicits.
