(** What a sequential file is supposed to hold (property C29). *)
From Coq Require Import ZArith List Bool.
From Verif Require Import Base SeqBufModel.
Import ListNotations.
Open Scope Z_scope.

(** [file] holds the values [vs] of [d] bytes each, one after the other, from [start]. *)
Definition holds (d : Z) (file : bytes) (start : Z) (vs : list bytes) : Prop :=
  forall k v, nth_error vs k = Some v -> forall j, 0 <= j < d -> file (start + Z.of_nat k * d + j) = v j.

(** Two values agree on their [d] bytes. *)
Definition same_value (d : Z) (v w : bytes) : Prop := forall j, 0 <= j < d -> v j = w j.

(** The values of process [p], in order. *)
Definition by_proc (p : Z) (l : list (Z * bytes)) : list bytes :=
  map snd (filter (fun x => fst x =? p) l).

(** Sizes are sane: values divide the chunk and the header (asserted at
    seq_buf.c:455,467,489). *)
Definition sizes_ok (C d hdr : Z) : Prop := 0 < d /\ 0 < C /\ (d | C) /\ (d | hdr) /\ 0 <= hdr <= C.
