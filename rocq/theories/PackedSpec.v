(** What a packed word means: a list of fields of given widths, least significant first,
    side by side (property C24). *)
From Coq Require Import ZArith List.
Import ListNotations.
Open Scope Z_scope.

(** [holds w fs]: the word [w] consists of exactly the fields [fs] = (width, value), each
    value within its width, nothing overlapping. *)
Fixpoint holds (w : Z) (fs : list (Z * Z)) : Prop :=
  match fs with
  | [] => w = 0
  | (k, v) :: r => 0 <= v < 2 ^ k /\ exists h, w = v + 2 ^ k * h /\ holds h r
  end.
Definition width (fs : list (Z * Z)) : Z := fold_right (fun f a => fst f + a) 0 fs.
