(** Vocabulary for C37: column values, rows, and what is expected to be read. *)
From Verif Require Import Base PageIoModel TupleFmtModel PageIoSpec.
From Coq Require Import ZArith List Bool Lia.
Import ListNotations.
Open Scope Z_scope.

(** What a column holds, apart from how it is laid out. *)
Inductive value :=
| VNull
| VFixed (b : list Z)                        (* fixed-length type *)
| VVar (compressed : bool) (payload : list Z)  (* varlena, without its header *)
| VToasted (compression raw_size size : Z)   (* kept out of the row *)
| VCString (s : list Z)
| VGarbage.

(** What the bytes of a datum mean for a column of a given type. *)
Definition decode (a : att) (b : list Z) : value :=
  if 0 <? a_len a then VFixed b
  else if a_len a =? -1 then
    match b with
    | h :: p => if h =? 1 then VToasted (nth 1 b 0) (unle (sub b 4 4)) (unle (sub b 8 4))
                else if Z.odd h then VVar false p
                else VVar (h mod 4 =? 2) (skipn 4 b)
    | [] => VGarbage
    end
  else VCString b.

Definition cell_value (a : att) (c : cell) : value :=
  match c with
  | CNull => VNull
  | CVal b => decode a b
  | CToast c r s => VToasted c r s
  end.
Definition res_value (a : att) (r : res) : value :=
  match r with RNull => VNull | RVal b => decode a b | RBeyond => VGarbage end.
Definition default_value (a : att) : value :=
  match a_missing a with Some b => decode a b | None => VNull end.

(** Column types of PostgreSQL. *)
Definition wf_att (a : att) : Prop :=
  (a_align a = 1 \/ a_align a = 2 \/ a_align a = 4 \/ a_align a = 8) /\
  (0 < a_len a \/ (a_len a = -1 /\ a_byval a = false) \/
   (a_len a = -2 /\ a_byval a = false /\ a_align a = 1)).

(** Datums: fixed-length ones have their length; varlenas state theirs in a
    one-byte or a four-byte header; cstrings end with their first zero byte and
    do not start with the byte 1. *)
Definition wf_datum (a : att) (b : list Z) : Prop :=
  bytes b /\
  (0 < a_len a -> Z.of_nat (length b) = a_len a) /\
  (a_len a = -1 ->
     (exists h p, b = h :: p /\ Z.odd h = true /\ h <> 1 /\ Z.of_nat (length b) = h / 2) \/
     (4 <= Z.of_nat (length b) /\ unle (firstn 4 b) / 4 = Z.of_nat (length b) /\
      (nth 0 b 0 mod 4 = 0 \/ nth 0 b 0 mod 4 = 2))) /\
  (a_len a = -2 -> exists s, b = s ++ [0] /\ (forall x, In x s -> x <> 0) /\ hd 0 b <> 1).
Definition wf_cell (a : att) (c : cell) : Prop :=
  match c with
  | CNull => True
  | CVal b => wf_datum a b
  | CToast c r s => a_len a = -1 /\ 0 <= c < 256 /\ 0 <= r < 2 ^ 31 /\ 0 <= s < 2 ^ 31
  end.

(** A row to store: the number of columns the table had then, the row version,
    the row identifier and bridge identifier if the index has these columns, and
    the values. *)
Record row := { w_natts : nat; w_version : Z; w_iptr : option (list Z);
                w_bridge : option bridge; w_values : list cell }.

(** The columns of the row, in order: row identifier, bridge identifier,
    values; in an index of bridge identifiers, the identifier takes the place of
    one of the values. *)
Definition columns (w : row) : list cell :=
  (match w_iptr w with Some t => [CVal t] | None => [] end) ++
  match w_bridge w with
  | Some b =>
      if b_pkey b then CVal (b_iptr b) :: w_values w
      else firstn (Z.to_nat (b_attnum b - 1)) (w_values w) ++
           CVal (b_iptr b) :: skipn (Z.to_nat (b_attnum b)) (w_values w)
  | None => w_values w
  end.

(** Leading columns that hold identifiers; a table has them from its creation. *)
Definition idents (w : row) : nat :=
  ((if w_iptr w then 1 else 0) +
   (match w_bridge w with Some b => if b_pkey b then 1 else 0 | None => 0 end))%nat.

(** Rows as callers form them, for a table whose first [init] columns exist
    since it was created. *)
Definition wf_row (d : list att) (init : Z) (w : row) : Prop :=
  (w_natts w <= length d)%nat /\ 0 <= init <= Z.of_nat (w_natts w) /\ Z.of_nat (w_natts w) < 65536 /\
  0 <= w_version w < 2 ^ 32 /\
  (forall b, w_bridge w = Some b ->
     if b_pkey b then b_attnum b = (if w_iptr w then 2 else 1)
     else w_iptr w = None /\ 1 <= b_attnum b <= Z.of_nat (length (w_values w))) /\
  (forall i, (i < idents w)%nat -> Z.of_nat i < init /\ 0 < a_len (nth i d dflt_att)) /\
  length (columns w) = w_natts w /\
  Forall2 wf_cell (firstn (w_natts w) d) (columns w) /\
  new_tuple_size (firstn (w_natts w) d) (fill_fixed_format_spec (firstn (w_natts w) d) init)
    (w_iptr w) (w_bridge w) (w_version w) (w_values w) < 32768.

(** The tuple stored for the row. *)
Definition stored (d : list att) (init : Z) (w : row) : tuple :=
  let d' := firstn (w_natts w) d in
  form_tuple d' (fill_fixed_format_spec d' init) (w_iptr w) (w_bridge w) (w_version w) (w_values w).

(** The value the row has in column [i] of the table as it is now. *)
Definition expected (d : list att) (w : row) (i : nat) : value :=
  match nth_error (columns w) i with
  | Some c => cell_value (nth i d dflt_att) c
  | None => default_value (nth i d dflt_att)
  end.

(** Reads of rows of the table: of leading columns in order, or of one column.
    [All] lets single reads ask for columns the row does not have. *)
Inductive read_ok (d : list att) (init : Z) (all : bool) : rop -> Prop :=
| RS : forall w n, wf_row d init w -> 0 <= n <= Z.of_nat (length d) ->
    read_ok d init all (OSeq (stored d init w) n)
| RG : forall w i, wf_row d init w -> 0 <= i < Z.of_nat (length d) ->
    (all = true \/ i < Z.of_nat (w_natts w)) ->
    read_ok d init all (OGet (stored d init w) i).
