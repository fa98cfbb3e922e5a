(** Model of how primary keys become bitmap-scan keys: src/tableam/bitmap_scan.c:150-690. *)
From Coq Require Import ZArith List Bool.
From Verif Require Import Base.
Import ListNotations.
Open Scope Z_scope.

(** ** One-column keys of type int4, int8 or tid: 150-215 *)

(** C conversions of a 64-bit value. *)
Definition u64 (z : Z) : Z := z mod 2 ^ 64.
Definition s64 (z : Z) : Z := let u := z mod 2 ^ 64 in if u <? 2 ^ 63 then u else u - 2 ^ 64.
Definition s32 (z : Z) : Z := let u := z mod 2 ^ 32 in if u <? 2 ^ 31 then u else u - 2 ^ 32.
Definition HIGH : Z := 2 ^ 63.                                             (* UINT64_HIGH_BIT 150 *)
(** int64_to_uint64 152-159.  Signed arithmetic wraps (PostgreSQL is compiled with -fwrapv). *)
Definition int64_to_uint64 (v : Z) : Z := if 0 <=? v then Z.lor (u64 v) HIGH else u64 (HIGH - u64 (s64 (- v))).
(** uint64_to_int64 161-168 *)
Definition uint64_to_int64 (v : Z) : Z := if negb (Z.land v HIGH =? 0) then s64 (Z.land v (Z.ones 64 - HIGH)) else s64 (- s64 (u64 (HIGH - v))).

Inductive one := I4 | I8 | TID.
(** A value of a one-column key: an integer, or block and offset of an item pointer. *)
Inductive oval := VInt (z : Z) | VTid (blk off : Z).
(** val_get_uint64 170-188.  ItemPointerGetBlockNumberNoCheck returns a uint32, so the shift
    and the sum are computed in 32 bits before they are widened. *)
Definition val_get_uint64 (v : oval) : Z :=
  match v with VInt z => int64_to_uint64 z | VTid blk off => (Z.shiftl blk 16 mod 2 ^ 32 + off) mod 2 ^ 32 end.
(** uint64_get_val 190-212 *)
Definition uint64_get_val (u : Z) (t : one) : oval :=
  match t with
  | I4 => VInt (s32 (uint64_to_int64 u))
  | I8 => VInt (uint64_to_int64 u)
  | TID => VTid (Z.shiftr u 16 mod 2 ^ 32) (Z.land u 0xFFFF)
  end.

(** ** Fixed-size columns: 258-560 *)
Inductive kind := SINT | UINT | FLOAT | RAW.
Inductive typ := TBool | TChar | TInt2 | TInt4 | TDate | TOid | TFloat4 | TInt8 | TTime | TTimestamp | TTimestamptz | TMoney | TFloat8
  | TMacaddr | TMacaddr8 | TUuid.
(** o_pk_fixed_types 288-306 *)
Definition fixed (t : typ) : nat * kind :=
  match t with
  | TBool => (1, UINT) | TChar => (1, UINT) | TInt2 => (2, SINT) | TInt4 => (4, SINT) | TDate => (4, SINT) | TOid => (4, UINT)
  | TFloat4 => (4, FLOAT) | TInt8 => (8, SINT) | TTime => (8, SINT) | TTimestamp => (8, SINT) | TTimestamptz => (8, SINT) | TMoney => (8, SINT)
  | TFloat8 => (8, FLOAT) | TMacaddr => (6, RAW) | TMacaddr8 => (8, RAW) | TUuid => (16, RAW)
  end%nat.
Definition width (t : typ) : nat := fst (fixed t).
Definition bits (w : nat) : Z := 8 * Z.of_nat w.

(** A datum: an integer (for floats, the bit pattern; for bool and "char", the byte), or the
    bytes of a by-reference value. *)
Inductive datum := DZ (z : Z) | DB (l : list Z).

(** isnan, and the canonical NaN patterns 404-405 *)
Definition mant (w : nat) : Z := if Nat.eqb w 4 then 23 else 52.
Definition isnan (w : nat) (b : Z) : bool := 2 ^ (bits w - 1) - 2 ^ mant w <? b mod 2 ^ (bits w - 1).
Definition NANBITS (w : nat) : Z := if Nat.eqb w 4 then 0x7fc00000 else 0x7ff8000000000000.
Definition SIGNBIT (w : nat) : Z := 2 ^ (bits w - 1).

(** 499-503: big-endian bytes *)
Fixpoint be (n : nat) (u : Z) : list Z := match n with O => [] | Datatypes.S n => be n (Z.shiftr u 8) ++ [u mod 256] end.
Definition float_norm (w : nat) (b : Z) : Z :=
  if isnan w b then NANBITS w else if Z.land b (Z.ones (bits w - 1)) =? 0 then 0 else b.
(** o_pk_encode_one 409-504 *)
Definition encode_one (t : typ) (v : datum) : list Z :=
  let '(w, k) := fixed t in
  match k, v with
  | RAW, DB l => firstn w l
  | UINT, DZ z => be w (z mod 2 ^ bits w)
  | SINT, DZ z => be w (Z.lxor (z mod 2 ^ bits w) (SIGNBIT w))
  | FLOAT, DZ b => let n := float_norm w b in be w (Z.lxor n (if negb (Z.land n (SIGNBIT w) =? 0) then Z.ones (bits w) else SIGNBIT w))
  | _, _ => []
  end.
(** o_pk_decode_one 506-578; second component: the width consumed *)
Definition signed (w : nat) (u : Z) : Z := if u <? 2 ^ (bits w - 1) then u else u - 2 ^ bits w.
Definition decode_one (inp : list Z) (t : typ) : datum * nat :=
  let '(w, k) := fixed t in
  let u := fold_left (fun u b => Z.lor (Z.shiftl u 8) b) (firstn w inp) 0 in
  (match k with
   | RAW => DB (firstn w inp)
   | UINT => DZ u
   | SINT => DZ (signed w (Z.lxor u (SIGNBIT w)))
   | FLOAT => DZ (Z.lxor u (if negb (Z.land u (SIGNBIT w) =? 0) then SIGNBIT w else Z.ones (bits w)))
   end, w).

(** ** Composite keys: 580-690.  [cols] are the key columns of the primary index in order. *)
Definition FIXED_BYTES : nat := 24.                                          (* bitmap_scan.h:62 *)
Definition key_len (ts : list typ) : nat := fold_right (fun t n => (width t + n)%nat) O ts.
Fixpoint encode_cols (ts : list typ) (vs : list datum) : list Z :=
  match ts, vs with t :: ts, v :: vs => encode_one t v ++ encode_cols ts vs | _, _ => [] end.
(** o_pk_encode_leaf / o_pk_encode_nonleaf 585-646: zero padded, right aligned *)
Definition encode_key (ts : list typ) (vs : list datum) : list Z := repeat 0 (FIXED_BYTES - key_len ts) ++ encode_cols ts vs.
(** o_pk_decode_to_key 648-700 (the values; forming the tuple is o_form_tuple) *)
Fixpoint decode_cols (inp : list Z) (ts : list typ) : list datum :=
  match ts with [] => [] | t :: ts => let '(v, w) := decode_one inp t in v :: decode_cols (skipn w inp) ts end.
Definition decode_key (k : list Z) (ts : list typ) : list datum := decode_cols (skipn (FIXED_BYTES - key_len ts) k) ts.
(** o_keybitmap_pk_mode 360-388: eligibility by total length; all columns ascending *)
Definition eligible (ts : list typ) : bool := negb (Nat.eqb (key_len ts) 0) && Nat.leb (key_len ts) FIXED_BYTES.

(** 1899-1915: the smallest key strictly greater than [k]; None if there is none *)
Fixpoint incr_be (r : list Z) : option (list Z) :=     (* least significant byte first *)
  match r with [] => None | b :: r => if b =? 255 then match incr_be r with Some r' => Some (0 :: r') | None => None end else Some ((b + 1) :: r) end.
Definition next_key (k : list Z) : option (list Z) := match incr_be (rev k) with Some r => Some (rev r) | None => None end.
