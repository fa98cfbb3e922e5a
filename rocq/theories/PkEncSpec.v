(** What bitmap keys promise (property C43): SQL values and their order, independent of the encoding. *)
From Coq Require Import ZArith List Bool.
From Verif Require Import Base PkEncModel.
Import ListNotations.
Open Scope Z_scope.

(** memcmp *)
Fixpoint memcmp (a b : list Z) : comparison :=
  match a, b with
  | [], [] => Eq | [], _ => Lt | _, [] => Gt
  | x :: a, y :: b => match x ?= y with Eq => memcmp a b | c => c end
  end.
Definition bytes (l : list Z) : Prop := Forall (fun b => 0 <= b < 256) l.

(** The magnitude of an IEEE 754 number with [m] mantissa bits in units of the smallest
    subnormal, from its bits without the sign: subnormals are the mantissa itself, a
    normal number with exponent field [e] is (2^m + mantissa) * 2^(e-1); infinity comes out above every finite number. *)
Definition magnitude (m b : Z) : Z :=
  let e := b / 2 ^ m in let f := b mod 2 ^ m in if e =? 0 then f else (2 ^ m + f) * 2 ^ (e - 1).
Definition sign_bit (w : nat) (b : Z) : bool := 2 ^ (bits w - 1) <=? b.
Definition float_value (w : nat) (b : Z) : Z :=
  if sign_bit w b then - magnitude (mant w) (b - 2 ^ (bits w - 1)) else magnitude (mant w) b.
(** Exponent all ones and mantissa not zero. *)
Definition nan (w : nat) (b : Z) : bool :=
  let a := b mod 2 ^ (bits w - 1) in (a / 2 ^ mant w =? 2 ^ (bits w - 1 - mant w) - 1) && negb (a mod 2 ^ mant w =? 0).

(** The values of each type. *)
Definition valid (t : typ) (v : datum) : Prop :=
  match t, v with
  | TBool, DZ z => 0 <= z <= 1
  | TChar, DZ z => 0 <= z < 256
  | TInt2, DZ z => - 2 ^ 15 <= z < 2 ^ 15
  | (TInt4 | TDate), DZ z => - 2 ^ 31 <= z < 2 ^ 31
  | (TInt8 | TTime | TTimestamp | TTimestamptz | TMoney), DZ z => - 2 ^ 63 <= z < 2 ^ 63
  | (TOid | TFloat4), DZ z => 0 <= z < 2 ^ 32
  | TFloat8, DZ z => 0 <= z < 2 ^ 64
  | TMacaddr, DB l => length l = 6%nat /\ bytes l
  | TMacaddr8, DB l => length l = 8%nat /\ bytes l
  | TUuid, DB l => length l = 16%nat /\ bytes l
  | _, _ => False
  end.
(** Their order in the default btree operator class: floats by value with all NaNs equal and last,
    addresses and uuids bytewise, everything else as integers. *)
Definition cmp_float (w : nat) (a b : Z) : comparison :=
  match nan w a, nan w b with
  | true, true => Eq | true, false => Gt | false, true => Lt
  | false, false => float_value w a ?= float_value w b
  end.
Definition cmp_val (t : typ) (a b : datum) : comparison :=
  match a, b with
  | DZ x, DZ y => match t with TFloat4 => cmp_float 4 x y | TFloat8 => cmp_float 8 x y | _ => x ?= y end
  | DB x, DB y => memcmp x y
  | _, _ => Eq
  end.
(** Composite keys compare column by column. *)
Fixpoint cmp_key (ts : list typ) (a b : list datum) : comparison :=
  match ts, a, b with
  | t :: ts, x :: a, y :: b => match cmp_val t x y with Eq => cmp_key ts a b | c => c end
  | _, _, _ => Eq
  end.
Fixpoint valid_key (ts : list typ) (vs : list datum) : Prop :=
  match ts, vs with [], [] => True | t :: ts, v :: vs => valid t v /\ valid_key ts vs | _, _ => False end.

(** One-column keys. *)
Definition valid_one (t : one) (v : oval) : Prop :=
  match t, v with
  | I4, VInt z => - 2 ^ 31 <= z < 2 ^ 31
  | I8, VInt z => - 2 ^ 63 <= z < 2 ^ 63
  | TID, VTid blk off => 0 <= blk < 2 ^ 32 /\ 0 <= off < 2 ^ 16
  | _, _ => False
  end.
Definition cmp_one (a b : oval) : comparison :=
  match a, b with
  | VInt x, VInt y => x ?= y
  | VTid b1 o1, VTid b2 o2 => match b1 ?= b2 with Eq => o1 ?= o2 | c => c end
  | _, _ => Eq
  end.
