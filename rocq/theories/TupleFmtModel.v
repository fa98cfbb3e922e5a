(** Model of the row format: src/tuple/format.c and include/tuple/format.h,
    with fillFixedFormatSpec of src/catalog/o_indices.c.

    Memory is a list of bytes.  A tuple is its bytes and its format flag.
    Integers in headers are little-endian ([le], [unle] of PageIoModel).

    Not modelled: expanded objects (flattened before they are stored, so they
    arrive as ordinary values), PostgreSQL's own out-of-line pointers (callers
    fetch them before forming a row, slot.c:1328), the choice of the compression
    method in a toast pointer (the byte is an input). *)
From Verif Require Import Base PageIoModel.
From Coq Require Import ZArith List Bool Lia.
Import ListNotations.
Open Scope Z_scope.

(** One column of a tuple descriptor: attlen (positive, -1 for varlena, -2 for
    cstring), alignment in bytes, attbyval, whether attstorage is other than
    'p' (format.c:28-31), and the default for rows stored before the column was
    added (atthasmissing with getmissingattr; [None] = absent or null). *)
Record att := { a_len : Z; a_align : Z; a_byval : bool; a_pack : bool; a_missing : option (list Z) }.
Definition dflt_att : att := {| a_len := 1; a_align := 1; a_byval := true; a_pack := false; a_missing := None |}.
Definition att_of (d : list att) (i : Z) : att := nth (Z.to_nat i) d dflt_att.

(** What the caller gives for one column: null, a datum (its bytes; a varlena
    with its header, a cstring with its final zero), or a value flagged
    ORIOLEDB_TO_TOAST_ON, of which the row keeps an OToastValue
    (include/tuple/toast.h:54-64). *)
Inductive cell :=
| CNull
| CVal (b : list Z)
| CToast (comp raw toasted : Z).

(** TYPEALIGN, att_align_nominal. *)
Definition align (a x : Z) : Z := (x + a - 1) / a * a.
Definition MAXALIGN (x : Z) : Z := align 8 x.
(** BITMAPLEN. *)
Definition BITMAPLEN (n : Z) : Z := (n + 7) / 8.
(** SizeOfOTupleHeader, format.h:30-47: two uint16 and a uint32. *)
Definition HSZ : Z := 8.
(** sizeof(OToastValue): two uint8, two bytes of padding, two int32. *)
Definition TOASTSZ : Z := 12.

Definition byte (m : list Z) (i : Z) : Z := nth (Z.to_nat i) m 0.
Definition zlen (l : list Z) : Z := Z.of_nat (length l).
Definition zeros (n : Z) : list Z := repeat 0 (Z.to_nat n).
Definition iota (n : Z) : list Z := map Z.of_nat (seq 0 (Z.to_nat n)).

(** ** Varlena headers, little-endian (PostgreSQL's varatt.h) *)
(** VARATT_IS_1B *)
Definition is_1b (m : list Z) (p : Z) : bool := Z.odd (byte m p).
(** IS_TOAST_POINTER, include/tuple/toast.h: the byte 0x01. *)
Definition is_toast_pointer (m : list Z) (p : Z) : bool := byte m p =? 1.
(** VARATT_IS_4B_U *)
Definition is_4b_u (m : list Z) (p : Z) : bool := Z.land (byte m p) 3 =? 0.
(** VARSIZE_4B, VARSIZE_1B *)
Definition varsize_4b (m : list Z) (p : Z) : Z := Z.land (Z.shiftr (unle (sub m p 4)) 2) 1073741823.
Definition varsize_1b (m : list Z) (p : Z) : Z := Z.land (Z.shiftr (byte m p) 1) 127.
(** VARSIZE_ANY, without PostgreSQL's out-of-line pointers. *)
Definition varsize_any (m : list Z) (p : Z) : Z := if is_1b m p then varsize_1b m p else varsize_4b m p.
(** strlen *)
Fixpoint strlen (l : list Z) : Z :=
  match l with [] => 0 | c :: r => if c =? 0 then 0 else 1 + strlen r end.
(** VARATT_CAN_MAKE_SHORT, VARATT_CONVERTED_SHORT_SIZE *)
Definition can_make_short (b : list Z) : bool := is_4b_u b 0 && (varsize_4b b 0 - 4 + 1 <=? 127).
Definition converted_short_size (b : list Z) : Z := varsize_4b b 0 - 4 + 1.
(** ATT_IS_PACKABLE, format.c:26-31 *)
Definition packable (a : att) : bool := (a_len a =? -1) && a_pack a.

(** OTupleFixedFormatSpec *)
Record fspec := { sp_natts : Z; sp_len : Z }.

(** fillFixedFormatSpec, o_indices.c:1168-1191; [n] is primary_init_nfields, or
    the number of columns when that is absent. *)
Fixpoint ffs_loop (d : list att) (n : nat) (i len : Z) : fspec :=
  match n, d with
  | S n', a :: r => if a_len a <=? 0 then {| sp_natts := i; sp_len := len |}
                    else ffs_loop r n' (i + 1) (align (a_align a) len + a_len a)
  | _, _ => {| sp_natts := i; sp_len := len |}
  end.
Definition fill_fixed_format_spec (d : list att) (n : Z) : fspec := ffs_loop d (Z.to_nat n) 0 0.

(** ** Forming *)

(** BridgeData, format.h:49-55. *)
Record bridge := { b_pkey : bool; b_iptr : list Z; b_attnum : Z }.
Definition has_bridge_ctid (b : option bridge) : bool :=
  match b with Some b => negb (b_attnum b =? 0) | None => false end.

(** ctid_off as computed for the size (format.c:433-439, 507-513) and for the
    fill (format.c:569-572). *)
Definition ctid_off_size (iptr : option (list Z)) (b : option bridge) : Z :=
  (if iptr then 1 else 0) +
  (match b with Some b' => if has_bridge_ctid b && b_pkey b' then 1 else 0 | None => 0 end).
Definition ctid_off_fill (iptr : option (list Z)) (b : option bridge) : Z :=
  (if iptr then 1 else 0) + (match b with Some b' => if b_pkey b' then 1 else 0 | None => 0 end).

Definition cell_at (values : list cell) (i : Z) : cell := nth (Z.to_nat i) values CNull.
Definition is_null (c : cell) : bool := match c with CNull => true | _ => false end.

(** The value of column [i]: format.c:447-465 and 620-640. *)
Definition col (iptr : option (list Z)) (b : option bridge) (off : Z) (values : list cell) (i : Z) : cell :=
  match iptr, b with
  | Some t, _ => if i =? 0 then CVal t else
                 match b with
                 | Some b' => if has_bridge_ctid b && (i =? b_attnum b' - 1) then CVal (b_iptr b')
                              else cell_at values (i - off)
                 | None => cell_at values (i - off)
                 end
  | None, Some b' => if has_bridge_ctid b && (i =? b_attnum b' - 1) then CVal (b_iptr b')
                     else cell_at values (i - off)
  | None, None => cell_at values (i - off)
  end.

(** Loop "Check for nulls", format.c:518-529 and 577-588: (hasnull, fixedFormat). *)
Definition check_nulls (sp : fspec) (off natts : Z) (values : list cell) (version : Z) : bool * bool :=
  fold_left (fun (r : bool * bool) i =>
               let '(hn, ff) := r in
               if i <? off then r
               else if is_null (cell_at values (i - off)) then (true, false)
               else if sp_natts sp <=? i then (hn, false) else (hn, ff))
            (iota natts) (false, version =? 0).

(** o_tuple_compute_data_size, format.c:424-495, one column. *)
Definition data_size_step (len : Z) (ac : att * cell) : Z :=
  let '(a, c) := ac in
  match c with
  | CToast _ _ _ => len + TOASTSZ
  | CNull => len
  | CVal b =>
      if packable a && can_make_short b then len + converted_short_size b
      else
        (* att_align_datum, att_addlength_datum *)
        let len := if (a_len a =? -1) && is_1b b 0 then len else align (a_align a) len in
        if a_len a >? 0 then len + a_len a
        else if a_len a =? -1 then len + varsize_any b 0
        else len + strlen b + 1
  end.
Definition compute_data_size (cols : list (att * cell)) : Z := fold_left data_size_step cols 0.

(** o_new_tuple_size, format.c:497-545. *)
Definition new_tuple_size (d : list att) (sp : fspec) (iptr : option (list Z)) (b : option bridge)
  (version : Z) (values : list cell) : Z :=
  let off := ctid_off_size iptr b in
  let natts := Z.of_nat (length d) in
  let '(hn, ff) := check_nulls sp off natts values version in
  let cols n := map (fun i => (att_of d i, col iptr b off values i)) (iota n) in
  if negb ff then HSZ + (if hn then MAXALIGN (BITMAPLEN natts) else 0) + compute_data_size (cols natts)
  else compute_data_size (cols (sp_natts sp)).

(** OTupleHeaderData, format.h:32-38. *)
Definition header (hasnulls : bool) (len natts version : Z) : list Z :=
  le 2 ((if hasnulls then 1 else 0) + 2 * len) ++ le 2 natts ++ le 4 version.
Definition h_hasnulls (m : list Z) : bool := Z.odd (unle (sub m 0 2)).
Definition h_len (m : list Z) : Z := unle (sub m 0 2) / 2.
Definition h_natts (m : list Z) : Z := unle (sub m 2 2).
Definition h_version (m : list Z) : Z := unle (sub m 4 4).

(** The null bitmap as o_tuple_fill writes it, format.c:599-604, 676-692: [mask]
    is bitmask, [cur] the byte under bitP, bytes already left behind are emitted.
    The first emitted byte is the one before the bitmap (bitP starts at
    SizeOfOTupleHeader - 1) and is not part of it. *)
Fixpoint fill_bits (mask cur : Z) (nulls : list bool) : list Z :=
  match nulls with
  | [] => [cur]
  | n :: r =>
      if negb (mask =? 128) then fill_bits (2 * mask) (if n then cur else Z.lor cur (2 * mask)) r
      else cur :: fill_bits 1 (if n then 0 else 1) r
  end.

(** One column written at the end of the bytes [m] produced so far,
    format.c:642-792.  Memory is zeroed beforehand, which supplies the padding. *)
Definition put_aligned (a : Z) (m b : list Z) : list Z := m ++ zeros (align a (zlen m) - zlen m) ++ b.
Definition toast_value (c r s : Z) : list Z := [1; c; 0; 0] ++ le 4 r ++ le 4 s.
Definition fill_step (m : list Z) (ac : att * cell) : list Z :=
  let '(a, c) := ac in
  match c with
  | CNull => m
  | CToast c r s => m ++ toast_value c r s
  | CVal b =>
      if a_byval a then put_aligned (a_align a) m (firstn (Z.to_nat (a_len a)) b)
      else if a_len a =? -1 then
        if is_1b b 0 then m ++ firstn (Z.to_nat (varsize_1b b 0)) b
        else if a_pack a && can_make_short b then
          let n := converted_short_size b in
          m ++ (2 * n + 1) :: firstn (Z.to_nat (n - 1)) (skipn 4 b)
        else put_aligned (a_align a) m (firstn (Z.to_nat (varsize_4b b 0)) b)
      else if a_len a =? -2 then m ++ firstn (Z.to_nat (strlen b + 1)) b
      else put_aligned (a_align a) m (firstn (Z.to_nat (a_len a)) b)
  end.

Record tuple := { t_fixed : bool; t_data : list Z }.

(** o_tuple_fill, format.c:550-796. *)
Definition tuple_fill (d : list att) (sp : fspec) (size : Z) (iptr : option (list Z)) (b : option bridge)
  (version : Z) (values : list cell) : tuple :=
  let off := ctid_off_fill iptr b in
  let natts := Z.of_nat (length d) in
  let '(hn, ff) := check_nulls sp off natts values version in
  let cols n := map (fun i => (att_of d i, col iptr b off values i)) (iota n) in
  if negb ff then
    let bm := if hn then tl (fill_bits 128 0 (map (fun ac => is_null (snd ac)) (cols natts))) else [] in
    let pad := if hn then zeros (MAXALIGN (BITMAPLEN natts) - zlen bm) else [] in
    {| t_fixed := false;
       t_data := fold_left fill_step (cols natts) (header hn size natts version ++ bm ++ pad) |}
  else {| t_fixed := true; t_data := fold_left fill_step (cols (sp_natts sp)) [] |}.

(** o_form_tuple, format.c:798-810, and the forming of rows from slots,
    slot.c:1541-1584, 1588-1640: the size first, then the fill. *)
Definition form_tuple (d : list att) (sp : fspec) (iptr : option (list Z)) (b : option bridge)
  (version : Z) (values : list cell) : tuple :=
  tuple_fill d sp (new_tuple_size d sp iptr b version values) iptr b version values.

(** o_tuple_size, format.h:185-195. *)
Definition tuple_size (sp : fspec) (t : tuple) : Z := if t_fixed t then sp_len sp else h_len (t_data t).

(** o_tuple_get_version, format.c:813-820. *)
Definition get_version (t : tuple) : Z := if t_fixed t then 0 else h_version (t_data t).

(** o_tuple_set_version, format.c:822-854. *)
Definition set_version (sp : fspec) (t : tuple) (version : Z) : tuple :=
  let m := t_data t in
  if negb (t_fixed t) then
    let m' := firstn 4 m ++ le 4 version ++ skipn 8 m in
    if (h_version m' =? 0) && negb (h_hasnulls m') && (h_natts m' =? sp_natts sp)
    then {| t_fixed := true; t_data := sub m' HSZ (sp_len sp) |}
    else {| t_fixed := false; t_data := m' |}
  else if version =? 0 then t
  else {| t_fixed := false;
          t_data := header false (HSZ + sp_len sp) (sp_natts sp) version ++ firstn (Z.to_nat (sp_len sp)) m |}.

(** ** Reading *)

(** attcacheoff of every column of the shared descriptor; -1 = not known. *)
Definition cache := Z -> Z.
Definition empty_cache : cache := fun _ => -1.

(** OTupleReaderState, format.h:19-30. *)
Record reader := { r_tp : Z; r_off : Z; r_attnum : Z; r_natts : Z; r_hasnulls : bool; r_slow : bool }.

(** att_isnull on the bitmap after the header. *)
Definition att_isnull (m : list Z) (i : Z) : bool :=
  Z.land (byte m (HSZ + Z.shiftr i 3)) (Z.shiftl 1 (Z.land i 7)) =? 0.

(** o_tuple_init_reader, format.c:34-66. *)
Definition init_reader (t : tuple) (sp : fspec) : reader :=
  let m := t_data t in
  if t_fixed t then
    {| r_tp := 0; r_off := 0; r_attnum := 0; r_natts := sp_natts sp; r_hasnulls := false; r_slow := false |}
  else if h_hasnulls m then
    {| r_tp := HSZ + MAXALIGN (BITMAPLEN (h_natts m)); r_off := 0; r_attnum := 0; r_natts := h_natts m;
       r_hasnulls := true; r_slow := false |}
  else
    {| r_tp := HSZ; r_off := 0; r_attnum := 0; r_natts := h_natts m; r_hasnulls := false; r_slow := false |}.

(** att_align_pointer for a varlena: a non-zero byte is not padding. *)
Definition align_pointer (a : att) (off : Z) (m : list Z) (p : Z) : Z :=
  if negb (byte m p =? 0) then off else align (a_align a) off.

(** att_addlength_pointer. *)
Definition addlength_pointer (a : att) (off : Z) (m : list Z) (p : Z) : Z :=
  if a_len a >? 0 then off + a_len a
  else if a_len a =? -1 then off + varsize_any m p
  else off + strlen (skipn (Z.to_nat p) m) + 1.

(** o_tuple_next_field_offset, format.c:68-97: where the field starts, the slow
    flag and the descriptor's cache after that. *)
Definition field_start (m : list Z) (ca : cache) (r : reader) (a : att) : Z * bool * cache :=
  let i := r_attnum r in
  if negb (r_slow r) && (0 <=? ca i) then (ca i, r_slow r, ca)
  else if a_len a =? -1 then
    if negb (r_slow r) && (r_off r =? align (a_align a) (r_off r)) then (r_off r, r_slow r, upd ca i (r_off r))
    else (align_pointer a (r_off r) m (r_tp r + r_off r), true, ca)
  else
    (align (a_align a) (r_off r), r_slow r,
     if negb (r_slow r) then upd ca i (align (a_align a) (r_off r)) else ca).

(** o_tuple_next_field_offset, format.c:68-118: the offset of the field, the
    reader after it, and the descriptor's cache after it. *)
Definition next_field_offset (m : list Z) (ca : cache) (r : reader) (a : att) : Z * reader * cache :=
  let i := r_attnum r in
  let '(off, slow, ca) := field_start m ca r a in
  let p := r_tp r + off in
  let off' := if negb (a_byval a) && (a_len a <? 0) && is_toast_pointer m p then off + TOASTSZ
              else addlength_pointer a off m p in
  (off, {| r_tp := r_tp r; r_off := off'; r_attnum := i + 1; r_natts := r_natts r;
           r_hasnulls := r_hasnulls r; r_slow := if a_len a <=? 0 then true else slow |}, ca).

(** What a reader hands out: null, the bytes of the datum it points to (fetchatt
    and the size the datum itself states), or a pointer to bytes outside the
    tuple. *)
Inductive res := RNull | RVal (b : list Z) | RBeyond.
Definition fetch (a : att) (m : list Z) (p : Z) : res :=
  let n := if negb (a_byval a) && (a_len a <? 0) && is_toast_pointer m p then TOASTSZ
           else addlength_pointer a 0 m p in
  if (0 <=? p) && (p <? zlen m) && (p + n <=? zlen m) then RVal (sub m p n) else RBeyond.

(** o_tuple_read_next_field, format.c:120-155. *)
Definition skip_field (r : reader) (slow : bool) : reader :=
  {| r_tp := r_tp r; r_off := r_off r; r_attnum := r_attnum r + 1; r_natts := r_natts r;
     r_hasnulls := r_hasnulls r; r_slow := slow |}.
Definition read_next_field (d : list att) (m : list Z) (ca : cache) (r : reader) : res * reader * cache :=
  let a := att_of d (r_attnum r) in
  if r_natts r <=? r_attnum r then
    match a_missing a with
    | Some b => (RVal b, skip_field r (r_slow r), ca)
    | None => (RNull, skip_field r (r_slow r), ca)
    end
  else if r_hasnulls r && att_isnull m (r_attnum r) then (RNull, skip_field r true, ca)
  else
    let '(off, r', ca') := next_field_offset m ca r a in
    (fetch a m (r_tp r + off), r', ca').

(** Reading the first [n] columns in order, as the slot does. *)
Fixpoint read_fields (d : list att) (m : list Z) (n : nat) (ca : cache) (r : reader) : list res * reader * cache :=
  match n with
  | O => ([], r, ca)
  | S n' =>
      let '(v, r', ca') := read_next_field d m ca r in
      let '(vs, r'', ca'') := read_fields d m n' ca' r' in
      (v :: vs, r'', ca'')
  end.
Definition read_seq (d : list att) (sp : fspec) (ca : cache) (t : tuple) (n : Z) : list res * cache :=
  let '(vs, _, ca') := read_fields d (t_data t) (Z.to_nat n) ca (init_reader t sp) in (vs, ca').

(** o_toast_nocachegetattr, format.c:303-395; [i] is attnum - 1. *)
Definition nocachegetattr (d : list att) (sp : fspec) (ca : cache) (t : tuple) (i : Z) : res * cache :=
  let m := t_data t in
  let a := att_of d i in
  let byt := Z.shiftr i 3 in
  let slow :=
    if t_fixed t then false
    else if h_hasnulls m then
      if negb (Z.land (Z.lnot (byte m (HSZ + byt))) (Z.shiftl 1 (Z.land i 7) - 1) =? 0) then true
      else existsb (fun k => negb (byte m (HSZ + k) =? 255)) (iota byt)
    else false in
  let tp := if t_fixed t then 0
            else if h_hasnulls m then HSZ + MAXALIGN (BITMAPLEN (h_natts m)) else HSZ in
  if negb slow && (0 <=? ca i) then (fetch a m (tp + ca i), ca)
  else
    let '(vs, ca') := read_seq d sp ca t (i + 1) in (last vs RNull, ca').

(** o_fastgetattr, format.h:87-135; [i] is attnum - 1. *)
Definition fastgetattr (d : list att) (sp : fspec) (ca : cache) (t : tuple) (i : Z) : res * cache :=
  let m := t_data t in
  let a := att_of d i in
  if t_fixed t then
    if i <? sp_natts sp then
      if 0 <=? ca i then (fetch a m (ca i), ca) else nocachegetattr d sp ca t i
    else (RNull, ca)
  else if negb (h_hasnulls m) then
    if 0 <=? ca i then (fetch a m (HSZ + ca i), ca) else nocachegetattr d sp ca t i
  else if att_isnull m i then (RNull, ca) else nocachegetattr d sp ca t i.

(** o_tuple_get_last_iptr, format.c:180-212. *)
Definition get_last_iptr (d : list att) (sp : fspec) (t : tuple) : res :=
  let m := t_data t in
  let n := Z.of_nat (length d) in
  if negb (t_fixed t) then
    if h_hasnulls m && att_isnull m (n - 1) then RNull else RVal (sub m (h_len m - 6) 6)
  else if sp_natts sp <? n then RNull else RVal (sub m (sp_len sp - 6) 6).

(** ** Use of one descriptor by many reads *)
Inductive rop :=
| OSeq (t : tuple) (n : Z)     (* read the first n columns in order *)
| OGet (t : tuple) (i : Z).    (* read column i (from 0) alone *)

Definition rstep (d : list att) (sp : fspec) (ca : cache) (o : rop) : cache :=
  match o with
  | OSeq t n => snd (read_seq d sp ca t n)
  | OGet t i => snd (fastgetattr d sp ca t i)
  end.
