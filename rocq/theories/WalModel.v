(** Row-level WAL containers: the byte layout the writer of
    src/recovery/wal.c produces, the reader of src/recovery/wal_reader.c,
    the part of the consumers' state that decides which transaction and
    which relation a record belongs to, and the session-local WAL buffer.

    A byte is a [Z]; fixed width fields are stored with memcpy from
    little-endian integers (include/recovery/wal.h:80-243). *)
From Coq Require Import ZArith List Bool Lia.
From Verif Require Import Base.
Import ListNotations.
Open Scope Z_scope.

(* ------------------------------------------------------------------ *)
(** ** Bytes *)

(** memcpy of a [w]-byte unsigned integer, little-endian
    (wal.c:199, 382-386 and every other memcpy of a field). *)
Fixpoint le (w : nat) (v : Z) : list Z :=
  match w with
  | O => []
  | Datatypes.S w' => (v mod 256) :: le w' (v / 256)
  end.

Fixpoint of_le (bs : list Z) : Z :=
  match bs with
  | [] => 0
  | b :: bs' => b + 256 * of_le bs'
  end.

(** Fields laid out one after the other (the packed structs of
    include/recovery/wal.h:80-243, all of whose members are byte arrays). *)
Fixpoint fields (l : list (nat * Z)) : list Z :=
  match l with
  | [] => []
  | (w, v) :: l' => le w v ++ fields l'
  end.

(** Outcome of a reader step: WALPARSE_OK with the value and the remaining
    input, WALPARSE_EOF, WALPARSE_BAD_TYPE (include/recovery/wal_reader.h). *)
Inductive res (A : Type) : Type :=
| Ok (a : A) (rest : list Z)
| Eof
| Bad.
Arguments Ok {A}. Arguments Eof {A}. Arguments Bad {A}.

Definition bind {A B} (x : res A) (f : A -> list Z -> res B) : res B :=
  match x with Ok a r => f a r | Eof => Eof | Bad => Bad end.

(** WR_SKIP over [n] bytes, keeping a view of them
    (include/recovery/wal_reader.h, WR_REQUIRE_SIZE / WR_SKIP). *)
Definition raw (n : nat) (bs : list Z) : res (list Z) :=
  if (length bs <? n)%nat then Eof else Ok (firstn n bs) (skipn n bs).

(** WR_PARSE of one field of [w] bytes. *)
Definition num (w : nat) (bs : list Z) : res Z :=
  bind (raw w bs) (fun b r => Ok (of_le b) r).

(** A sequence of WR_PARSE calls. *)
Fixpoint nums (ws : list nat) (bs : list Z) : res (list Z) :=
  match ws with
  | [] => Ok [] bs
  | w :: ws' => bind (num w bs) (fun v r =>
                bind (nums ws' r) (fun vs r' => Ok (v :: vs) r'))
  end.

(* ------------------------------------------------------------------ *)
(** ** Records (include/recovery/wal_record.h:42-66, wal.h:80-243) *)

Inductive wrec : Type :=
| RXid (oxid lxid hxid : Z)
| RFinish (commit : bool) (xmin csn : Z)
| RRel (ty dat rel node xmin csn cid ver bver spc : Z)
| RMod1 (tag ff : Z) (d : list Z)
| RMod2 (tag ff1 ff2 : Z) (d1 d2 : list Z)
| RLock
| RUnlock (dat rel old new : Z)
| RSave (psub lxid plxid : Z)
| RRbSp (psub xmin csn : Z)
| RJoint (xid xmin csn : Z) (sub : bool)
| RTrunc (dat rel node : Z)
| RBridge (iptr : list Z)
| RFeedback
| RSwitch (top sub : Z)
| RRri (c ix : Z)
| RDbCopy (db src dst : Z)
| RDbCreate (tag src dst : Z)
| RCic (tag dat rel node trel tnode ver : Z).

(** REPLICA_IDENTITY_DEFAULT and REPLICA_IDENTITY_FULL (pg_class.h). *)
Definition rr_default : Z := 100.
Definition rr_full : Z := 102.

(** The bytes the writer appends for one record.
    RXid: add_xid_wal_record wal.c:434-455; RFinish: add_finish_wal_record
    368-403; RRel: add_rel_wal_record 486-528; RMod1, RMod2: add_local_modify
    186-231; RLock: 530-546; RUnlock: 548-568; RSave: 659-680;
    RRbSp: 682-726; RJoint: 405-430; RTrunc: 993-1012; RBridge: 139-179;
    RFeedback: 388-395; RSwitch: 634-657; RRri: 470-484; RDbCopy: 570-589;
    RDbCreate: 591-632; RCic: 1025-1056. *)
Definition enc_rec (r : wrec) : list Z :=
  match r with
  | RXid o l h => 1 :: fields [(8, o); (4, l); (4, h)]%nat
  | RFinish c x n => (if c then 2 else 3) :: fields [(8, x); (8, n)]%nat
  | RRel ty d r n x cs ci v b sp =>
      4 :: fields [(1, ty); (4, d); (4, r); (4, n); (8, x); (8, cs);
                   (4, ci); (4, v); (4, b); (4, sp)]%nat
  | RMod1 t ff d => t :: fields [(1%nat, ff); (2%nat, Z.of_nat (length d))] ++ d
  | RMod2 t f1 f2 d1 d2 =>
      t :: fields [(1%nat, f1); (1%nat, f2); (2%nat, Z.of_nat (length d1));
                   (2%nat, Z.of_nat (length d2))] ++ d1 ++ d2
  | RLock => [8]
  | RUnlock d r o n => 9 :: fields [(4, d); (4, r); (4, o); (4, n)]%nat
  | RSave p l pl => 10 :: fields [(4, p); (4, l); (4, pl)]%nat
  | RRbSp p x n => 11 :: fields [(4, p); (8, x); (8, n)]%nat
  | RJoint xi x n s =>
      12 :: fields [(4, xi); (8, x); (8, n); (1, (if s then 1 else 0)%Z)]%nat
  | RTrunc d r n => 13 :: fields [(4, d); (4, r); (4, n)]%nat
  | RBridge ip => 14 :: ip
  | RFeedback => [16]
  | RSwitch t s => 17 :: fields [(4, t); (4, s)]%nat
  | RRri c i => 18 :: fields [(1, c); (4, i)]%nat
  | RDbCopy a b c => 19 :: fields [(4, a); (4, b); (4, c)]%nat
  | RDbCreate t a b => t :: fields [(4, a); (4, b)]%nat
  | RCic t d r n tr tn v =>
      t :: fields [(4, d); (4, r); (4, n); (4, tr); (4, tn); (4, v)]%nat
  end.

(** wal_parse_rec_modify, wal_reader.c:320-358. *)
Definition parse_modify (rr tag : Z) (bs : list Z) : res wrec :=
  if (tag =? 15) || ((tag =? 6) && (rr =? rr_full))
  then bind (nums [1; 1; 2; 2]%nat bs) (fun l r =>
       match l with
       | [f1; f2; n1; n2] =>
           bind (raw (Z.to_nat n1) r) (fun d1 r1 =>
           bind (raw (Z.to_nat n2) r1) (fun d2 r2 =>
           Ok (RMod2 tag f1 f2 d1 d2) r2))
       | _ => Bad
       end)
  else bind (nums [1; 2]%nat bs) (fun l r =>
       match l with
       | [ff; n] => bind (raw (Z.to_nat n) r) (fun d r1 => Ok (RMod1 tag ff d) r1)
       | _ => Bad
       end).

(** DEFAULTTABLESPACE_OID (catalog/pg_tablespace.dat). *)
Definition default_tablespace : Z := 1663.
(** O_TABLE_INVALID_VERSION (include/catalog/o_tables.h). *)
Definition invalid_version : Z := 4294967295.
(** InvalidOXid (include/orioledb.h). *)
Definition invalid_oxid : Z := 9223372036854775807.

(** The payload parser selected by the record tag, at container version
    [v] and with the reader's current replica identity [rr]:
    the switch of wal_parse_container, wal_reader.c:668-692, and the
    parsers of wal_reader.c:64-384.  The snapshot of a pre-17 relation
    record (o_non_deleted_snapshot) is abstracted to zeros. *)
Definition parse_rec (v rr tag : Z) (bs : list Z) : res wrec :=
  if tag =? 1 then
    if 17 <=? v
    then bind (nums [8; 4; 4]%nat bs) (fun l r =>
         match l with [a; b; c] => Ok (RXid a b c) r | _ => Bad end)
    else bind (nums [8; 4]%nat bs) (fun l r =>
         match l with [a; b] => Ok (RXid a b 0) r | _ => Bad end)
  else if (tag =? 2) || (tag =? 3) then
    bind (nums [8; 8]%nat bs) (fun l r =>
    match l with [a; b] => Ok (RFinish (tag =? 2) a b) r | _ => Bad end)
  else if tag =? 4 then
    bind (nums [1; 4; 4; 4]%nat bs) (fun l r =>
    match l with
    | [ty; d; re; n] =>
        if 17 <=? v then
          bind (nums [8; 8; 4; 4; 4]%nat r) (fun l2 r2 =>
          match l2 with
          | [x; cs; ci; ve; b] =>
              if 19 <=? v
              then bind (num 4 r2) (fun sp r3 => Ok (RRel ty d re n x cs ci ve b sp) r3)
              else Ok (RRel ty d re n x cs ci ve b default_tablespace) r2
          | _ => Bad
          end)
        else Ok (RRel ty d re n 0 0 0 invalid_version invalid_version default_tablespace) r
    | _ => Bad
    end)
  else if (tag =? 5) || (tag =? 6) || (tag =? 7) || (tag =? 15) then
    parse_modify rr tag bs
  else if tag =? 8 then Ok RLock bs
  else if tag =? 9 then
    bind (nums [4; 4; 4; 4]%nat bs) (fun l r =>
    match l with [a; b; c; d] => Ok (RUnlock a b c d) r | _ => Bad end)
  else if tag =? 10 then
    bind (nums [4; 4; 4]%nat bs) (fun l r =>
    match l with [a; b; c] => Ok (RSave a b c) r | _ => Bad end)
  else if tag =? 11 then
    if 17 <=? v
    then bind (nums [4; 8; 8]%nat bs) (fun l r =>
         match l with [a; b; c] => Ok (RRbSp a b c) r | _ => Bad end)
    else bind (nums [4]%nat bs) (fun l r =>
         match l with [a] => Ok (RRbSp a invalid_oxid 0) r | _ => Bad end)
  else if tag =? 12 then
    bind (nums [4; 8; 8]%nat bs) (fun l r =>
    match l with
    | [a; b; c] =>
        if 18 <=? v
        then bind (num 1 r) (fun s r2 => Ok (RJoint a b c (negb (s =? 0))) r2)
        else Ok (RJoint a b c false) r
    | _ => Bad
    end)
  else if tag =? 13 then
    bind (nums [4; 4; 4]%nat bs) (fun l r =>
    match l with [a; b; c] => Ok (RTrunc a b c) r | _ => Bad end)
  else if tag =? 14 then bind (raw 6 bs) (fun ip r => Ok (RBridge ip) r)
  else if tag =? 16 then Ok RFeedback bs
  else if tag =? 17 then
    bind (nums [4; 4]%nat bs) (fun l r =>
    match l with [a; b] => Ok (RSwitch a b) r | _ => Bad end)
  else if tag =? 18 then
    bind (nums [1; 4]%nat bs) (fun l r =>
    match l with [a; b] => Ok (RRri a b) r | _ => Bad end)
  else if tag =? 19 then
    bind (nums [4; 4; 4]%nat bs) (fun l r =>
    match l with [a; b; c] => Ok (RDbCopy a b c) r | _ => Bad end)
  else if (tag =? 20) || (tag =? 21) then
    bind (nums [4; 4]%nat bs) (fun l r =>
    match l with [a; b] => Ok (RDbCreate tag a b) r | _ => Bad end)
  else if (tag =? 22) || (tag =? 23) || (tag =? 24) then
    bind (nums [4; 4; 4; 4; 4; 4]%nat bs) (fun l r =>
    match l with [a; b; c; d; e; f] => Ok (RCic tag a b c d e f) r | _ => Bad end)
  else Bad.

(** The replica identity the reader carries to the next record:
    wal_parse_rec_relreplident (wal_reader.c:182-202) sets it, the consumers
    put it back to the default at a relation record (recovery.c:4805,
    logical.c:979). *)
Definition next_rr (rr : Z) (r : wrec) : Z :=
  match r with
  | RRel _ _ _ _ _ _ _ _ _ _ => rr_default
  | RRri c _ => c
  | _ => rr
  end.

Inductive status : Type := PDone | PEof | PBadType | PBadVersion.

(** The record scan of wal_parse_container, wal_reader.c:645-720.  Every
    record takes at least its tag byte, so the length of the input is
    enough fuel; consumers are assumed to accept every record. *)
Fixpoint parse_body (fuel : nat) (v rr : Z) (bs : list Z) : list wrec * status :=
  match fuel, bs with
  | _, [] => ([], PDone)
  | O, _ :: _ => ([], PEof)
  | Datatypes.S f, tag :: bs' =>
      match parse_rec v rr tag bs' with
      | Ok r rest => let '(rs, st) := parse_body f v (next_rr rr r) rest in (r :: rs, st)
      | Eof => ([], PEof)
      | Bad => ([], PBadType)
      end
  end.

(** Container header: ORIOLEDB_WAL_VERSION (wal.h), the flags byte with
    WAL_CONTAINER_HAS_XACT_INFO = 1 and WAL_CONTAINER_HAS_ORIGIN_INFO = 2,
    the transaction info and the replication origin. *)
Record hdr : Type := mkHdr {
  h_xact : option (Z * Z);     (* xactTime, xid *)
  h_origin : option (Z * Z)    (* origin id, origin lsn *)
}.

Definition wal_version : Z := 19.
Definition first_version : Z := 16.

(** log_logical_wal_container, wal.c:799-843. *)
Definition enc_container (h : hdr) (body : list Z) : list Z :=
  le 2 wal_version
  ++ [ (match h_xact h with Some _ => 1 | None => 0 end)
       + (match h_origin h with Some _ => 2 | None => 0 end) ]
  ++ (match h_xact h with Some (t, x) => fields [(8, t); (4, x)]%nat | None => [] end)
  ++ (match h_origin h with Some (i, l) => fields [(2, i); (8, l)]%nat | None => [] end)
  ++ body.

(** wal_container_read_header (wal_reader.c:462-537, non-development build),
    replay_check_version (recovery.c:4574-4587), wal_container_parse_flags
    (wal_reader.c:549-565) and the scan.  The C code reads the first byte
    of an empty container out of bounds; the model reports EOF. *)
Definition parse_container (bs : list Z) : option hdr * list wrec * status :=
  match bs with
  | [] => (None, [], PEof)
  | b0 :: _ =>
      match (if first_version <=? b0 then num 2 bs else Ok 0 bs) with
      | Ok v r =>
          if v >? wal_version then (None, [], PBadVersion)
          else
          match (if 17 <=? v then num 1 r else Ok 0 r) with
          | Ok fl r1 =>
              match (if Z.testbit fl 0
                     then bind (nums [8; 4]%nat r1) (fun l q =>
                          match l with [t; x] => Ok (Some (t, x)) q | _ => Bad end)
                     else Ok None r1) with
              | Ok xi r2 =>
                  match (if Z.testbit fl 1
                         then bind (nums [2; 8]%nat r2) (fun l q =>
                              match l with [i; n] => Ok (Some (i, n)) q | _ => Bad end)
                         else Ok None r2) with
                  | Ok og r3 =>
                      let '(rs, st) := parse_body (length r3) v rr_default r3 in
                      (Some (mkHdr xi og), rs, st)
                  | _ => (None, [], PEof)
                  end
              | _ => (None, [], PEof)
              end
          | _ => (None, [], PEof)
          end
      | _ => (None, [], PEof)
      end
  end.

(* ------------------------------------------------------------------ *)
(** ** What a consumer attributes a record to *)

(** tree type, database, relation, relnode *)
Definition relid : Type := (Z * Z * Z * Z)%type.

Record event : Type := mkEv {
  ev_oxid : option Z;        (* the transaction it belongs to *)
  ev_rel : option relid;     (* for row changes: the relation ... *)
  ev_rr : Z;                 (* ... and its replica identity *)
  ev_rec : wrec
}.

Record ctx : Type := mkCtx { c_ox : option Z; c_rel : option relid; c_rr : Z }.

Definition ctx0 : ctx := mkCtx None None rr_default.

(** replay_on_record (recovery.c:4644-5200) seen as attribution only: an
    XID record sets the transaction, a relation record the relation and
    the default replica identity, the finish records forget the
    transaction, a CIC record overwrites the reader's relation
    (wal_reader.c:285-301). *)
Definition feed (c : ctx) (r : wrec) : ctx * list event :=
  match r with
  | RXid o _ _ => (mkCtx (Some o) (c_rel c) (c_rr c), [])
  | RRel ty d re n _ _ _ _ _ _ => (mkCtx (c_ox c) (Some (ty, d, re, n)) rr_default, [])
  | RRri ch _ => (mkCtx (c_ox c) (c_rel c) ch, [])
  | RSwitch _ _ | RFeedback => (c, [])
  | RFinish _ _ _ => (mkCtx None (c_rel c) (c_rr c), [mkEv (c_ox c) None rr_default r])
  | RMod1 _ _ _ | RMod2 _ _ _ _ _ => (c, [mkEv (c_ox c) (c_rel c) (c_rr c) r])
  | RBridge _ => (c, [mkEv (c_ox c) (c_rel c) rr_default r])
  | RCic _ _ _ _ _ _ _ =>
      (mkCtx (c_ox c) None (c_rr c), [mkEv (c_ox c) None rr_default r])
  | _ => (c, [mkEv (c_ox c) None rr_default r])
  end.

Fixpoint deliver (c : ctx) (rs : list wrec) : ctx * list event :=
  match rs with
  | [] => (c, [])
  | r :: rs' => let '(c1, e1) := feed c r in
                let '(c2, e2) := deliver c1 rs' in (c2, e1 ++ e2)
  end.

(** Replay of one container: the context starts afresh
    (wal_parse_container, wal_reader.c:596-601). *)
Definition replay_container (bs : list Z) : list event :=
  let '(_, rs, _) := parse_container bs in snd (deliver ctx0 rs).

Definition replay (log : list (list Z)) : list event := flat_map replay_container log.

(* ------------------------------------------------------------------ *)
(** ** The session's local WAL buffer *)

Definition buffer_size : Z := 8192.    (* LOCAL_WAL_BUFFER_SIZE, wal.h *)
Definition max_tuple : Z := 2700.      (* above O_BTREE_MAX_TUPLE_SIZE, btree.h *)
Definition xid_size : Z := 17.         (* sizeof(WALRecXid) *)

(** LocalWal, wal.c:30-48.  [w_rel] = None stands for invalid oids and
    index type.  [w_rr] is ghost: the replica identity written with the
    current relation.  [w_log] is the WAL: the containers inserted so far.
    [w_cur] is the session's current oxid, [w_saved] the stack of
    suspended outer transactions (OAutonomousTxState). *)
Record lw : Type := mkLw {
  w_buf : list Z;
  w_mat : bool;
  w_cx : bool;
  w_csw : bool;
  w_rel : option relid;
  w_rr : Z;
  w_log : list (list Z);
  w_cur : option Z;
  w_saved : list (option Z * bool)
}.

Definition lw0 : lw := mkLw [] false false false None rr_default [] None [].

(** Values read from the rest of the system at the time of a call:
    logical xid, heap xid, run xmin, next csn, command id, commit time,
    replication origin. *)
Record env : Type := mkEnv {
  e_lx : Z; e_hx : Z; e_xmin : Z; e_csn : Z; e_cid : Z; e_time : Z;
  e_origin : option (Z * Z)
}.

Definition put (s : lw) (r : wrec) : lw :=
  mkLw (w_buf s ++ enc_rec r) (w_mat s) (w_cx s) (w_csw s) (w_rel s) (w_rr s)
       (w_log s) (w_cur s) (w_saved s).
Definition set_mat (s : lw) (b : bool) : lw :=
  mkLw (w_buf s) b (w_cx s) (w_csw s) (w_rel s) (w_rr s) (w_log s) (w_cur s) (w_saved s).
Definition set_cx (s : lw) (b : bool) : lw :=
  mkLw (w_buf s) (w_mat s) b (w_csw s) (w_rel s) (w_rr s) (w_log s) (w_cur s) (w_saved s).
Definition set_csw (s : lw) (b : bool) : lw :=
  mkLw (w_buf s) (w_mat s) (w_cx s) b (w_rel s) (w_rr s) (w_log s) (w_cur s) (w_saved s).
Definition set_rel (s : lw) (r : option relid) (rr : Z) : lw :=
  mkLw (w_buf s) (w_mat s) (w_cx s) (w_csw s) r rr (w_log s) (w_cur s) (w_saved s).
Definition set_cur (s : lw) (c : option Z) : lw :=
  mkLw (w_buf s) (w_mat s) (w_cx s) (w_csw s) (w_rel s) (w_rr s) (w_log s) c (w_saved s).
Definition set_saved (s : lw) (l : list (option Z * bool)) : lw :=
  mkLw (w_buf s) (w_mat s) (w_cx s) (w_csw s) (w_rel s) (w_rr s) (w_log s) (w_cur s) l.
(** the early exits of wal_commit and wal_rollback, wal.c:240-246, 301-307 *)
Definition discard (s : lw) : lw :=
  mkLw [] (w_mat s) (w_cx s) (w_csw s) None rr_default (w_log s) (w_cur s) (w_saved s).

(** flush_local_wal, wal.c:747-782, with reset_local_wal_buffer 733-741. *)
Definition flush (s : lw) (e : env) (with_time : bool) : lw :=
  mkLw [] true false false None rr_default
       (w_log s ++ [enc_container
          (mkHdr (if with_time then Some (e_time e, e_hx e) else None) (e_origin e))
          (w_buf s)])
       (w_cur s) (w_saved s).

(** XID_RESERVED_LENGTH, wal.c:50. *)
Definition reserved (s : lw) : Z := if w_cx s then 0 else xid_size.

Definition buf_len (s : lw) : Z := Z.of_nat (length (w_buf s)).

(** flush_local_wal_if_needed, wal.c:784-796. *)
Definition flush_if (s : lw) (e : env) (need : Z) : lw :=
  if buf_len s + need + reserved s >? buffer_size then flush s e false else s.

(** add_xid_wal_record, wal.c:434-455. *)
Definition add_xid (s : lw) (e : env) (o : Z) : lw :=
  put (set_cx s true) (RXid o (e_lx e) (e_hx e)).

(** add_xid_wal_record_if_needed, wal.c:457-468.  The assertion that a
    current oxid exists is a guard of the operations below. *)
Definition add_xid_if (s : lw) (e : env) : lw :=
  if w_cx s then s
  else match w_cur s with Some o => add_xid s e o | None => s end.

Definition size (r : wrec) : Z := Z.of_nat (length (enc_rec r)).

Definition rel_eqb (a b : relid) : bool :=
  let '(t1, d1, r1, n1) := a in let '(t2, d2, r2, n2) := b in
  (t1 =? t2) && (d1 =? d2) && (r1 =? r2) && (n1 =? n2).

(** ORelOidsIsEqual and the index type test (wal.c:117, 129): datoid,
    reloid, relnode and type; the tablespace is not compared. *)
Definition same_rel (s : lw) (r : relid) : bool :=
  match w_rel s with Some r' => rel_eqb r r' | None => false end.

Definition rel_rec (e : env) (r : relid) (ver bver spc : Z) : wrec :=
  let '(t, d, re, n) := r in
  RRel t d re n (e_xmin e) (e_csn e) (e_cid e) ver bver spc.

(** add_modify_wal_record_extended, wal.c:73-136.  [r] is the modify
    record itself, built by o_wal_insert, o_wal_update, o_wal_delete,
    o_wal_reinsert, o_wal_delete_key (wal.c:849-990). *)
Definition add_modify (s : lw) (e : env) (r : wrec) (rl : relid) (rr ver bver spc : Z) : lw :=
  let need := size r + (if same_rel s rl then 0 else 46)
              + (if rr =? rr_default then 0 else 6) in
  let s1 := add_xid_if (flush_if s e need) e in
  let s2 := if same_rel s1 rl then s1
            else let q := set_rel (put s1 (rel_rec e rl ver bver spc)) (Some rl) rr in
                 if rr =? rr_default then q else put q (RRri rr 0) in
  set_mat (put s2 r) true.

(** add_bridge_erase_wal_record, wal.c:138-179. *)
Definition add_bridge (s : lw) (e : env) (ip : list Z) (rl : relid) (ver bver spc : Z) : lw :=
  let need := 7 + (if same_rel s rl then 0 else 46) in
  let s1 := add_xid_if (flush_if s e need) e in
  let s2 := if same_rel s1 rl then s1
            else set_rel (put s1 (rel_rec e rl ver bver spc)) (Some rl) rr_default in
  put s2 (RBridge ip).

(** The common shape of add_o_tables_meta_lock_wal_record (wal.c:530),
    ..._meta_unlock (548), add_database_copy (570), ..._create_copy (591),
    ..._template_checkpoint (611), add_savepoint (659), add_truncate (993). *)
Definition add_plain (s : lw) (e : env) (r : wrec) : lw :=
  put (add_xid_if (flush_if s e (size r)) e) r.

(** add_cic_phase_wal_record, wal.c:1025-1056. *)
Definition add_cic (s : lw) (e : env) (r : wrec) : lw :=
  set_rel (add_plain s e r) None rr_default.

(** add_rollback_to_savepoint_wal_record, wal.c:682-726. *)
Definition add_rb_sp (s : lw) (e : env) (psub : Z) : lw :=
  let r := RRbSp psub (e_xmin e) (e_csn e) in
  let s1 := put (add_xid_if (flush_if (set_cx s false) e (size r)) e) r in
  set_cx (flush s1 e false) false.

(** add_switch_logical_xid_wal_record, wal.c:634-657. *)
Definition add_switch (s : lw) (e : env) (top sub : Z) : lw :=
  if w_csw s then s
  else put (flush_if (set_csw s true) e 9) (RSwitch top sub).

(** add_finish_wal_record, wal.c:367-403.  [fb]: synchronous_commit is at
    least remote_apply. *)
Definition add_finish (s : lw) (e : env) (commit fb : bool) : lw :=
  let s1 := if commit && fb then put s RFeedback else s in
  set_csw (put s1 (RFinish commit (e_xmin e) (e_csn e))) false.

(** wal_commit (wal.c:232-260) and wal_rollback (296-325); [o] is the
    finishing transaction. *)
Definition finish (s : lw) (e : env) (o : Z) (commit fb auto : bool) : lw :=
  if negb (w_mat s) then discard s
  else
    let need := 17 + (if commit && fb then 1 else 0) in
    let s1 := flush_if s e need in
    let s2 := if w_cx s1 then s1 else add_xid s1 e o in
    set_mat (flush (add_finish s2 e commit fb) e (negb auto)) false.

(** wal_joint_commit (wal.c:262-286) with add_joint_commit_wal_record
    (405-430). *)
Definition joint (s : lw) (e : env) (o xid : Z) (sub : bool) : lw :=
  let r := RJoint xid (e_xmin e) (e_csn e) sub in
  let s1 := flush_if s e 22 in
  let s2 := if w_cx s1 then s1 else add_xid s1 e o in
  let s3 := set_csw (put (add_xid_if (flush_if s2 e 22) e) r) false in
  set_mat (flush s3 e false) false.

Inductive op : Type :=
| OBegin (o : Z)                        (* get_current_oxid: a transaction starts writing *)
| OMod (e : env) (r : wrec) (rl : relid) (rr ver bver spc : Z)
| OBridge (e : env) (ip : list Z) (rl : relid) (ver bver spc : Z)
| OPlain (e : env) (r : wrec)
| OCic (e : env) (r : wrec)
| ORbSp (e : env) (psub : Z)
| OSwitch (e : env) (top sub : Z)
| OFinish (e : env) (commit fb : bool)
| OJoint (e : env) (xid : Z) (sub : bool)
| OFlush (e : env)                      (* flush_local_wal(false, false) when not empty *)
| OAutoStart (e : env)
| OAutoEnd (e : env) (commit fb : bool).

Definition byteb (b : Z) : bool := (0 <=? b) && (b <? 256).
Definition rangeb (w v : Z) : bool := (0 <=? v) && (v <? 2 ^ (8 * w)).

Definition env_okb (e : env) : bool :=
  rangeb 4 (e_lx e) && rangeb 4 (e_hx e) && rangeb 8 (e_xmin e) && rangeb 8 (e_csn e)
  && rangeb 4 (e_cid e) && rangeb 8 (e_time e)
  && match e_origin e with Some (i, l) => rangeb 2 i && rangeb 8 l | None => true end.

Definition tuple_okb (d : list Z) : bool :=
  forallb byteb d && (Z.of_nat (length d) <=? max_tuple).

Definition rel_okb (r : relid) : bool :=
  let '(t, d, re, n) := r in rangeb 1 t && rangeb 4 d && rangeb 4 re && rangeb 4 n.

(** The shape the callers of add_modify_wal_record_extended give the
    record: two tuples exactly for REINSERT and for UPDATE under
    REPLICA IDENTITY FULL (wal.c:100-113, 873-968). *)
Definition mod_okb (r : wrec) (rr : Z) : bool :=
  match r with
  | RMod1 t ff d =>
      ((t =? 5) || ((t =? 6) && negb (rr =? rr_full)) || (t =? 7))
      && rangeb 1 ff && tuple_okb d
  | RMod2 t f1 f2 d1 d2 =>
      ((t =? 15) || ((t =? 6) && (rr =? rr_full)))
      && rangeb 1 f1 && rangeb 1 f2 && tuple_okb d1 && tuple_okb d2
  | _ => false
  end.

Definition plain_okb (r : wrec) : bool :=
  match r with
  | RLock => true
  | RUnlock a b c d => rangeb 4 a && rangeb 4 b && rangeb 4 c && rangeb 4 d
  | RSave a b c => rangeb 4 a && rangeb 4 b && rangeb 4 c
  | RTrunc a b c => rangeb 4 a && rangeb 4 b && rangeb 4 c
  | RDbCopy a b c => rangeb 4 a && rangeb 4 b && rangeb 4 c
  | RDbCreate t a b => ((t =? 20) || (t =? 21)) && rangeb 4 a && rangeb 4 b
  | _ => false
  end.

Definition cic_okb (r : wrec) : bool :=
  match r with
  | RCic t a b c d e f =>
      ((t =? 22) || (t =? 23) || (t =? 24)) && rangeb 4 a && rangeb 4 b && rangeb 4 c
      && rangeb 4 d && rangeb 4 e && rangeb 4 f
  | _ => false
  end.

Definition has_cur (s : lw) : bool := match w_cur s with Some _ => true | None => false end.

(** Two changes of one relation between two flushes carry the same replica
    identity: ALTER TABLE ... REPLICA IDENTITY is a utility command and the
    utility hook flushes the buffer first (ddl.c:1059-1060).  The changes
    of a bridge index always use the default (wal.c:973-990). *)
Definition rr_stable (s : lw) (rl : relid) (rr : Z) : bool :=
  if same_rel s rl then w_rr s =? rr else true.

Definition enabled (s : lw) (x : op) : bool :=
  match x with
  | OBegin o => negb (has_cur s) && rangeb 8 o
  | OMod e r rl rr ver bver spc =>
      has_cur s && env_okb e && mod_okb r rr && rel_okb rl && rangeb 1 rr
      && rangeb 4 ver && rangeb 4 bver && rangeb 4 spc && rr_stable s rl rr
  | OBridge e ip rl ver bver spc =>
      env_okb e && forallb byteb ip && (Z.of_nat (length ip) =? 6) && rel_okb rl
      && rangeb 4 ver && rangeb 4 bver && rangeb 4 spc && rr_stable s rl rr_default
  | OPlain e r => has_cur s && env_okb e && plain_okb r
  | OCic e r => has_cur s && env_okb e && cic_okb r
  | ORbSp e p => has_cur s && env_okb e && rangeb 4 p
  | OSwitch e t u => env_okb e && rangeb 4 t && rangeb 4 u
  | OFinish e _ _ => has_cur s && env_okb e
  | OJoint e x _ => has_cur s && env_okb e && rangeb 4 x
  | OFlush e => env_okb e && negb (buf_len s =? 0)
  | OAutoStart e => env_okb e
  | OAutoEnd e _ _ => env_okb e && match w_saved s with [] => false | _ => true end
  end.

Definition exec (s : lw) (x : op) : lw :=
  match x with
  | OBegin o => set_cur s (Some o)
  | OMod e r rl rr ver bver spc => add_modify s e r rl rr ver bver spc
  | OBridge e ip rl ver bver spc => add_bridge s e ip rl ver bver spc
  | OPlain e r => add_plain s e r
  | OCic e r => add_cic s e r
  | ORbSp e p => add_rb_sp s e p
  | OSwitch e t u => add_switch s e t u
  | OFinish e c fb =>
      (* undo_xact_callback, undo.c: XACT_EVENT_COMMIT / ABORT *)
      match w_cur s with
      | Some o => set_cur (finish s e o c fb false) None
      | None => s
      end
  | OJoint e x sub =>
      (* XACT_EVENT_PRE_COMMIT with a heap xid; the session's oxid is
         forgotten when the heap transaction ends *)
      match w_cur s with
      | Some o => if sub then joint s e o x sub else set_cur (joint s e o x sub) None
      | None => s
      end
  | OFlush e => flush s e false
  | OAutoStart e =>
      (* start_autonomous_transaction, undo.c:3110-3134 *)
      let s1 := if buf_len s =? 0 then s else flush s e false in
      set_cur (set_saved s1 ((w_cur s, w_mat s) :: w_saved s)) None
  | OAutoEnd e c fb =>
      (* finish_ / abort_autonomous_transaction, undo.c:3136-3214 *)
      match w_saved s with
      | (o, m) :: rest =>
          let s1 := match w_cur s with
                    | Some a => finish s e a c fb true
                    | None => s
                    end in
          set_saved (set_cur (set_mat s1 m) o) rest
      | [] => s
      end
  end.

Definition step (s : lw) (x : op) : lw := if enabled s x then exec s x else s.
