(** What a user expects of pages and of the control file on disk. *)
From Coq Require Import ZArith List Bool.
From Verif Require Import Base PageIoModel.
Import ListNotations.
Open Scope Z_scope.

(** A page of the pool: 8192 bytes. *)
Definition is_page (p : list Z) : Prop := Z.of_nat (length p) = 8192.

(** The page that a reader must get: the same bytes, except the 16 bytes of the
    in-memory header, which say only the checkpoint the page was written in. *)
Definition same_page (chkp : Z) (page img : list Z) : Prop :=
  Z.of_nat (length img) = 8192 /\
  (forall i, 16 <= Z.of_nat i < 8192 -> nth i img 0 = nth i page 0) /\
  (forall i, (i < 12)%nat -> nth i img 0 = 0) /\
  nth 12 img 0 + 256 * nth 13 img 0 + 65536 * nth 14 img 0 + 16777216 * nth 15 img 0 = chkp.

(** The compression library: what it compressed, it decompresses; its buffer is
    longer than a page. *)
Definition lossless (zc : list Z -> list Z) (zd : list Z -> option (list Z)) : Prop :=
  forall p, is_page p -> zd (zc p) = Some p.
Definition big_buffer (zc : list Z -> list Z) (page junk : list Z) : Prop :=
  8192 <= Z.of_nat (length (zc page ++ junk)).

(** An offset that fits the extent of a downlink. *)
Definition good_off (off : Z) : Prop := 0 <= off < 281474976710655.

(** The bytes of an extent: which file, first byte, number of bytes. *)
Definition in_file (cfg : config) (e : extent) : Z :=
  if c_dev cfg then 0 else ext_file cfg (e_off e).
Definition first_byte (cfg : config) (e : extent) : Z :=
  ext_blk cfg (e_off e) * blk_bytes cfg.
Definition n_bytes (cfg : config) (e : extent) : Z :=
  if c_comp cfg then e_len e * 512 else 8192.
Definition apart (cfg : config) (e1 e2 : extent) : Prop :=
  in_file cfg e1 <> in_file cfg e2 \/
  first_byte cfg e1 + n_bytes cfg e1 <= first_byte cfg e2 \/
  first_byte cfg e2 + n_bytes cfg e2 <= first_byte cfg e1.

(** Length of the extent for a page: one block of 8192 bytes without
    compression. *)
Definition fits (zc : list Z -> list Z) (cfg : config) (page : list Z) (e : extent) : Prop :=
  e_len e = want_len cfg (snd (get_write_img zc cfg page [])) /\ good_off (e_off e).

(** A place on disk that is not a mixture of another control file: two control
    files that differ in at most four adjacent bytes. *)
Definition burst (a b : list Z) : Prop :=
  exists x w w' y, a = x ++ w ++ y /\ b = x ++ w' ++ y /\
    length w = length w' /\ (length w <= 4)%nat /\ w <> w'.

Definition bytes (l : list Z) : Prop := Forall (fun b => 0 <= b < 256) l.

(** What may happen to a page: every write comes with a page and with a
    checkpoint number that does not go back; other pages are written to places
    apart from this page's extent. *)
Definition allowed1 (zc : list Z -> list Z) (cfg : config) (s : pstate) (o : pop) : Prop :=
  match o with
  | PWrite page junk chkp newoff =>
      is_page page /\ big_buffer zc page junk /\ p_chkp s <= chkp < 2 ^ 32 /\ good_off newoff
  | POther e chkp page junk =>
      is_page page /\ big_buffer zc page junk /\ 0 <= chkp < 2 ^ 32 /\
      fits zc cfg page e /\ apart cfg (p_ext s) e
  end.
Fixpoint allowed (zc : list Z -> list Z) (bs : list Z -> Z) (cfg : config) (s : pstate) (l : list pop) : Prop :=
  match l with
  | [] => True
  | o :: r => allowed1 zc cfg s o /\ allowed zc bs cfg (pstep zc bs cfg s o) r
  end.

(** The last page written and its checkpoint. *)
Fixpoint last_write (p : list Z * Z) (l : list pop) : list Z * Z :=
  match l with
  | [] => p
  | PWrite page _ chkp _ :: r => last_write (page, chkp) r
  | _ :: r => last_write p r
  end.
