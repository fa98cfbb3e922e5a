(** Writing a page anew from a list of items, some of which lie in the page itself.
    src/btree/page_chunks.c:1217-1503.
    The memory is that of PgChunkModel.  The key made from an item is a parameter
    [mk]; its size before and after it is made is taken to be the same (the code
    computes OTupleKeyLengthNoVersion, then OKeyLength of the key made).
    Ratios are compared exactly, not as float4.  [maxKeyLen] and the flags for
    fixed keys are left out. *)
From Coq Require Import ZArith List Bool Lia.
From Verif Require Import Base PgChunkModel.
Import ListNotations.
Open Scope Z_scope.

Notation len l := (Z.of_nat (length l)).

(** BTreePageItem: flags, and the data: [n] words at offset [a] of the page itself,
    or words outside the page.  include/btree/page_contents.h:216-224 *)
Inductive src := Pg (a : Z) (n : nat) | Ext (ws : list Z).
Definition ritem := (Z * src)%type.

Definition rwords (r : ritem) : nat := match snd r with Pg _ n => n | Ext ws => length ws end.
Definition rsize (r : ritem) : Z := 2 * Z.of_nat (rwords r).
Definition rtotal (l : list ritem) : Z := fold_right (fun r s => rsize r + s) 0 l.
Definition rread (m : mem) (r : ritem) : Z * list Z :=
  (fst r, match snd r with Pg a n => read_words m a n | Ext ws => ws end).

(** MAXALIGN_WASTE of an array *)
Definition waste (n : Z) : Z := arr_sz n - 2 * n.

(** The boundaries of the chunks: 1287-1346.  [cur] is the chunk being filled, [j]
    the number of chunks with it, [hl] and [dl] the space left for keys and data.
    A comparison with a ratio whose denominator is zero is false. *)
Fixpoint choose (ks : ritem -> Z) (tot hfree dfree : Z) (cur : list ritem) (j hl dl : Z) (rest : list ritem)
  : list (list ritem) :=
  match rest with
  | [] => [cur]
  | x :: r =>
      let hd := ks x + (descs_end (j + 1) - descs_end j) in
      let dd := waste (len cur) in
      if negb ((hl <? hd) || (dl <? dd)) &&
         ((0 <? hfree) && ((ks x + 4) * tot <=? rtotal cur * hfree)) &&
         ((0 <? dfree) && (dd * tot <=? rtotal cur * dfree))
      then cur :: choose ks tot hfree dfree [x] (j + 1) (hl - hd) (dl - dd) r
      else choose ks tot hfree dfree (cur ++ [x]) j hl dl r
  end.

(** Where everything goes: 1348-1367. *)
Fixpoint dests (a : Z) (l : list ritem) : list (Z * ritem) :=
  match l with [] => [] | r :: t => (a, r) :: dests (a + rsize r) t end.
Fixpoint layout (a : Z) (cs : list (list ritem)) : list (Z * list (Z * ritem)) :=
  match cs with
  | [] => []
  | c :: t => (a, dests (a + arr_sz (len c)) c) :: layout (a + arr_sz (len c) + rtotal c) t
  end.
Definition cdata (cs : list (list ritem)) : Z := fold_right (fun c s => arr_sz (len c) + rtotal c + s) 0 cs.
Fixpoint arr_words (o : Z) (c : list ritem) : list Z :=
  match c with [] => [] | r :: t => w16 (with_flags o (fst r)) :: arr_words (o + rsize r) t end.

(** The items that move forwards (1373-1394) and, later, all others (1413-1419). *)
Definition fwd (x : Z * ritem) (m : mem) : mem :=
  match snd (snd x) with
  | Pg s n => if s <? fst x then move (fst x) s (2 * Z.of_nat n) m else m
  | Ext _ => m
  end.
Definition bwd (m : mem) (x : Z * ritem) : mem :=
  match snd (snd x) with
  | Pg s n => if fst x <? s then move (fst x) s (2 * Z.of_nat n) m else m
  | Ext ws => copy_in (fst x) ws m
  end.

(** One chunk: its array and items.  1396-1419 *)
Definition put_chunk (loc : Z) (xs : list (Z * ritem)) (m : mem) : mem :=
  fold_left bwd xs (copy_in loc (arr_words (arr_sz (len xs)) (map snd xs)) m).

(** The key of the chunk before, made from the first item as it now lies in the page.
    1421-1448 *)
Definition first_key (mk : Z * list Z -> Z * list Z) (loc : Z) (xs : list (Z * ritem)) (m : mem) : Z * list Z :=
  let w := m loc in
  mk (flags_of w, read_words m (loc + off_of w) (match xs with x :: _ => rwords (snd x) | [] => O end)).

Fixpoint put_chunks (mk : Z * list Z -> Z * list Z) (first : bool) (ls : list (Z * list (Z * ritem))) (m : mem) (hp : Z)
  : mem * Z * list (Z * Z) :=
  match ls with
  | [] => (m, hp, [])
  | (loc, xs) :: t =>
      let m1 := put_chunk loc xs m in
      if first then put_chunks mk false t m1 hp
      else
        let k := first_key mk loc xs m1 in
        let '(m2, hp2, ks) := put_chunks mk false t (copy_in hp (snd k) m1) (hp + 2 * len (snd k)) in
        (m2, hp2, (hp, fst k) :: ks)
  end.

Fixpoint mkdescs (off : Z) (ls : list (Z * list (Z * ritem))) (ks : list (Z * Z)) : list desc :=
  match ls, ks with
  | (loc, xs) :: t, (h, f) :: u => mkd (short loc) off (short h) f :: mkdescs (off + len xs) t u
  | _, _ => []
  end.

(** The chunks of the new page, or none if it does not fit.  1246-1346 *)
Definition area (p : page) (ws : list Z) : Z := Z.max (pg_lim p) (descs_end 1 + 2 * len ws).
Definition fits_all (p : page) (its : list ritem) (ws : list Z) : bool :=
  area p ws + rtotal its + arr_sz (len its) <=? blcksz.
Definition chunks (mk : Z * list Z -> Z * list Z) (p : page) (its : list ritem) (ws : list Z) : list (list ritem) :=
  let hl := area p ws - (descs_end 1 + 2 * len ws) in
  let hfree := if pg_right p && (area p ws =? 512) && (4 <=? hl) then hl - 4 else hl in
  let dl := blcksz - area p ws - rtotal its - arr_sz (len its) in
  match its with
  | [] => [[]]
  | x :: r => choose (fun y => 2 * len (snd (mk (rread (pg_m p) y)))) (rtotal its) hfree dl [x] 1 hl dl r
  end.

(** btree_page_reorg; [hk] is the high key with its padding, empty on a rightmost
    page.  An error leaves the page as it was. *)
Definition reorg (mk : Z * list Z -> Z * list Z) (p : page) (its : list ritem) (hk : Z * list Z) : page :=
  let ws := if pg_right p then [] else snd hk in
  if fits_all p its ws then
    let e := area p ws in
    let cs := chunks mk p its ws in
    let ls := layout e cs in
    let m1 := fold_right fwd (pg_m p) (flat_map snd ls) in
    let '(m2, hp, ks) := put_chunks mk true ls m1 (descs_end (len cs)) in
    let m3 := if pg_right p then m2 else copy_in hp ws m2 in
    let f := if pg_right p then 0 else fst hk in
    let ds := mkdescs 0 ls (ks ++ [(hp, f)]) in
    mkPage m3 (fun j => if (0 <=? j) && (j <? len cs) then nth (Z.to_nat j) ds (pg_d p j) else pg_d p j)
      (len cs) (len its) (hp + 2 * len ws) (e + cdata cs) (pg_right p) (pg_lim p)
  else p.

(** split_page_by_chunks: 1473-1503 *)
Definition own (p : page) : list ritem :=
  flat_map (fun c => map (fun i =>
      let w := pg_m p (loc_at p (Z.of_nat c) + 2 * Z.of_nat i) in
      (flags_of w, Pg (loc_at p (Z.of_nat c) + off_of w) (Z.to_nat (item_size p (Z.of_nat c) (Z.of_nat i) / 2))))
    (seq 0 (Z.to_nat (chunk_n p (Z.of_nat c)))))
  (seq 0 (Z.to_nat (pg_cc p))).
Definition respread (mk : Z * list Z -> Z * list Z) (p : page) : page :=
  reorg mk p (own p) (key_at p (pg_cc p - 1)).

(** The callers collect the items of a page in order, with items from elsewhere
    between them.  src/btree/split.c:59-140, src/btree/merge.c:680-760 *)
Fixpoint sorted (a : Z) (l : list ritem) : bool :=
  match l with
  | [] => true
  | r :: t => match snd r with Pg s n => (a <=? s) && sorted (s + 2 * Z.of_nat n) t | Ext _ => sorted a t end
  end.

(** The pages that the operations make: new ones, changed ones, and any page (its
    flags set before) written anew. *)
Inductive made : page -> Prop :=
| made_init : forall m lim right f ws, (lim = 256 \/ lim = 512) -> (f = 0 \/ f = 1) ->
    (right = true /\ ws = [] \/ aligned ws = true) -> descs_end 1 + 2 * len ws <= blcksz ->
    made (init m lim right f ws)
| made_step : forall p o, made p -> made (step p o)
| made_reorg : forall mk q its hk, (pg_lim q = 256 \/ pg_lim q = 512) ->
    Forall (fun r => flag_ok (fst r) && aligned (snd (rread (pg_m q) r)) = true) its ->
    (forall x, flag_ok (fst (mk x)) && aligned (snd (mk x)) = true) ->
    (pg_right q = true \/ flag_ok (fst hk) && aligned (snd hk) = true) ->
    sorted 0 its = true -> fits_all q its (if pg_right q then [] else snd hk) = true ->
    made (reorg mk q its hk).
