(** Model of the key bitmap of bitmap scans: src/tableam/key_bitmap.c, and of the two scan callbacks
    that query it: src/tableam/bitmap_scan.c:1803-1943.

    Simplification: the adaptive radix tree (include/lib/o_radixtree.h) is modelled as the ordered
    map it implements: a list of keys with values, iterated in ascending order. *)
From Coq Require Import ZArith List Bool.
From Verif Require Import Base PkEncModel PkEncSpec.
Import ListNotations.
Open Scope Z_scope.

(** ** The ordered map: okbm_find, okbm_set, okbm_delete, okbm_iterate_next *)
Section Map.
  Variables (K V : Type) (cmp : K -> K -> comparison).
  Fixpoint find (k : K) (l : list (K * V)) : option V :=
    match l with [] => None | (x, v) :: l => match cmp k x with Eq => Some v | _ => find k l end end.
  Fixpoint set (k : K) (v : V) (l : list (K * V)) : list (K * V) :=
    match l with [] => [(k, v)] | (x, w) :: l => match cmp k x with Eq => (x, v) :: l | Lt => (k, v) :: (x, w) :: l | Gt => (x, w) :: set k v l end end.
  Fixpoint del (k : K) (l : list (K * V)) : list (K * V) :=
    match l with [] => [] | (x, w) :: l => match cmp k x with Eq => l | _ => (x, w) :: del k l end end.
  (** okbm_lower_bound 536-553, okbmf_lower_bound 655-673: index of the first key >= target *)
  Fixpoint lower_bound (fuel : nat) (d : K) (a : list K) (target : K) (lo hi : nat) : nat :=
    match fuel with
    | O => lo
    | Datatypes.S fuel =>
        if Nat.ltb lo hi then
          let mid := (lo + (hi - lo) / 2)%nat in
          match cmp (nth mid a d) target with Lt => lower_bound fuel d a target (mid + 1) hi | _ => lower_bound fuel d a target lo mid end
        else lo
    end.
End Map.
Arguments find {K V}. Arguments set {K V}. Arguments del {K V}. Arguments lower_bound {K}.

(** ** uint64 mode *)
Definition LOW_MASK : Z := 1023.                                        (* 31-34 *)
Definition BITMAP_BYTES : nat := 128.
Definition chunk := list Z.
Definition empty_chunk : chunk := repeat 0 BITMAP_BYTES.
Record bm := mkBm { tree : list (Z * chunk); chunks : list Z; finalized : bool }.     (* 69-93 *)
(** o_keybitmap_create 127-154 *)
Definition create : bm := mkBm [] [] false.

Definition byte (c : chunk) (i : Z) : Z := nth (Z.to_nat i) c 0.
Fixpoint upd_nth (i : nat) (b : Z) (c : chunk) : chunk := match c, i with [], _ => [] | _ :: c, O => b :: c | x :: c, Datatypes.S i => x :: upd_nth i b c end.
Definition set_byte (c : chunk) (i b : Z) : chunk := upd_nth (Z.to_nat i) b c.
(** 260, 264: bitmap[offset >> 3] |= 1 << (offset & 7) *)
Definition set_bit (c : chunk) (off : Z) : chunk :=
  let i := Z.shiftr off 3 in set_byte c i (Z.lor (byte c i) (Z.shiftl 1 (Z.land off 7))).
Definition test_bit (c : chunk) (off : Z) : bool := negb (Z.land (byte c (Z.shiftr off 3)) (Z.shiftl 1 (Z.land off 7)) =? 0).

(** find_next_offset 95-125 *)
Fixpoint ctz (fuel : nat) (mask : Z) : Z :=                              (* 112-117 *)
  match fuel with O => 0 | Datatypes.S f => if Z.land mask 1 =? 0 then 1 + ctz f (Z.shiftr mask 1) else 0 end.
Fixpoint fno (fuel : nat) (c : chunk) (i mask : Z) : Z :=
  match fuel with
  | O => -1
  | Datatypes.S f =>
      if i <? 128 then
        let mask := Z.land mask (byte c i) in
        if negb (mask =? 0) then Z.shiftl i 3 + ctz 8 mask else fno f c (i + 1) 0xFF
      else -1
  end.
Definition find_next_offset (c : chunk) (min : Z) : Z := fno 129 c (Z.shiftr min 3) (Z.shiftl 0xFF (Z.land min 7) mod 256).

(** o_keybitmap_insert 248-267 *)
Definition insert (b : bm) (v : Z) : bm :=
  let k := Z.shiftr v 10 in let off := Z.land v LOW_MASK in
  match find Z.compare k (tree b) with
  | None => mkBm (set Z.compare k (set_bit empty_chunk off) (tree b)) (chunks b) false
  | Some e => mkBm (set Z.compare k (set_bit e off) (tree b)) (chunks b) false
  end.
(** o_keybitmap_test 269-280 *)
Definition test (b : bm) (v : Z) : bool :=
  match find Z.compare (Z.shiftr v 10) (tree b) with None => false | Some e => test_bit e (Z.land v LOW_MASK) end.
(** o_keybitmap_emit 282-307 *)
Definition emit (b : bm) (v : Z) : bm * bool :=
  let k := Z.shiftr v 10 in let off := Z.land v LOW_MASK in
  match find Z.compare k (tree b) with
  | None => (mkBm (set Z.compare k (set_bit empty_chunk off) (tree b)) (chunks b) false, true)
  | Some e => if test_bit e off then (b, false) else (mkBm (set Z.compare k (set_bit e off) (tree b)) (chunks b) false, true)
  end.
(** o_keybitmap_is_empty 309-331 *)
Definition is_empty (b : bm) : bool := match tree b with [] => true | _ => false end.

Fixpoint map2 (f : Z -> Z -> Z) (a b : list Z) : list Z := match a, b with x :: a, y :: b => f x y :: map2 f a b | _, _ => [] end.
(** o_keybitmap_union 359-378 *)
Definition union_step (t : list (Z * chunk)) (e : Z * chunk) : list (Z * chunk) :=
  match find Z.compare (fst e) t with None => set Z.compare (fst e) (snd e) t | Some a => set Z.compare (fst e) (map2 Z.lor a (snd e)) t end.
Definition union (a b : bm) : bm := mkBm (fold_left union_step (tree b) (tree a)) (chunks a) false.
(** o_keybitmap_intersect 424-472: first pass, in place; second pass, deletions *)
Definition all_zero (c : chunk) : bool := forallb (fun x => x =? 0) c.
Definition and_entry (bt : list (Z * chunk)) (e : Z * chunk) : Z * chunk :=
  match find Z.compare (fst e) bt with None => e | Some be => (fst e, map2 Z.land (snd e) be) end.
Definition is_gone (bt : list (Z * chunk)) (e : Z * chunk) : bool :=
  match find Z.compare (fst e) bt with None => true | Some be => all_zero (map2 Z.land (snd e) be) end.
Definition intersect (a b : bm) : bm :=
  let gone := map fst (filter (is_gone (tree b)) (tree a)) in
  mkBm (fold_left (fun t k => del Z.compare k t) gone (map (and_entry (tree b)) (tree a))) (chunks a) false.

(** okbm_finalize 475-534 *)
Definition finalize (b : bm) : bm := if finalized b then b else mkBm (tree b) (map fst (tree b)) true.

(** o_keybitmap_range_is_valid 555-620 *)
Fixpoint scan_bytes (fuel : nat) (c : chunk) (i iStart iEnd sm em : Z) : bool :=     (* 607-616 *)
  match fuel with
  | O => false
  | Datatypes.S f =>
      if i <=? iEnd then
        let mask := if i =? iStart then sm else 0xFF in
        let mask := if i =? iEnd then Z.land mask em else mask in
        if negb (Z.land (byte c i) mask =? 0) then true else scan_bytes f c (i + 1) iStart iEnd sm em
      else false
  end.
Fixpoint range_loop (t : list (Z * chunk)) (ks : list Z) (low high cl ch : Z) : bool :=
  match ks with
  | [] => false
  | k :: ks =>
      if ch <? k then false
      else
        let c := match find Z.compare k t with Some c => c | None => [] end in
        let iStart := if k =? cl then Z.shiftr (Z.land low LOW_MASK) 3 else 0 in
        let sm := if k =? cl then Z.shiftl 0xFF (Z.land low 7) mod 256 else 0xFF in
        let iEnd := if k =? ch then Z.shiftr (Z.land (high - 1) LOW_MASK) 3 else 127 in
        let em := if k =? ch then Z.shiftr 0xFF (7 - Z.land (high - 1) 7) else 0xFF in
        if scan_bytes 129 c iStart iStart iEnd sm em then true else range_loop t ks low high cl ch
  end.
Definition lb (a : list Z) (target : Z) : nat := lower_bound Z.compare (Datatypes.S (length a)) 0 a target 0 (length a).
Definition range_is_valid (b : bm) (low high : Z) : bm * bool :=
  if high <=? low then (b, false)
  else
    let b := finalize b in
    let cl := Z.shiftr low 10 in let ch := Z.shiftr (high - 1) 10 in
    (b, range_loop (tree b) (skipn (lb (chunks b) cl) (chunks b)) low high cl ch).

(** o_keybitmap_get_next 622-651 *)
Fixpoint next_loop (t : list (Z * chunk)) (ks : list Z) (cp op : Z) : option Z :=
  match ks with
  | [] => None
  | k :: ks =>
      let c := match find Z.compare k t with Some c => c | None => [] end in
      let n := find_next_offset c (if k =? cp then op else 0) in
      if 0 <=? n then Some (Z.shiftl k 10 + n) else next_loop t ks cp op
  end.
Definition get_next (b : bm) (prev : Z) : bm * option Z :=
  let b := finalize b in
  (b, next_loop (tree b) (skipn (lb (chunks b) (Z.shiftr prev 10)) (chunks b)) (Z.shiftr prev 10) (Z.land prev LOW_MASK)).

(** ** Fixed-key mode: a set of 24-byte strings *)
Record fbm := mkF { ftree : list (list Z * unit); fkeys : list (list Z); ffin : bool }.
Definition fcreate : fbm := mkF [] [] false.                              (* 156-176 *)
(** o_keybitmap_insert_key 204-217 *)
Definition finsert (b : fbm) (k : list Z) : fbm :=
  match find memcmp k (ftree b) with None => mkF (set memcmp k tt (ftree b)) (fkeys b) false | Some _ => mkF (ftree b) (fkeys b) false end.
(** o_keybitmap_test_key 219-226 *)
Definition ftest (b : fbm) (k : list Z) : bool := match find memcmp k (ftree b) with Some _ => true | None => false end.
(** o_keybitmap_emit_key 228-246 *)
Definition femit (b : fbm) (k : list Z) : fbm * bool :=
  match find memcmp k (ftree b) with Some _ => (b, false) | None => (mkF (set memcmp k tt (ftree b)) (fkeys b) false, true) end.
Definition fis_empty (b : fbm) : bool := match ftree b with [] => true | _ => false end.
(** o_keybitmap_union 342-357 *)
Definition funion (a b : fbm) : fbm :=
  mkF (fold_left (fun t e => match find memcmp (fst e) t with None => set memcmp (fst e) tt t | Some _ => t end) (ftree b) (ftree a)) (fkeys a) false.
(** o_keybitmap_intersect 394-422 *)
Definition fintersect (a b : fbm) : fbm :=
  let gone := map fst (filter (fun e => match find memcmp (fst e) (ftree b) with None => true | Some _ => false end) (ftree a)) in
  mkF (fold_left (fun t k => del memcmp k t) gone (ftree a)) (fkeys a) false.
Definition ffinalize (b : fbm) : fbm := if ffin b then b else mkF (ftree b) (map fst (ftree b)) true.
Definition flb (a : list (list Z)) (target : list Z) : nat := lower_bound memcmp (Datatypes.S (length a)) [] a target 0 (length a).
(** o_keybitmap_range_is_valid_key 675-693 *)
Definition frange_is_valid (b : fbm) (low high : list Z) : fbm * bool :=
  match memcmp low high with
  | Lt => let b := ffinalize b in
          let idx := flb (fkeys b) low in
          if Nat.leb (length (fkeys b)) idx then (b, false)
          else (b, match memcmp (nth idx (fkeys b) []) high with Lt => true | _ => false end)
  | _ => (b, false)
  end.
(** o_keybitmap_get_next_key 695-709 *)
Definition fget_next (b : fbm) (prev : list Z) : fbm * option (list Z) :=
  let b := ffinalize b in
  let idx := flb (fkeys b) prev in
  if Nat.leb (length (fkeys b)) idx then (b, None) else (b, Some (nth idx (fkeys b) [])).

(** ** A program using several bitmaps: any sequence of calls on any of them *)
Inductive op := Insert (i : Z) (v : Z) | Emit (i : Z) (v : Z) | Union (i j : Z) | Intersect (i j : Z) | Range (i : Z) (lo hi : Z) | Next (i : Z) (p : Z) | Create (i : Z).
Definition step (s : Z -> bm) (o : op) : Z -> bm :=
  match o with
  | Create i => upd s i create
  | Insert i v => upd s i (insert (s i) v)
  | Emit i v => upd s i (fst (emit (s i) v))
  | Union i j => upd s i (union (s i) (s j))
  | Intersect i j => upd s i (intersect (s i) (s j))
  | Range i lo hi => upd s i (fst (range_is_valid (s i) lo hi))
  | Next i p => upd s i (fst (get_next (s i) p))
  end.
Definition init : Z -> bm := fun _ => create.
Inductive fop := FInsert (i : Z) (k : list Z) | FEmit (i : Z) (k : list Z) | FUnion (i j : Z) | FIntersect (i j : Z) | FRange (i : Z) (lo hi : list Z) | FNext (i : Z) (p : list Z) | FCreate (i : Z).
Definition fstep (s : Z -> fbm) (o : fop) : Z -> fbm :=
  match o with
  | FCreate i => upd s i fcreate
  | FInsert i v => upd s i (finsert (s i) v)
  | FEmit i v => upd s i (fst (femit (s i) v))
  | FUnion i j => upd s i (funion (s i) (s j))
  | FIntersect i j => upd s i (fintersect (s i) (s j))
  | FRange i lo hi => upd s i (fst (frange_is_valid (s i) lo hi))
  | FNext i p => upd s i (fst (fget_next (s i) p))
  end.
Definition finit : Z -> fbm := fun _ => fcreate.

(** ** The scan callbacks, bitmap_scan.c *)
(** o_bitmap_is_range_valid 1803-1840: None is a bound that does not exist *)
Definition UINT64_MAX : Z := 2 ^ 64 - 1.
Definition page_may_match (b : bm) (low high : option Z) : bool :=
  snd (range_is_valid b (match low with Some l => l | None => 0 end) (match high with Some h => h | None => UINT64_MAX end)).
Definition fpage_may_match (b : fbm) (low high : option (list Z)) : bool :=
  snd (frange_is_valid b (match low with Some l => l | None => repeat 0 24 end) (match high with Some h => h | None => repeat 255 24 end)).
(** o_bitmap_get_next_key 1856-1943 *)
Definition scan_next (b : bm) (pos : option Z) (inclusive : bool) : bm * option Z :=
  match pos with
  | None => get_next b 0
  | Some p => if inclusive then get_next b p else if p =? UINT64_MAX then (b, None) else get_next b (p + 1)
  end.
Definition fscan_next (b : fbm) (pos : option (list Z)) (inclusive : bool) : fbm * option (list Z) :=
  match pos with
  | None => fget_next b (repeat 0 24)
  | Some p => if inclusive then fget_next b p else match next_key p with None => (b, None) | Some q => fget_next b q end
  end.
