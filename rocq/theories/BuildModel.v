(** Bulk build of a tree from a sorted stream.
    Sources: src/btree/build.c (stack_page_split, put_item_to_stack,
    put_downlink_to_stack, put_tuple_to_stack, btree_write_index_data),
    src/btree/split.c:32-120 (make_split_items) and 205-320
    (btree_page_split_find_location), src/btree/page_chunks.c:224-337
    (page_locator_fits_item), 339-362, 472-541 and 1218-1290. *)
From Coq Require Import ZArith List Bool Lia.
From Verif Require Import Base.
Import ListNotations.
Open Scope Z_scope.

(** MAXALIGN: next multiple of 8. *)
Definition MA (n : Z) : Z := (n + 7) / 8 * 8.

(** ORIOLEDB_BLCKSZ; MAXALIGN(sizeof(BTreePageHeader)) (page_contents.h:124-153);
    O_BTREE_MAX_TUPLE_SIZE (page_contents.h:327). *)
Definition BLCKSZ : Z := 8192.
Definition HDR : Z := 64.
Definition MAXTUP : Z := 2688.

(** BTREE_PAGE_HIKEYS_END (page_contents.h:168). *)
Definition hend (lvl : nat) : Z := match lvl with O => 256 | _ => 512 end.

(** A tuple of the stream: key, the rest, the tuple's length and the length of
    the key made from it (o_btree_len). *)
Record tup := mkT { t_key : Z; t_val : Z; t_len : Z; t_klen : Z }.

(** A key stored in a page: value and length. *)
Definition key : Type := Z * Z.

(** An item of a page: a tuple, or a downlink.  The downlink carries the page
    it points to: the key it is filed under, the page's high key and items.
    Simplification: pages are written once and never change during a build,
    so the page itself stands for its file extent. *)
Inductive item :=
| ILeaf (t : tup)
| IDown (k : option key) (hikey : option key) (items : list item).

(** Size of an item: tuple header and aligned tuple (build.c:171-180,
    page_contents.h:270-300: 16 bytes on leaves, 8 above). *)
Definition isz (i : item) : Z :=
  match i with
  | ILeaf t => 16 + MA (t_len t)
  | IDown None _ _ => 8
  | IDown (Some k) _ _ => 8 + MA (snd k)
  end.

Definition sumz (l : list Z) : Z := fold_right Z.add 0 l.
(** The array of item locations: 2 bytes each, aligned. *)
Definition arr (n : nat) : Z := MA (2 * Z.of_nat n).

(** dataSize of a build page: one chunk, no high key yet. *)
Definition psize (lvl : nat) (l : list item) : Z := hend lvl + arr (length l) + sumz (map isz l).

(** put_item_to_stack, the choice (build.c:150-160) and page_locator_fits_item
    for an insertion.  The subtraction is unsigned, so a negative difference
    passes the fillfactor test.  A build page has nothing to compact. *)
Definition fits (f : Z) (lvl : nat) (l : list item) (it : item) : bool :=
  let free := BLCKSZ - psize lvl l in
  if (free - isz it <? 0) || (BLCKSZ * (100 - f) / 100 <=? free - isz it)
  then isz it + (arr (S (length l)) - arr (length l)) <=? free
  else false.

(** Length of the key an item contributes: on leaves that of the key made from
    the tuple, above the item without its header
    (btree_page_update_max_key_len, page_contents.c:891-923). *)
Definition iklen (i : item) : Z :=
  match i with ILeaf t => t_klen t | IDown None _ _ => 0 | IDown (Some k) _ _ => MA (snd k) end.
(** The same for the item being inserted (split.c:61-62). *)
Definition new_klen (i : item) : Z :=
  match i with ILeaf t => t_klen t | IDown None _ _ => 0 | IDown (Some k) _ _ => snd k end.
(** items->maxKeyLen (split.c:42, 63). *)
Definition max_klen (l : list item) (it : item) : Z := Z.max (MA (fold_right Z.max 0 (map iklen l))) (new_klen it).

(** The loop of btree_page_split_find_location (split.c:254-305).  [target] is
    never 0 when it runs (it is the number of old items). *)
Fixpoint loc_loop (fuel : nat) (sz : list Z) (target : nat) (ls rs : Z) (mn mx : nat) : option nat :=
  match fuel with
  | O => None
  | S f =>
      if Nat.eqb mn mx then Some mn
      else if (rs <=? 0) || ((0 <? ls) && (Nat.ltb mn target)) then
        if ls <=? 0 then None
        else let ls' := ls - (nth mn sz 0 + (arr (S mn) - arr mn)) in
             if ls' <? 0 then loc_loop f sz target ls' rs mn mx else loc_loop f sz target ls' rs (S mn) mx
      else
        if rs <=? 0 then None
        else let c := length sz in
             let rs' := rs - (nth (mx - 1) sz 0 + (arr (c - mx + 1) - arr (c - mx))) in
             if rs' <? 0 then loc_loop f sz target ls rs' mn mx else loc_loop f sz target ls rs' mn (mx - 1)
  end.

(** btree_page_split_find_location (split.c:205-320) for the old items and the
    new one at the end; None: no location.  The caller only asserts success
    (split.c:335), so None is undefined behaviour in a production build. *)
Definition split_loc (lvl : nat) (old : list item) (it : item) : option nat :=
  let sz := map isz (old ++ [it]) in
  let c := length sz in
  if Nat.ltb c 2 then None
  else
    let ls := BLCKSZ - Z.max (hend lvl) (HDR + max_klen old it) - (nth O sz 0 + MA 2) in
    let rs := BLCKSZ - Z.max (hend lvl) (HDR + 0) - (nth (c - 1) sz 0 + MA 2) in
    if (ls <? 0) || (rs <? 0) then None
    else loc_loop (2 * c + 4) sz (length old) ls rs 1 (c - 1).

(** One level of the stack (OIndexBuildStackItem, build.c:43-49): the page's
    items, and the key its downlink will be filed under. *)
Record lev := mkLev { l_items : list item; l_key : option key }.

(** The high key of the left page (build.c:118-131). *)
Definition key_of (i : item) : key :=
  match i with ILeaf t => (t_key t, t_klen t) | IDown (Some k) _ _ => (fst k, MA (snd k)) | IDown None _ _ => (0, 0) end.

(** page_cut_first_key (page_contents.c:561-579; build.c:243-248). *)
Definition cut (lvl : nat) (l : list item) : list item :=
  match lvl, l with
  | S _, IDown _ h its :: r => IDown None h its :: r
  | _, _ => l
  end.

(** What btree_page_reorg needs for the left page (page_chunks.c:1246-1288). *)
Definition reorg_size (lvl : nat) (hikey : option key) (l : list item) : Z :=
  Z.max (hend lvl) (HDR + MA (match hikey with Some k => snd k | None => 0 end)) + sumz (map isz l) + arr (length l).

(** put_item_to_stack (build.c:139-262).  The stack starts at level [lvl]; its
    last page is the root so far.  None: the split location is undefined or
    btree_page_reorg raises an error.  Simplifications: the limit of
    ORIOLEDB_MAX_DEPTH levels, only asserted in the code, is not applied; the
    empty page above the root takes its first downlink, which has no key,
    without a test (it always fits). *)
Fixpoint put (f : Z) (lvl : nat) (st : list lev) (it : item) : option (list lev) :=
  match st with
  | [] => Some [mkLev [it] None]
  | p :: up =>
      if fits f lvl (l_items p) it then Some (mkLev (l_items p ++ [it]) (l_key p) :: up)
      else
        match split_loc lvl (l_items p) it with
        | None => None
        | Some n =>
            let all := l_items p ++ [it] in
            match skipn n all with
            | [] => None
            | r0 :: _ =>
                let hk := key_of r0 in
                if BLCKSZ <? reorg_size lvl (Some hk) (firstn n all) then None
                else
                  match put f (S lvl) up (IDown (l_key p) (Some hk) (firstn n all)) with
                  | None => None
                  | Some up' => Some (mkLev (cut lvl (skipn n all)) (Some hk) :: up')
                  end
            end
        end
  end.

Fixpoint put_all (f : Z) (st : list lev) (ts : list tup) : option (list lev) :=
  match ts with
  | [] => Some st
  | t :: r => match put f O st (ILeaf t) with Some st' => put_all f st' r | None => None end
  end.

(** The closing loop (build.c:349-367): as many steps as there were levels
    below the root when it began. *)
Fixpoint closing (f : Z) (n : nat) (lvl : nat) (st : list lev) : option (list lev) :=
  match n, st with
  | O, _ => Some st
  | S n', p :: up =>
      match put f (S lvl) up (IDown (l_key p) None (l_items p)) with
      | Some up' => closing f n' (S lvl) up'
      | None => None
      end
  | S _, [] => None
  end.

Definition close_all (f : Z) (st : list lev) : option (list lev) := closing f (length st - 1) O st.

(** btree_write_index_data (build.c:298-412): the items of the page the root
    downlink points to, and its level. *)
Definition build (f : Z) (ts : list tup) : option (nat * list item) :=
  match put_all f [mkLev [] None] ts with
  | None => None
  | Some st =>
      match close_all f st with
      | None => None
      | Some st' => Some ((length st - 1 + (length st' - 1))%nat, l_items (last st' (mkLev [] None)))
      end
  end.
