(* Model of the search within a B-tree page: src/btree/find.c:2087-2250 and the
   item locators of src/btree/page_chunks.c:365-467 and
   include/btree/page_contents.h:177-200.

   A page is a header (kind of page, number of items, number of chunks, the
   offset of the first item of each chunk) with the keys of its items in page
   order and the high keys of its chunks.  Simplifications: the byte layout of
   keys and partial page reads are left out, the 16-bit counters do not wrap,
   and the comparison function is applied to the search key beforehand: cmp k
   stands for desc->ops->cmp(desc, key, keyType, k, ...). *)
From Coq Require Import ZArith List Bool.
From Verif Require Import Base.
Import ListNotations.
Open Scope Z_scope.

Section Page.
Variable K : Type.

(* BTreePageHeader and BTreePageChunkDesc, include/btree/page_contents.h. *)
Record page := mkPage {
  leaf : bool;              (* O_PAGE_IS(p, LEAF) *)
  itemsCount : Z;
  chunksCount : Z;
  offset : Z -> Z;          (* chunkDesc[c].offset *)
  hikey : Z -> K;           (* high key of chunk c *)
  item : Z -> K }.          (* key of the i-th item of the page *)

(* BTreePageItemLocator. *)
Record locator := mkLoc { l_valid : bool; l_chunk : Z; l_item : Z; l_count : Z }.

(* Is the search key BTreeKeyPageHiKey or another kind. *)
Inductive kind := KHiKey | KPlain.

(* page_chunk_fill_locator, page_chunks.c:365-386. *)
Definition page_chunk_fill_locator (p : page) (c : Z) : locator :=
  mkLoc true c 0 (if c + 1 <? chunksCount p then offset p (c + 1) - offset p c
                  else itemsCount p - offset p c).

(* The loop of page_item_fill_locator, page_chunks.c:394-397. *)
Fixpoint fill_loop (n : nat) (p : page) (i c : Z) : Z :=
  match n with
  | O => c
  | S n' => if (c <? chunksCount p - 1) && (i >=? offset p (c + 1)) then fill_loop n' p i (c + 1) else c
  end.

(* page_item_fill_locator, page_chunks.c:388-401. *)
Definition page_item_fill_locator (p : page) (i : Z) : locator :=
  let c := fill_loop (Z.to_nat (chunksCount p)) p i 0 in
  let l := page_chunk_fill_locator p c in
  mkLoc true (l_chunk l) (i - offset p c) (l_count l).

Fixpoint fill_back_loop (n : nat) (p : page) (i c : Z) : Z :=
  match n with
  | O => c
  | S n' => if i <? offset p c then fill_back_loop n' p i (c - 1) else c
  end.

(* page_item_fill_locator_backwards, page_chunks.c:403-419. *)
Definition page_item_fill_locator_backwards (p : page) (i : Z) : locator :=
  let c := fill_back_loop (Z.to_nat (chunksCount p)) p i (chunksCount p - 1) in
  let l := page_chunk_fill_locator p c in
  mkLoc true (l_chunk l) (i - offset p c) (l_count l).

(* page_locator_next_chunk, page_chunks.c:424-441. *)
Fixpoint next_chunk (n : nat) (p : page) (l : locator) : locator * bool :=
  match n with
  | O => (l, false)
  | S n' =>
    if l_item l >=? l_count l then
      if l_chunk l + 1 <? chunksCount p then next_chunk n' p (page_chunk_fill_locator p (l_chunk l + 1))
      else (l, false)
    else (l, true)
  end.
Definition page_locator_next_chunk (p : page) (l : locator) : locator * bool :=
  next_chunk (Datatypes.S (Z.to_nat (chunksCount p))) p l.

(* page_locator_prev_chunk, page_chunks.c:446-464. *)
Fixpoint prev_chunk (n : nat) (p : page) (l : locator) : locator * bool :=
  match n with
  | O => (l, false)
  | S n' =>
    if l_chunk l >? 0 then
      let l' := page_chunk_fill_locator p (l_chunk l - 1) in
      if l_count l' =? 0 then prev_chunk n' p l'
      else (mkLoc true (l_chunk l') (l_count l' - 1) (l_count l'), true)
    else (mkLoc false (l_chunk l) (l_item l) (l_count l), false)
  end.
Definition page_locator_prev_chunk (p : page) (l : locator) : locator * bool :=
  prev_chunk (Datatypes.S (Z.to_nat (chunksCount p))) p l.

(* BTREE_PAGE_LOCATOR_NEXT and BTREE_PAGE_LOCATOR_PREV, page_contents.h:185-188. *)
Definition locator_next (p : page) (l : locator) : locator * bool :=
  let l1 := mkLoc (l_valid l) (l_chunk l) (l_item l + 1) (l_count l) in
  if l_item l1 <? l_count l1 then (l1, true) else page_locator_next_chunk p l1.
Definition locator_prev (p : page) (l : locator) : locator * bool :=
  if l_item l >? 0 then (mkLoc (l_valid l) (l_chunk l) (l_item l - 1) (l_count l), true)
  else page_locator_prev_chunk p l.

(* BTREE_PAGE_LOCATOR_FIRST, _LAST, _TAIL, _IS_VALID, page_contents.h:179-190. *)
Definition locator_first (p : page) := page_item_fill_locator p 0.
Definition locator_last (p : page) := page_item_fill_locator_backwards p (itemsCount p - 1).
Definition locator_tail (p : page) := page_item_fill_locator_backwards p (itemsCount p).
Definition locator_is_valid (l : locator) : bool := l_valid l && (l_item l <? l_count l).

(* BTREE_PAGE_LOCATOR_GET_OFFSET, page_contents.h: the position of a locator. *)
Definition get_offset (p : page) (l : locator) : Z := offset p (l_chunk l) + l_item l.

(* page_locator_find_real_item, page_chunks.c:1506-1543 (whole-page read). *)
Fixpoint find_real (n : nat) (p : page) (l : locator) : locator :=
  match n with
  | O => l
  | S n' =>
    if l_item l >=? l_count l then
      if l_chunk l >=? chunksCount p - 1 then l
      else
        let o := l_item l - l_count l in
        let l' := page_chunk_fill_locator p (l_chunk l + 1) in
        find_real n' p (mkLoc true (l_chunk l') o (l_count l'))
    else l
  end.
Definition page_locator_find_real_item (p : page) (l : locator) : locator :=
  find_real (Z.to_nat (chunksCount p)) p l.

(* The loop of btree_page_binary_search_chunks, find.c:2153-2170. *)
Fixpoint chunks_loop (n : nat) (p : page) (cmp : K -> Z) (target low high : Z) : Z :=
  match n with
  | O => low
  | S n' =>
    if high >? low then
      let mid := low + (high - low) / 2 in
      if cmp (hikey p mid) >=? target then chunks_loop n' p cmp target (mid + 1) high
      else chunks_loop n' p cmp target low mid
    else low
  end.

(* btree_page_binary_search_chunks, find.c:2124-2173. *)
Definition btree_page_binary_search_chunks (p : page) (cmp : K -> Z) (k : kind) : Z :=
  let target := match k with KHiKey => 1 | KPlain => 0 end in
  chunks_loop (Z.to_nat (chunksCount p)) p cmp target 0 (chunksCount p - 1).

(* The loop of btree_page_search_items, find.c:2224-2247; base is the position
   of the first item of the chunk. *)
Fixpoint items_loop (n : nat) (p : page) (cmp : K -> Z) (target chunk base low high : Z) : Z :=
  match n with
  | O => low
  | S n' =>
    if high >? low then
      let mid := low + (high - low) / 2 in
      let result := if negb (leaf p) && (mid =? 0) && (chunk =? 0) then 1 else cmp (item p (base + mid)) in
      if result >=? target then items_loop n' p cmp target chunk base (mid + 1) high
      else items_loop n' p cmp target chunk base low mid
    else low
  end.

(* btree_page_search_items, find.c:2175-2250. *)
Definition btree_page_search_items (p : page) (cmp : K -> Z) (k : kind) (l : locator) : locator :=
  if l_count l =? 0 then mkLoc (l_valid l) (l_chunk l) 0 (l_count l)
  else
    let nextkey := negb (leaf p) && match k with KHiKey => false | KPlain => true end in
    let target := if nextkey then 0 else 1 in
    mkLoc (l_valid l) (l_chunk l)
          (items_loop (Z.to_nat (l_count l)) p cmp target (l_chunk l) (offset p (l_chunk l)) 0 (l_count l))
          (l_count l).

(* btree_page_search, find.c:2087-2118. *)
Definition btree_page_search (p : page) (cmp : K -> Z) (k : kind) : locator :=
  match k, leaf p with
  | KHiKey, true => locator_last p
  | _, _ =>
    btree_page_search_items p cmp k (page_chunk_fill_locator p (btree_page_binary_search_chunks p cmp k))
  end.

(* The choice of the child to descend to, page_find_downlink, find.c:152-176. *)
Inductive search := SRightmost | SLeftmost | SKey (cmp : K -> Z) (k : kind).
Definition page_find_downlink (p : page) (s : search) : locator :=
  match s with
  | SRightmost => locator_last p
  | SLeftmost => locator_first p
  | SKey cmp k => fst (locator_prev p (btree_page_search p cmp k))
  end.

(* The position of a key in a leaf, page_find_item, find.c:322-340 (reads). *)
Definition page_find_item (p : page) (s : search) : locator :=
  match s with
  | SRightmost => locator_last p
  | SLeftmost => locator_first p
  | SKey cmp k => page_locator_find_real_item p (btree_page_search p cmp k)
  end.

(* BTREE_PAGE_FOREACH_ITEMS, page_contents.h:191-194: the positions visited. *)
Fixpoint foreach (n : nat) (p : page) (l : locator) : list Z :=
  match n with
  | O => []
  | S n' =>
    if locator_is_valid l then get_offset p l :: foreach n' p (fst (locator_next p l)) else []
  end.

End Page.
Arguments page_chunk_fill_locator {K}. Arguments btree_page_search {K}. Arguments page_find_downlink {K}.
Arguments page_find_item {K}. Arguments foreach {K}. Arguments get_offset {K}. Arguments locator_next {K}.
Arguments locator_prev {K}. Arguments locator_first {K}. Arguments locator_last {K}. Arguments locator_tail {K}.
Arguments mkPage {K}. Arguments leaf {K}. Arguments itemsCount {K}. Arguments chunksCount {K}.
Arguments offset {K}. Arguments hikey {K}. Arguments item {K}. Arguments SKey {K}. Arguments SRightmost {K}.
Arguments SLeftmost {K}. Arguments page_locator_find_real_item {K}. Arguments next_chunk {K}. Arguments prev_chunk {K}.
Arguments find_real {K}. Arguments chunks_loop {K}. Arguments items_loop {K}. Arguments fill_loop {K}.
Arguments fill_back_loop {K}. Arguments btree_page_search_items {K}. Arguments btree_page_binary_search_chunks {K}.
Arguments page_item_fill_locator {K}. Arguments page_item_fill_locator_backwards {K}.
Arguments page_locator_next_chunk {K}. Arguments page_locator_prev_chunk {K}.
