(** Leaf pages that are split, merged and compacted, the page images kept in
    the undo log for older snapshots, and the walk that rebuilds the page a
    snapshot saw (C26).
    src/btree/undo.c, src/btree/page_contents.c, src/btree/split.c,
    src/btree/merge.c, src/btree/insert.c.
    Simplified: keys and values are integers; only the leaf level is kept, each
    page with the range its parent gives it; an item is a key with its versions,
    newest first, as the tuple's own undo chain would give them; page space,
    flags and locks are not modelled (an operation on a page is one step). *)
From Coq Require Import ZArith List Bool Lia.
From Verif Require Import Base.
Import ListNotations.
Open Scope Z_scope.

(** A version of a row: who wrote it, and the value or a deletion.
    include/btree/page_contents.h:289-297 (BTreeLeafTuphdr). *)
Definition ver := (Z * option Z)%type.

(** Status of a transaction: running, committed at a number, aborted.
    src/transam/oxid.c:2014-2110 (oxid_get_csn). *)
Inductive stat := Run | Com (d : Z) | Abt.

(** The row a snapshot sees: the newest version committed before it.
    src/btree/iterator.c:700-900 (o_find_tuple_version). *)
Fixpoint vis (st : Z -> stat) (c : Z) (l : list ver) : option Z :=
  match l with
  | [] => None
  | (o, v) :: r => match st o with
                   | Com d => if d <? c then v else vis st c r
                   | _ => vis st c r
                   end
  end.

Definition items := list (Z * list ver).

(** The versions of a key on a page; none if the page has no such item.
    src/btree/find.c:2087-2250 (btree_page_search). *)
Fixpoint look (it : items) (k : Z) : list ver :=
  match it with
  | [] => []
  | (k', l) :: r => if k' =? k then l else look r k
  end.

(** A leaf page: items, low and high key, number of the last structural change
    and location of its undo record.  include/btree/page_contents.h:124-165
    (BTreePageHeader).  [None] as high key is the RIGHTMOST flag, as low key the LEFTMOST flag.  The low key is
    not on the page in the code: it is the parent's separator.  A frozen number
    is 0; an invalid location is negative. *)
Record page := mkPage { p_it : items; p_lo : option Z; p_hi : option Z; p_csn : Z; p_ul : Z }.

(** Is a key in the range of a page? *)
Definition inb (lo hi : option Z) (k : Z) : bool :=
  (match lo with None => true | Some a => a <=? k end) &&
  (match hi with None => true | Some b => k <? b end).
Definition covers (P : page) (k : Z) : bool := inb (p_lo P) (p_hi P) k.

(** Page-level undo records.  include/btree/undo.h:20-118
    (UndoPageImageType and the headers).  A compaction and a full split keep one
    page, a full merge two, the differential ones a key and the continuations.
    The split key of a full split is read by sequential scans only and is left
    out. *)
Inductive rec :=
| RFull (P : page)
| RMerge (A B : page)
| RSplitDiff (s csn ul : Z)
| RMergeDiff (b lcsn lul rcsn rul : Z).

(** What the reader looks for.  include/btree/btree.h:42-124 (BTreeKeyType). *)
Inductive kind := KKey (k : Z) | KHi (k : Z) | KNone | KRight.

(** Which half of a merge is wanted, given the boundary.
    src/btree/undo.c:1243-1262 and 1519-1567. *)
Definition wants_right (q : kind) (b : Z) : bool :=
  match q with
  | KNone => false
  | KRight => true
  | KKey k => b <=? k
  | KHi k => b + 1 <=? k
  end.

(** Items left of a key, and items from it on. *)
Definition below (b : Z) (it : items) : items := filter (fun x => fst x <? b) it.
Definition from (b : Z) (it : items) : items := filter (fun x => b <=? fst x) it.

(** One step back: the page, whether it is the left one, the low key reported,
    whether the record is differential, and whether the page's high key was
    replaced by a larger one (the last is not computed by the code). *)
Record back := mkBack { k_pg : page; k_left : bool; k_lo : option Z; k_diff : bool; k_wide : bool }.

(** src/btree/undo.c:1214-1320 (reconstruct_merge_diff_half). *)
Definition merge_half (q : kind) (D : page) (b lcsn lul rcsn rul : Z) : back :=
  if wants_right q b
  then mkBack (mkPage (from b (p_it D)) (Some b) (p_hi D) rcsn rul) false (Some b) true false
  else mkBack (mkPage (below b (p_it D)) (p_lo D) (Some b) lcsn lul) true None true
         (match p_hi D with Some h => h <? b | None => false end).

(** src/btree/undo.c:1345-1415 (reconstruct_split_diff). *)
Definition split_half (D : page) (s csn ul : Z) : back :=
  let right := match p_hi D with None => true | Some h => s <? h end in
  mkBack (mkPage (p_it D) (p_lo D) (p_hi D) csn ul) (negb right)
    (if right then Some s else None) true false.

(** src/btree/undo.c:1420-1572 (get_page_from_undo). *)
Definition get_page (q : kind) (D : page) (r : rec) : back :=
  match r with
  | RMergeDiff b lc lu rc ru => merge_half q D b lc lu rc ru
  | RSplitDiff s n u => split_half D s n u
  | RFull P => mkBack P true None false false
  | RMerge A B =>
      let b := match p_hi A with Some b => b | None => 0 end in
      if wants_right q b then mkBack B false (Some b) false false
      else mkBack A true None false false
  end.

(** The tighter of two low keys.  src/btree/page_contents.c:105-110. *)
Definition tighter (a b : option Z) : option Z :=
  match b with
  | None => a
  | Some y => match a with None => b | Some x => if x <? y then b else a end
  end.

(** What a read gives: the page, the tightest low key reported, the identity of
    the image, and the widening mark. *)
Record seen := mkSeen { v_pg : page; v_lo : option Z; v_id : option (Z * bool); v_wide : bool }.

(** src/btree/page_contents.c:64-146 (read_page_from_undo): [id] is the identity
    latched at the first differential record. *)
Fixpoint walk (n : nat) (recs : Z -> option rec) (c : Z) (q : kind) (D : page) (u : Z)
    (lo : option Z) (id : option (Z * bool)) (wide : bool) : option seen :=
  match n with
  | O => None
  | S n' =>
      match recs u with
      | None => None
      | Some r =>
          let k := get_page q D r in
          let id' := match id with Some _ => id | None => if k_diff k then Some (u, k_left k) else None end in
          let lo' := tighter lo (k_lo k) in
          let wide' := wide || k_wide k in
          if c <=? p_csn (k_pg k)
          then walk n' recs c q (k_pg k) (p_ul (k_pg k)) lo' id' wide'
          else Some (mkSeen (k_pg k) lo' (Some (match id' with Some i => i | None => (u, k_left k) end)) wide')
      end
  end.

(** src/btree/page_contents.c:258-352 (o_btree_read_page): the live page, or the
    walk if the page changed since the snapshot. *)
Definition read (recs : Z -> option rec) (c : Z) (q : kind) (P : page) : option seen :=
  if c <=? p_csn P
  then walk (Z.to_nat (p_ul P) + 1) recs c q P (p_ul P) None None false
  else Some (mkSeen P None None false).

(** Is an item removed by a structural change numbered [r], when transactions
    below [x] are finished for everybody?  src/btree/undo.c:1599-1606,
    src/btree/split.c:84-92, src/btree/merge.c:686-692. *)
Definition goes (st : Z -> stat) (x r : Z) (i : Z * list ver) : bool :=
  match snd i with
  | (o, None) :: _ => (o <? x) && match st o with Com d => d <? r | _ => false end
  | _ => false
  end.

(** src/btree/undo.c:1588-1610 (page_op_drops_tuple). *)
Definition drops (st : Z -> stat) (x r : Z) (P : page) : bool := existsb (goes st x r) (p_it P).

(** src/btree/split.c:32-115 (make_split_items), src/btree/merge.c:676-735. *)
Definition kept (st : Z -> stat) (x r : Z) (it : items) : items := filter (fun i => negb (goes st x r i)) it.

Record state := mkState {
  s_next : Z;                       (* next commit sequence number *)
  s_st : Z -> stat;
  s_pages : Z -> option page;       (* live leaves *)
  s_recs : Z -> option rec;         (* page-level undo log *)
  s_top : Z;                        (* its end *)
  s_min : Z;                        (* what has to be retained *)
  s_snap : list (Z * (Z * Z)) }.    (* snapshots in use: name, number, retained location *)

Inductive op :=
| Tick                                   (* someone takes a sequence number *)
| Write (o k : Z) (v : option Z)         (* insert, update or delete one row *)
| Commit (o : Z)
| Abort (o : Z)
| Snap (i ret : Z)
| Drop (i : Z)
| Retain (m : Z)                         (* advance the retained location *)
| Compact (p r x : Z)
| Split (p q s r x1 x2 : Z) (sq : bool)  (* new page q, split key s, number r *)
| Merge (p q r x1 x2 : Z) (sq : bool).

(** Push a version: the item of the key, or a new item in key order.
    src/btree/modify.c:804-1010 (o_btree_modify_insert_update,
    o_btree_modify_delete). *)
Fixpoint push (it : items) (k : Z) (w : ver) : items :=
  match it with
  | [] => [(k, [w])]
  | (k', l) :: r => if k' =? k then (k', w :: l) :: r
                    else if k <? k' then (k, [w]) :: it
                    else (k', l) :: push r k w
  end.

(** Take a transaction's versions off a page; an item left without versions
    goes.  src/btree/undo.c:518-640 (modify_undo_callback). *)
Definition unver (o : Z) (it : items) : items :=
  filter (fun i => match snd i with [] => false | _ => true end)
    (map (fun i => (fst i, filter (fun w => negb (fst w =? o)) (snd i))) it).

Definition set_it (P : page) (it : items) : page := mkPage it (p_lo P) (p_hi P) (p_csn P) (p_ul P).

Definition on_pages (s : state) (f : page -> page) : Z -> option page :=
  fun p => match s_pages s p with None => None | Some P => Some (f P) end.

(** Does no active reader need what the location leads to?
    src/btree/insert.c:857-862, src/btree/merge.c:173-183. *)
Definition unneeded (mn u : Z) : bool := (u <? 0) || (u <? mn).

Definition with_pages (s : state) (pg : Z -> option page) : state :=
  mkState (s_next s) (s_st s) pg (s_recs s) (s_top s) (s_min s) (s_snap s).
Definition with_rec (s : state) (pg : Z -> option page) (r : rec) : state :=
  mkState (s_next s) (s_st s) pg (upd (s_recs s) (s_top s) (Some r)) (s_top s + 1) (s_min s) (s_snap s).

(** src/btree/split.c:117-180 (perform_page_compaction): always a full image. *)
Definition compact (s : state) (p r x : Z) (P : page) : state :=
  with_rec s (upd (s_pages s) p (Some (mkPage (kept (s_st s) x r (p_it P)) (p_lo P) (p_hi P) r (s_top s))))
    (RFull P).

(** The two halves of a split.  src/btree/split.c:437-510 (perform_page_split). *)
Definition halves (s : state) (p q k : Z) (P : page) (it : items) (csn ul : Z) : Z -> option page :=
  upd (upd (s_pages s) p (Some (mkPage (below k it) (p_lo P) (Some k) csn ul)))
      q (Some (mkPage (from k it) (Some k) (p_hi P) csn ul)).

(** src/btree/insert.c:799-905 (o_btree_insert_split) and src/btree/undo.c:57-139
    (page_add_image_to_undo).  The items are collected while transactions below
    [x1] are finished for everybody, the image is chosen later, at [x2].  The
    row whose insertion causes the split is a separate [Write]. *)
Definition split (s : state) (p q k r x1 x2 : Z) (sq : bool) (P : page) : state :=
  let it := kept (s_st s) x1 r (p_it P) in
  if unneeded (s_min s) (p_ul P) && negb (drops (s_st s) x2 r P) && negb sq
  then with_pages s (halves s p q k P it 0 (-1))
  else if negb (drops (s_st s) x2 r P) && negb sq
  then with_rec s (halves s p q k P it r (s_top s)) (RSplitDiff k (p_csn P) (p_ul P))
  else with_rec s (halves s p q k P it r (s_top s)) (RFull P).

(** src/btree/merge.c:66-275 (btree_try_merge_pages), 640-790 (merge_pages) and
    src/btree/undo.c:1619-1675 (make_merge_undo_image).  The image is chosen
    while transactions below [x1] are finished for everybody, the items are
    collected later, at [x2]. *)
Definition merge (s : state) (p q b r x1 x2 : Z) (sq : bool) (A B : page) : state :=
  let it := kept (s_st s) x2 r (p_it A) ++ kept (s_st s) x2 r (p_it B) in
  let dr := drops (s_st s) x1 r A || drops (s_st s) x1 r B in
  let put csn ul := upd (upd (s_pages s) p (Some (mkPage it (p_lo A) (p_hi B) csn ul))) q None in
  if unneeded (s_min s) (p_ul A) && unneeded (s_min s) (p_ul B) && negb dr && negb sq
  then with_pages s (put 0 (-1))
  else if dr then with_rec s (put r (s_top s)) (RMerge A B)
  else with_rec s (put r (s_top s)) (RMergeDiff b (p_csn A) (p_ul A) (p_csn B) (p_ul B)).

(** Is another running transaction's version on top of the row? (row lock,
    src/btree/modify.c:486-700)  *)
Definition top_of (s : state) (l : list ver) (o : Z) : bool :=
  match l with
  | (o', _) :: _ => (o' =? o) || match s_st s o' with Run => false | _ => true end
  | [] => true
  end.

Definition step (s : state) (a : op) : state :=
  match a with
  | Tick => mkState (s_next s + 1) (s_st s) (s_pages s) (s_recs s) (s_top s) (s_min s) (s_snap s)
  | Write o k v =>
      match s_st s o with
      | Run => with_pages s (on_pages s (fun P =>
                 if covers P k && top_of s (look (p_it P) k) o
                 then set_it P (push (p_it P) k (o, v)) else P))
      | _ => s
      end
  | Commit o =>
      match s_st s o with
      | Run => mkState (s_next s + 1) (upd (s_st s) o (Com (s_next s))) (s_pages s) (s_recs s)
                 (s_top s) (s_min s) (s_snap s)
      | _ => s
      end
  | Abort o =>
      match s_st s o with
      | Run => mkState (s_next s) (upd (s_st s) o Abt) (on_pages s (fun P => set_it P (unver o (p_it P))))
                 (s_recs s) (s_top s) (s_min s) (s_snap s)
      | _ => s
      end
  | Snap i ret =>
      (* the location is fixed before the number is read: src/transam/undo.c:1140-1185 *)
      if existsb (fun e => fst e =? i) (s_snap s) then s
      else mkState (s_next s) (s_st s) (s_pages s) (s_recs s) (s_top s) (s_min s)
             ((i, (s_next s, Z.max (s_min s) (Z.min ret (s_top s)))) :: s_snap s)
  | Drop i => mkState (s_next s) (s_st s) (s_pages s) (s_recs s) (s_top s) (s_min s)
                (filter (fun e => negb (fst e =? i)) (s_snap s))
  | Retain m =>
      (* src/transam/undo.c:569-700 (update_min_undo_locations): never past what a
         snapshot retains; older records are gone at once here *)
      if (s_min s <=? m) && (m <=? s_top s) && forallb (fun e => m <=? snd (snd e)) (s_snap s)
      then mkState (s_next s) (s_st s) (s_pages s) (fun u => if u <? m then None else s_recs s u)
             (s_top s) m (s_snap s)
      else s
  | Compact p r x =>
      match s_pages s p with
      | Some P => if (p_csn P <? r) && (r <? s_next s) then compact s p r x P else s
      | None => s
      end
  | Split p q k r x1 x2 sq =>
      match s_pages s p, s_pages s q with
      | Some P, None =>
          if (p_csn P <? r) && (r <? s_next s) && (x1 <=? x2) && covers P k &&
             (match p_lo P with None => true | Some a => a <? k end)
          then split s p q k r x1 x2 sq P else s
      | _, _ => s
      end
  | Merge p q r x1 x2 sq =>
      match s_pages s p, s_pages s q with
      | Some A, Some B =>
          match p_hi A, p_lo B with
          | Some b, Some b' =>
              if (b =? b') && (p_csn A <? r) && (p_csn B <? r) && (r <? s_next s) && (x1 <=? x2)
              then merge s p q b r x1 x2 sq A B else s
          | _, _ => s
          end
      | _, _ => s
      end
  end.

(** One empty leaf covering every key, no snapshot. *)
Definition init : state :=
  mkState 1 (fun _ => Run) (upd (fun _ => None) 0 (Some (mkPage [] None None 0 (-1))))
    (fun _ => None) 0 0 [].

(** The rows of an image a snapshot sees. *)
Definition shown (st : Z -> stat) (c : Z) (it : items) : list (Z * Z) :=
  flat_map (fun i => match vis st c (snd i) with Some v => [(fst i, v)] | None => [] end) it.

(** The live leaf a search leads to, among the pages [ids]. *)
Definition leaf_for (s : state) (ids : list Z) (q : kind) : option page :=
  fold_right (fun p r => match s_pages s p with
    | Some P => if (match q with
                    | KKey k => covers P k
                    | KHi k => covers P (k - 1)
                    | KNone => match p_lo P with None => true | Some _ => false end
                    | KRight => match p_hi P with None => true | Some _ => false end end)
                then Some P else r
    | None => r end) None ids.

(** A forward scan of a snapshot: the rows of the image from the key on, then on
    from the image's high key.  src/btree/find.c:1527-1640 (find_right_page). *)
Fixpoint fscan (n : nat) (s : state) (ids : list Z) (c : Z) (q : kind) : list (Z * Z) :=
  match n with
  | O => []
  | S n' =>
      match leaf_for s ids q with
      | None => []
      | Some P =>
          match read (s_recs s) c q P with
          | None => []
          | Some sn =>
              shown (s_st s) c (match q with KKey k => from k (p_it (v_pg sn)) | _ => p_it (v_pg sn) end) ++
              match p_hi (v_pg sn) with None => [] | Some h => fscan n' s ids c (KKey h) end
          end
      end
  end.

(** A backward scan of a snapshot: the rows of the image from the last one down,
    unless it is the image just shown; then on from its low key.
    src/btree/find.c:1642-1795 (find_left_page). *)
Fixpoint bscan (n : nat) (s : state) (ids : list Z) (c : Z) (q : kind) (prev : option (Z * bool)) : list (Z * Z) :=
  match n with
  | O => []
  | S n' =>
      match leaf_for s ids q with
      | None => []
      | Some P =>
          match read (s_recs s) c q P with
          | None => []
          | Some sn =>
              (if match prev, v_id sn with
                  | Some (a, l), Some (b, m) => (a =? b) && Bool.eqb l m
                  | _, _ => false end
               then [] else rev (shown (s_st s) c (p_it (v_pg sn)))) ++
              match p_lo (v_pg sn), (match v_lo sn with Some a => Some a | None => p_lo P end) with
              | Some _, Some a => bscan n' s ids c (KHi a) (v_id sn)
              | _, _ => []
              end
          end
      end
  end.
