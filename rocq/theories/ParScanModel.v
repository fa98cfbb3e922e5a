(** The sequential scan of a tree by any number of workers
    (src/btree/scan.c).

    Modelled: the two shared images of internal pages of level 1, the
    handing out of their downlinks one by one, the iterators made where an
    image does not continue the previous one, the shared array of on-disk
    downlinks with the counter of its writers, its sort, and the handing
    out of its entries.

    Simplified: keys are integers; an operation is one section under the
    spin lock [intpageAccess], one atomic operation or one section under
    [downlinksPublish]; reading the rows of a key range (the leaf, the
    iterator, the disk page, with their versions) is one operation that
    records the range.  Not modelled: a range condition on the scan, bitmap
    callbacks, sampling, ordered and backward scans, partial page reads and
    the size of the shared array. *)
From Coq Require Import ZArith List Bool Lia.
From Verif Require Import Base.
Import ListNotations.
Open Scope Z_scope.

(** src/btree/scan.c:2096-2235, the kinds of downlinks; an on-disk one has
    an address. *)
Inductive dl := OnDisk (a : Z) | InMem | InIo.

(** A key range: from the first bound, inclusive, to the second,
    exclusive; [None] is the open end of its side. *)
Definition range := (option Z * option Z)%type.

(** The image of an internal page of level 1: its low key ([None] for the
    leftmost page), the downlink of its first item, the other items with
    their keys, its high key ([None] for the rightmost page).
    include/btree/page_contents.h, BTREE_PAGE_READ_INTERNAL_ITEM; the low
    key is [context.lokey]. *)
Record image := mkImg {
  im_lo : option Z; im_d : dl; im_rest : list (Z * dl); im_hi : option Z }.

(** The items from a locator to the end of its page. *)
Inductive left :=
  | Nothing
  | Items (lo : option Z) (d : dl) (rest : list (Z * dl)).

(** src/btree/scan.c:992-1013, get_next_key: the key of the next item, or
    the high key of the page. *)
Definition next_key (rest : list (Z * dl)) (hi : option Z) : option Z :=
  match rest with [] => hi | (z, _) :: _ => Some z end.

(** src/btree/scan.c:995, BTREE_PAGE_LOCATOR_NEXT. *)
Definition advance (rest : list (Z * dl)) : left :=
  match rest with [] => Nothing | (z, d) :: t => Items (Some z) d t end.

(** The locator that find_page leaves for a key: the last item whose key
    is not above it (src/btree/find.c, btree_page_search). *)
Fixpoint locate (p : Z) (lo : option Z) (d : dl) (rest : list (Z * dl))
  : option Z * dl * list (Z * dl) :=
  match rest with
  | [] => (lo, d, rest)
  | (z, d') :: t => if z <=? p then locate p (Some z) d' t else (lo, d, rest)
  end.

(** BTreeIntPageParallelData (include/btree/scan.h): a free slot, one that
    is being loaded for the high key of the page before it, and a loaded
    one: whether the offset is still [startOffset], whether the image is of
    the leftmost page, [prevHikey], the items from [offset] on, the high
    key of the image. *)
Inductive slot :=
  | Invalid
  | Busy (prev : option Z)
  | Valid (atstart leftmost : bool) (prev : option Z) (todo : left) (hi : option Z).

Definition eqb_opt (a b : option Z) : bool :=
  match a, b with
  | None, None => true
  | Some x, Some y => x =? y
  | _, _ => false
  end.

Definition is_none {A : Type} (a : option A) : bool :=
  match a with None => true | Some _ => false end.

(** src/btree/scan.c:536-703, load_next_internal_page: the slot after the
    load and the range of the iterator, made if the item found does not
    begin at the previous high key. *)
Definition load (prev : option Z) (i : image) : slot * list range :=
  match prev with
  | None =>
      (Valid true (is_none (im_lo i)) prev (Items (im_lo i) (im_d i) (im_rest i)) (im_hi i), [])
  | Some p =>
      let '(lo, d, rest) := locate p (im_lo i) (im_d i) (im_rest i) in
      if eqb_opt lo prev
      then (Valid true (is_none (im_lo i)) prev (Items lo d rest) (im_hi i), [])
      else (Valid false (is_none (im_lo i)) prev (advance rest) (im_hi i),
            [(prev, next_key rest (im_hi i))])
  end.

(** src/btree/scan.c:941-989, get_current_downlink_key: the low key of the
    current downlink; [lo] is the key of its item. *)
Definition low_key (atstart leftmost : bool) (prev lo : option Z) : option Z :=
  if atstart then (if leftmost then None else prev) else lo.

(** What a worker does. *)
Inductive wstate :=
  | Idle
  | Loading (b : bool)                                  (* the slot it loads *)
  | Holding (d : dl) (klow lo hi : option Z)            (* has a downlink *)
  | Writing (a : Z) (r : range)                         (* has to add it to the array *)
  | AtEnd                                               (* no downlink is left *)
  | Waited                                              (* saw no writer *)
  | Disk
  | Done.

Record state := mkSt {
  s_a : slot; s_b : slot;         (* intPage[0], intPage[1] *)
  s_cur : bool;                   (* O_PARALLEL_CURRENT_PAGE *)
  s_first : bool;                 (* O_PARALLEL_FIRST_PAGE_LOADED *)
  s_single : bool;                (* O_PARALLEL_IS_SINGLE_LEAF_PAGE *)
  s_writers : Z;                  (* downlinksWritersInProgress *)
  s_arr : list (Z * range);       (* the shared array of on-disk downlinks *)
  s_ix : nat;                     (* downlinkIndex *)
  s_sorted : bool;                (* O_PARALLEL_DOWNLINKS_SORTED *)
  s_ws : list wstate;             (* the workers *)
  s_read : list range             (* the ranges whose rows were returned *)
}.

Definition get (s : state) (b : bool) : slot := if b then s_b s else s_a s.

Definition put (s : state) (b : bool) (v : slot) : state :=
  mkSt (if b then s_a s else v) (if b then v else s_b s) (s_cur s) (s_first s)
       (s_single s) (s_writers s) (s_arr s) (s_ix s) (s_sorted s) (s_ws s) (s_read s).

Fixpoint set_nth (l : list wstate) (n : nat) (v : wstate) : list wstate :=
  match l, n with
  | [], _ => []
  | _ :: t, O => v :: t
  | x :: t, S m => x :: set_nth t m v
  end.

Definition setw (s : state) (w : nat) (v : wstate) : state :=
  mkSt (s_a s) (s_b s) (s_cur s) (s_first s) (s_single s) (s_writers s)
       (s_arr s) (s_ix s) (s_sorted s) (set_nth (s_ws s) w v) (s_read s).

Definition emit (s : state) (l : list range) : state :=
  mkSt (s_a s) (s_b s) (s_cur s) (s_first s) (s_single s) (s_writers s)
       (s_arr s) (s_ix s) (s_sorted s) (s_ws s) (s_read s ++ l).

Definition addw (s : state) (x : Z) : state :=
  mkSt (s_a s) (s_b s) (s_cur s) (s_first s) (s_single s) (s_writers s + x)
       (s_arr s) (s_ix s) (s_sorted s) (s_ws s) (s_read s).

Definition flip (s : state) : state :=
  mkSt (s_a s) (s_b s) (negb (s_cur s)) (s_first s) (s_single s) (s_writers s)
       (s_arr s) (s_ix s) (s_sorted s) (s_ws s) (s_read s).

Definition set_first (s : state) : state :=
  mkSt (s_a s) (s_b s) (s_cur s) true (s_single s) (s_writers s)
       (s_arr s) (s_ix s) (s_sorted s) (s_ws s) (s_read s).

Definition set_single (s : state) : state :=
  mkSt (s_a s) (s_b s) (s_cur s) (s_first s) true (s_writers s)
       (s_arr s) (s_ix s) (s_sorted s) (s_ws s) (s_read s).

Definition set_arr (s : state) (a : list (Z * range)) (i : nat) (srt : bool) : state :=
  mkSt (s_a s) (s_b s) (s_cur s) (s_first s) (s_single s) (s_writers s)
       a i srt (s_ws s) (s_read s).

(** src/tableam/handler.c:1711-1727, orioledb_parallelscan_initialize_inner, and
    [n] workers that begin. *)
Definition init (n : nat) : state :=
  mkSt Invalid Invalid false false false 0 [] 0 false (repeat Idle n) [].

(** src/btree/scan.c:798-809, cmp_downlinks, and the sort by it. *)
Fixpoint ins (e : Z * range) (l : list (Z * range)) : list (Z * range) :=
  match l with
  | [] => [e]
  | x :: t => if fst e <=? fst x then e :: l else x :: ins e t
  end.
Definition sort_dl (l : list (Z * range)) : list (Z * range) := fold_right ins [] l.

(** The image that a descent finds: its items ascend, and it covers the
    key the descent looked for.  The environment chooses it, so it may be
    of any shape of the tree at the time of the load. *)
Definition below (a b : option Z) : bool :=
  match a, b with Some x, Some y => x <? y | _, _ => true end.
Fixpoint ascends (lo : option Z) (rest : list (Z * dl)) (hi : option Z) : bool :=
  match rest with
  | [] => below lo hi
  | (z, _) :: t => below lo (Some z) && ascends (Some z) t hi
  end.
Definition from_lo (lo : option Z) (k : Z) : bool :=
  match lo with None => true | Some z => z <=? k end.
Definition upto_hi (hi : option Z) (k : Z) : bool :=
  match hi with None => true | Some z => k <? z end.
Definition found (prev : option Z) (i : image) : bool :=
  ascends (im_lo i) (im_rest i) (im_hi i) &&
  match prev with
  | None => is_none (im_lo i)
  | Some p => from_lo (im_lo i) p && upto_hi (im_hi i) p
  end.

Inductive op :=
  | Look (w : nat)                  (* one turn of get_next_downlink *)
  | Load (w : nat) (i : image)      (* the end of load_next_internal_page *)
  | LoadLeaf (w : nat)              (* the same, the root is a leaf *)
  | Read (w : nat) (ok : bool)      (* the downlink; ok: the leaf matches it *)
  | Write (w : nat)                 (* add_on_disk_downlink *)
  | Wait (w : nat)                  (* one test of the writers *)
  | Sort (w : nat)                  (* switch_to_disk_scan *)
  | Claim (w : nat).                (* load_next_disk_leaf_page *)

Definition worker (s : state) (w : nat) : wstate := nth w (s_ws s) Done.

(** src/btree/scan.c:1304-1453, get_next_downlink, the parallel case. *)
Definition look (s : state) (w : nat) : state :=
  let c := s_cur s in
  if s_single s then setw s w AtEnd
  else match get s c with
  | Invalid =>
      if s_first s then setw s w AtEnd
      else setw (put s c (Busy None)) w (Loading c)
  | Busy _ => s
  | Valid st lm prev todo hi =>
      match get s (negb c), hi with
      | Invalid, Some h => setw (put s (negb c) (Busy hi)) w (Loading (negb c))
      | _, _ =>
          match todo with
          | Items lo d rest =>
              setw (addw (put s c (Valid false lm prev (advance rest) hi)) 1) w
                   (Holding d (low_key st lm prev lo) lo (next_key rest hi))
          | Nothing => flip (put s c Invalid)
          end
      end
  end.

(** src/btree/scan.c:2096-2232, iterate_internal_page: an on-disk downlink
    is taken off the count of writers before it is added to the array
    (2098-2101, 2127); an in-memory leaf that matches is read, otherwise
    the range is read by an iterator. *)
Definition read (s : state) (w : nat) (ok : bool) (d : dl) (klow lo hi : option Z) : state :=
  match d with
  | OnDisk a => setw (addw s (-1)) w (Writing a (lo, hi))
  | InMem => setw (emit (addw s (-1)) [(if ok then lo else klow, hi)]) w Idle
  | InIo => setw (emit (addw s (-1)) [(klow, hi)]) w Idle
  end.

Definition step (s : state) (o : op) : state :=
  match o with
  | Look w => match worker s w with Idle => look s w | _ => s end
  | Load w i =>
      match worker s w with
      | Loading b =>
          match get s b with
          | Busy prev =>
              if found prev i
              then let '(v, it) := load prev i in
                   setw (emit (set_first (put s b v)) it) w Idle
              else s
          | _ => s
          end
      | _ => s
      end
  | LoadLeaf w =>
      match worker s w with
      | Loading b =>
          match get s b with
          | Busy None => setw (emit (set_single s) [(None, None)]) w Idle
          | _ => s
          end
      | _ => s
      end
  | Read w ok =>
      match worker s w with
      | Holding d klow lo hi => read s w ok d klow lo hi
      | _ => s
      end
  | Write w =>
      match worker s w with
      | Writing a r => setw (set_arr s (s_arr s ++ [(a, r)]) (s_ix s) (s_sorted s)) w Idle
      | _ => s
      end
  | Wait w =>
      match worker s w with
      | AtEnd => if s_writers s >? 0 then s else setw s w Waited
      | _ => s
      end
  | Sort w =>
      match worker s w with
      | Waited =>
          setw (if s_sorted s then s else set_arr s (sort_dl (s_arr s)) 0 true) w Disk
      | _ => s
      end
  | Claim w =>
      match worker s w with
      | Disk =>
          let s' := set_arr s (s_arr s) (S (s_ix s)) (s_sorted s) in
          match nth_error (s_arr s) (s_ix s) with
          | None => setw s' w Done
          | Some e => emit s' [snd e]
          end
      | _ => s
      end
  end.
