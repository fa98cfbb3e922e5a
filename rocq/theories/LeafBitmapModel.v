(** The rows that a bitmap scan returns for one leaf: the key-driven walk
    over the chunks of the leaf, with the resumption after a partial read
    that failed (src/btree/scan.c: adjust_location_with_next_key 2636-2701,
    apply_next_key 2703-2773, the loop of btree_seq_scan_getnext_internal
    2926-3036, btree_seq_scan_get_tuple_from_iterator 2599-2634).

    Simplified: keys are integers and every item is a row of the snapshot;
    the leaf has no historical image (LeafMergeModel.v has that side); the
    iterator of the resumption returns the rows of the leaf from a key on
    (C20).  A load of a chunk that fails while the position is moved has the
    same effect as one that fails before, so there is one failure point in
    each turn. *)
From Coq Require Import ZArith List Bool Lia.
Import ListNotations.
Open Scope Z_scope.

(** A chunk from the position on: its items, and its high key. *)
Record chunk := mkC { c_items : list Z; c_hi : Z }.

(** o_bitmap_get_next_key, inclusive: the least key of the bitmap (an
    ascending list, C42) at or after [k]. *)
Definition next_wanted (bm : list Z) (k : Z) : option Z := find (fun b => k <=? b) bm.

(** Skip chunks by their high keys, not the last one (2660-2677). *)
Fixpoint skip (nk : Z) (cs : list chunk) : list chunk :=
  match cs with
  | c :: ((_ :: _) as r) => if c_hi c <=? nk then skip nk r else cs
  | _ => cs
  end.

Fixpoint drop (nk : Z) (l : list Z) : list Z :=
  match l with
  | [] => []
  | k :: t => if k <? nk then drop nk t else l
  end.

(** Step item by item, over chunk boundaries (2679-2699). *)
Fixpoint walk (nk : Z) (cs : list chunk) : list chunk :=
  match cs with
  | [] => []
  | c :: r =>
      match drop nk (c_items c) with
      | [] => walk nk r
      | its => mkC its (c_hi c) :: r
      end
  end.

(** The item at the position; empty chunks are passed over
    (BTREE_PAGE_LOCATOR_NEXT). *)
Fixpoint item (cs : list chunk) : option Z :=
  match cs with
  | [] => None
  | c :: r => match c_items c with [] => item r | k :: _ => Some k end
  end.

Fixpoint advance (cs : list chunk) : list chunk :=
  match cs with
  | [] => []
  | c :: r => match c_items c with [] => advance r | _ :: t => mkC t (c_hi c) :: r end
  end.

(** adjust_location_with_next_key. *)
Definition adjust (nk : Z) (cs : list chunk) : list chunk :=
  match item cs with
  | None => cs
  | Some k => if nk <=? k then cs else walk nk (skip nk cs)
  end.

(** The rows of the iterator after a failure (2932-2962, 2615-2625): from
    the last key processed on, without that key; all of them if there is
    none. *)
Definition resume (rows : list Z) (last : option Z) : list Z :=
  match last with
  | None => rows
  | Some k => filter (fun x => negb (x <=? k)) rows
  end.

(** [fails]: whether the load of a chunk fails in each turn; [last]:
    lastLeafKey; [rows]: all rows of the leaf. *)
Fixpoint bwalk (n : nat) (bm rows : list Z) (fails : list bool) (last : option Z)
    (cs : list chunk) : list Z :=
  match n with
  | O => []
  | S m =>
      match item cs with
      | None => []
      | Some k =>
          if hd false fails then resume rows last
          else match next_wanted bm k with
               | None => []                                        (* 2746-2752 *)
               | Some nk =>
                   let cs' := adjust nk cs in
                   match item cs' with
                   | None => []                                    (* 2768-2771 *)
                   | Some k' =>
                       if k' =? nk
                       then k' :: bwalk m bm rows (tl fails) (Some nk) (advance cs')
                       else bwalk m bm rows (tl fails) last cs'
                   end
               end
      end
  end.

Definition rows_of (cs : list chunk) : list Z := flat_map c_items cs.

Definition bitmap_leaf (bm : list Z) (fails : list bool) (cs : list chunk) : list Z :=
  bwalk (S (length (rows_of cs))) bm (rows_of cs) fails None cs.
