(** The rows that a bitmap scan returns for a leaf with a historical page
    (src/btree/scan.c: apply_next_key 2703-2773 over both pages, within the
    loop of btree_seq_scan_getnext_internal 2788-3036).

    Simplified as in LeafMergeModel.v and LeafBitmapModel.v; there is one
    historical page; the steps of adjust_location_with_next_key are those of
    LeafBitmapModel.v, here the dropping of items. *)
From Coq Require Import ZArith List Bool Lia.
From Verif Require Import LeafMergeModel.
Import ListNotations.
Open Scope Z_scope.

Notation hitem := (Z * option Z)%type.

Definition next_wanted (bm : list Z) (k : Z) : option Z := find (fun b => k <=? b) bm.

Fixpoint ldrop (nk : Z) (l : list litem) : list litem :=
  match l with [] => [] | x :: t => if l_key x <? nk then ldrop nk t else l end.

Fixpoint hdrop (nk : Z) (l : list hitem) : list hitem :=
  match l with [] => [] | x :: t => if fst x <? nk then hdrop nk t else l end.

Definition lhit (nk : Z) (l : list litem) : bool :=
  match l with [] => false | x :: _ => l_key x =? nk end.
Definition hhit (nk : Z) (l : list hitem) : bool :=
  match l with [] => false | x :: _ => fst x =? nk end.

(** The lesser of the two keys at the positions (2717-2743).  The comparison
    at 2738-2740 names the historical row, a leaf tuple, a non-leaf key:
    OIndexKeyAttnumToTupleAttnum (include/tableam/descr.h:236-256) then
    takes the first columns of the row for the key.  [rd k] is the value
    read in this way from the historical row with key [k]. *)
Definition least (rd : Z -> Z) (live : list litem) (hs : list hitem) : option Z :=
  match live, hs with
  | [], [] => None
  | l :: _, [] => Some (l_key l)
  | [], h :: _ => Some (fst h)
  | l :: _, h :: _ => Some (if rd (fst h) <? l_key l then fst h else l_key l)
  end.

(** apply_next_key.  Without a next key only the position in the leaf is
    made invalid (2746-2752). *)
Fixpoint apply (n : nat) (rd : Z -> Z) (bm : list Z) (live : list litem) (hs : list hitem)
  : list litem * list hitem :=
  match n with
  | O => (live, hs)
  | S m =>
      match least rd live hs with
      | None => ([], hs)
      | Some k =>
          match next_wanted bm k with
          | None => ([], hs)
          | Some nk =>
              let live' := ldrop nk live in
              let hs' := hdrop nk hs in
              if lhit nk live' || hhit nk hs' then (live', hs')
              else match live', hs' with
                   | [], [] => ([], [])
                   | _, _ => apply m rd bm live' hs'
                   end
          end
      end
  end.

Definition go (rd : Z -> Z) (bm : list Z) (live : list litem) (hs : list hitem) :=
  apply (S (length live + length hs)) rd bm live hs.

(** The loop.  Before a row of the leaf is returned apply_next_key runs a
    second time (2926-2928); if it leaves no row the leaf is done (2965). *)
Fixpoint bmerge (n : nat) (rd : Z -> Z) (lhi : option Z) (bm : list Z) (live : list litem)
    (have : bool) (hs : list hitem) : list (Z * Z) :=
  match n with
  | O => []
  | S m =>
      if have then
        match hs with
        | [] => bmerge m rd lhi bm live false []
        | _ :: _ =>
            let (live1, hs1) := go rd bm live hs in
            match hs1 with
            | [] => bmerge m rd lhi bm live1 true []
            | (k, v) :: t =>
                match live1 with
                | [] =>
                    if at_or_past lhi k
                    then bmerge m rd lhi bm [] false []
                    else emit k v (bmerge m rd lhi bm [] true t)
                | l :: lt =>
                    if (l_key l <? k) || ((k =? l_key l) && l_own l)
                    then let (live2, hs2) := go rd bm live1 (if l_key l <? k then hs1 else t) in
                         match live2 with
                         | [] => []
                         | x :: xt => emit (l_key x) (l_row x) (bmerge m rd lhi bm xt true hs2)
                         end
                    else if k =? l_key l
                    then emit k v (bmerge m rd lhi bm lt true t)
                    else emit k v (bmerge m rd lhi bm live1 true t)
                end
            end
        end
      else
        match live with
        | [] => []
        | _ :: _ =>
            match fst (go rd bm live []) with
            | [] => []
            | x :: xt => emit (l_key x) (l_row x) (bmerge m rd lhi bm xt false [])
            end
        end
  end.

Definition bitmap_hist_leaf rd lhi bm live hs : list (Z * Z) :=
  bmerge (length live + length hs + 2) rd lhi bm live true hs.
