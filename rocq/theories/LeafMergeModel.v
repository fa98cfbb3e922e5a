(** The rows that a sequential scan returns for one leaf: the merge of the
    leaf as it is with the pages that stood in its place at the time of the
    snapshot (src/btree/scan.c:2776-3040, btree_seq_scan_getnext_internal).

    Simplified: keys are integers; the row that o_find_tuple_version (C01)
    gives for an item is part of the item; the historical pages are given
    as a list (read_page_from_undo, C26), the first one from the low key of
    the leaf on (456-470).  No range condition, no bitmap, no partial
    reads. *)
From Coq Require Import ZArith List Bool Lia.
Import ListNotations.
Open Scope Z_scope.

(** An item of the leaf: key, whether the newest version that is not a mere
    lock is of the scanning transaction (2884-2885), and the row of the
    snapshot. *)
Record litem := mkL { l_key : Z; l_own : bool; l_row : option Z }.

(** A historical page: keys with the rows of the snapshot, and the high
    key (none for the rightmost page). *)
Record hpage := mkH { h_items : list (Z * option Z); h_hi : option Z }.

(** A row is returned if there is one (2906, 3017). *)
Definition emit (k : Z) (r : option Z) (out : list (Z * Z)) : list (Z * Z) :=
  match r with Some v => (k, v) :: out | None => out end.

Definition at_or_past (hi : option Z) (k : Z) : bool :=
  match hi with Some h => h <=? k | None => false end.

(** The loop (2788-3036) for one leaf with high key [lhi]; [n] bounds the
    number of turns.  [have]: haveHistImg; [cur]: items from histLoc on;
    [chi]: the high key of the historical page; [rest]: the pages that
    load_next_historical_page will find. *)
Fixpoint merge (n : nat) (lhi : option Z) (live : list litem) (have : bool)
    (cur : list (Z * option Z)) (chi : option Z) (rest : list hpage) : list (Z * Z) :=
  match n with
  | O => []
  | S m =>
      if have then
        match cur with
        | [] =>
            match chi with
            | None => merge m lhi live false [] None []             (* 2796-2800 *)
            | Some hh =>
                if at_or_past lhi hh
                then merge m lhi live false [] None []              (* 2801-2815 *)
                else match rest with
                     | p :: r => merge m lhi live true (h_items p) (h_hi p) r   (* 2816 *)
                     | [] => merge m lhi live false [] None []
                     end
            end
        | (k, v) :: t =>
            match live with
            | [] =>
                if at_or_past lhi k
                then merge m lhi [] false [] None []                (* 2834-2844 *)
                else emit k v (merge m lhi [] true t chi rest)      (* 2897-2906 *)
            | l :: lt =>
                if l_key l <? k                                     (* 2858-2859 *)
                then emit (l_key l) (l_row l) (merge m lhi lt true cur chi rest)
                else if k =? l_key l                                (* 2861 *)
                then if l_own l
                     then emit (l_key l) (l_row l) (merge m lhi lt true t chi rest)  (* 2884-2889 *)
                     else emit k v (merge m lhi lt true t chi rest)                  (* 2890-2893 *)
                else emit k v (merge m lhi live true t chi rest)
            end
        end
      else
        match live with
        | [] => []                                                  (* the next leaf: 2965 *)
        | l :: lt => emit (l_key l) (l_row l) (merge m lhi lt false [] None [])      (* 3008-3017 *)
        end
  end.

(** Enough turns for a leaf and its pages. *)
Fixpoint weight (pages : list hpage) : nat :=
  match pages with [] => 0%nat | p :: r => (length (h_items p) + 2 + weight r)%nat end.

Definition turns (live : list litem) (pages : list hpage) : nat :=
  (length live + weight pages + 2)%nat.

(** A leaf with no history (haveHistImg is false), or with pages. *)
Definition scan_leaf (lhi : option Z) (live : list litem) (pages : list hpage) : list (Z * Z) :=
  match pages with
  | [] => merge (turns live []) lhi live false [] None []
  | p :: r => merge (turns live pages) lhi live true (h_items p) (h_hi p) r
  end.
