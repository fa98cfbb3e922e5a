(** Model of the page-usage map (src/utils/ucm.c) and of the page accounting of the
    page pool (src/utils/page_pool.c).

    A page has a usage level 0..6, FREE (7) or INVALID (15: occupied, not counted).  The
    map is an array of 32-bit words, each holding eight 4-bit counters; the words form a
    15-ary forest laid out in an array.

    Simplifications: the usage level is the only part of the page state word kept, so a
    compare-and-exchange of the word is a test and change of the level (a failed exchange
    is a step that changes nothing); the offset of the pool is 0; a process that is inside
    ucm_inc_recursive is an entry of a list of pending updates, so any process may do
    further steps while its update is pending (more schedules than the code has). *)
From Coq Require Import ZArith List Bool.
From Verif Require Import Base.
Import ListNotations.
Open Scope Z_scope.

(** ucm.c:23, include/utils/ucm.h:18-21. *)
Definition BF : Z := 15.
Definition INVALID : Z := 15.
Definition FREE : Z := 7.
Definition USAGE_LEVELS : Z := 7.

(** Counter of level [l] in word [w]: (w >> 4l) & 0xF (ucm.c:24-25, 167-190). *)
Definition nib (w l : Z) : Z := (w / 16 ^ l) mod 16.

(** The sizes computed by estimate_ucm_space, ucm.c:36-62. *)
Record geom := mkGeom { g_size : Z; g_total : Z; g_nonLeaf : Z; g_root : Z }.

(** The loop of ucm.c:50-59: n, n_non_leaf_vars, rootFactor. *)
Fixpoint est_loop (fuel : nat) (n nnl root : Z) : Z * Z * Z :=
  match fuel with
  | O => (n, nnl, root)
  | S f => if BF <? n then est_loop f ((n + (BF - 1)) / BF) ((nnl + 1) * BF) (root * BF) else (n, nnl, root)
  end.
(** ucm.c:43-61; [n] iterations are more than the loop needs. *)
Definition estimate (size : Z) : geom :=
  let leaf := (size + BF - 1) / BF in
  let '(_, nnl, root) := est_loop (Z.to_nat leaf) leaf 0 BF in
  mkGeom size (nnl + leaf) nnl root.

(** zseq a n = [a; a+1; ...], n elements. *)
Fixpoint zseq (a : Z) (n : nat) : list Z := match n with O => [] | S m => a :: zseq (a + 1) m end.
Definition range (a b : Z) : list Z := zseq a (Z.to_nat (b - a)).

(** get_value_frame, ucm.c:64-82: one at each level whose counter is non-zero. *)
Definition frame (w : Z) : Z :=
  fold_left (fun acc l => if nib w l =? 0 then acc else acc + 16 ^ l) (range 0 8) 0.

Section Map.
Variable g : geom.

(** ucm.c:232: the word of a page's group. *)
Definition leaf_of (b : Z) : Z := g_nonLeaf g + b / BF.
(** ucm.c:209: the word that summarises word [i]. *)
Definition parent (i : Z) : Z := i / BF - 1.

(** init_ucm 128-143 and init_ucm_non_leaf_recursive 84-107: value of word [i]. *)
Fixpoint init_word (fuel : nat) (i : Z) : Z :=
  match fuel with
  | O => 0
  | S f =>
      if i <? g_nonLeaf g then
        fold_left (fun acc j => acc + frame (init_word f j)) (range ((i + 1) * BF) ((i + 2) * BF)) 0
      else if i <? g_total g then
        Z.min (g_size g - (i - g_nonLeaf g) * BF) BF * 16 ^ FREE
      else 0
  end.

(** A pending ucm_inc_recursive(map, i, prev, next). *)
Record pend := mkPend { p_node : Z; p_prev : Z; p_next : Z }.

(** The steps of the pool.  [l_got]: page handed to a process; [l_rel]: page returned. *)
Inductive ev := Got (p b : Z) | Rel (p b : Z).

Record st := mkSt {
  lev : Z -> Z;                        (* usage level in the page state word *)
  word : Z -> Z;                       (* map->ucm *)
  pends : list pend;
  avail : Z;                           (* availablePagesCount, as a signed 64-bit number *)
  resv : Z -> Z;                       (* numPagesReserved, per process (the kinds summed) *)
  tries : list Z;                      (* reservations that went negative, to be added back *)
  alloc : Z -> Z;                      (* process is between 284 and 286 of o_ppool_alloc_page *)
  unadded : Z;                         (* pages freed, not yet added to availablePagesCount *)
  log : list ev
}.

Definition set_map s lv w pe := mkSt lv w pe (avail s) (resv s) (tries s) (alloc s) (unadded s) (log s).

(** ucm_inc 214-233: nothing if the level does not change, else the leaf update is pending. *)
Definition ucm_inc (pe : list pend) (b prev next : Z) : list pend :=
  if prev =? next then pe else mkPend (leaf_of b) prev next :: pe.

(** ucm_inc_recursive 159-205: can the exchange of word [w] succeed now, or does it spin? *)
Definition ready (w prev next : Z) : bool :=
  ((prev =? INVALID) || negb (nib w prev =? 0)) && ((next =? INVALID) || negb (nib w next =? 15)).
Definition one (l : Z) : Z := if l =? INVALID then 0 else 16 ^ l.
Definition bump (w prev next : Z) : Z := w - one prev + one next.

(** 207-211: what is propagated to the parent. *)
Definition up_prev (w' prev : Z) : Z := if prev =? INVALID then INVALID else if nib w' prev =? 0 then prev else INVALID.
Definition up_next (w next : Z) : Z := if next =? INVALID then INVALID else if nib w next =? 0 then next else INVALID.

Fixpoint remove_nth (n : nat) (l : list pend) : list pend :=
  match n, l with
  | _, [] => []
  | O, _ :: r => r
  | S m, x :: r => x :: remove_nth m r
  end.

Inductive op :=
| Apply (n : nat)                      (* one successful exchange of the n-th pending update *)
| Inc (b : Z)                          (* page_inc_usage_count 235-274, or a latch (ucm.h:51-83) *)
| Init (p b v : Z)                     (* o_ucm_init, page_pool.c:534-540 *)
| Reserve (p n : Z)                    (* one round of o_ppool_reserve_pages 195-198 *)
| AddBack (n : nat)                    (* 199 *)
| Release (p : Z)                      (* o_ppool_release_reserved 227-246 *)
| StartAlloc (p : Z)                   (* o_ppool_alloc_page 283-284 *)
| TryPage (p b : Z)                    (* ucm_occupy_free_page 569-582 at page b *)
| FreePage (p b : Z)                   (* o_ppool_free_page 330 *)
| AddFreed.                            (* 332 *)

(** Does [p] own [b] according to the log? *)
Fixpoint owner (l : list ev) (b : Z) : option Z :=
  match l with
  | [] => None
  | Got p b' :: r => if b' =? b then Some p else owner r b
  | Rel p b' :: r => if b' =? b then None else owner r b
  end.

Definition in_pool (b : Z) : bool := (0 <=? b) && (b <? g_size g).

Definition step (s : st) (o : op) : st :=
  match o with
  | Apply n =>
      match nth_error (pends s) n with
      | None => s
      | Some (mkPend i prev next) =>
          let w := word s i in
          if ready w prev next then
            let w' := bump w prev next in
            let rest := remove_nth n (pends s) in
            set_map s (lev s) (upd (word s) i w')
              (if BF <=? i then mkPend (parent i) (up_prev w' prev) (up_next w next) :: rest else rest)
          else s
      end
  | Inc b =>
      let u := lev s b in
      if in_pool b && (u <? USAGE_LEVELS)
      then set_map s (upd (lev s) b ((u + 1) mod USAGE_LEVELS)) (word s) (ucm_inc (pends s) b u ((u + 1) mod USAGE_LEVELS))
      else s
  | Init p b v =>
      match owner (log s) b with
      | Some q => if (q =? p) && in_pool b && (0 <=? v) && (v <? USAGE_LEVELS)
                  then set_map s (upd (lev s) b v) (word s) (ucm_inc (pends s) b (lev s b) v)
                  else s
      | None => s
      end
  | Reserve p n =>
      if n <=? 0 then s
      else let a := avail s - n in
           if a <? 0 then mkSt (lev s) (word s) (pends s) a (resv s) (n :: tries s) (alloc s) (unadded s) (log s)
           else mkSt (lev s) (word s) (pends s) a (upd (resv s) p (resv s p + n)) (tries s) (alloc s) (unadded s) (log s)
  | AddBack n =>
      match nth_error (tries s) n with
      | None => s
      | Some c => mkSt (lev s) (word s) (pends s) (avail s + c) (resv s)
                       (firstn n (tries s) ++ skipn (S n) (tries s)) (alloc s) (unadded s) (log s)
      end
  | Release p =>
      mkSt (lev s) (word s) (pends s) (avail s + resv s p) (upd (resv s) p 0) (tries s) (alloc s) (unadded s) (log s)
  | StartAlloc p =>
      if (0 <? resv s p) && (alloc s p =? 0)
      then mkSt (lev s) (word s) (pends s) (avail s) (upd (resv s) p (resv s p - 1)) (tries s)
                (upd (alloc s) p 1) (unadded s) (log s)
      else s
  | TryPage p b =>
      if (alloc s p =? 1) && in_pool b && (lev s b =? FREE)
      then mkSt (upd (lev s) b INVALID) (word s) (ucm_inc (pends s) b FREE INVALID) (avail s) (resv s) (tries s)
                (upd (alloc s) p 0) (unadded s) (Got p b :: log s)
      else s
  | FreePage p b =>
      match owner (log s) b with
      | Some q => if (q =? p) && in_pool b
                  then mkSt (upd (lev s) b FREE) (word s) (ucm_inc (pends s) b (lev s b) FREE) (avail s) (resv s)
                            (tries s) (alloc s) (unadded s + 1) (Rel p b :: log s)
                  else s
      | None => s
      end
  | AddFreed =>
      if 0 <? unadded s
      then mkSt (lev s) (word s) (pends s) (avail s + 1) (resv s) (tries s) (alloc s) (unadded s - 1) (log s)
      else s
  end.

(** o_ppool_shmem_init 129-156 with init_ucm 112-143. *)
Definition init : st :=
  mkSt (fun _ => FREE) (init_word (Z.to_nat (g_total g) + 1)) [] (g_size g) (fun _ => 0) [] (fun _ => 0) 0 [].

(** ucm_occupy_free_page 541-608, one round of the loop; [inl] is a page whose level is FREE. *)
Record pos := mkPos { q_loc : Z; q_factor : Z; q_base : Z; q_iter : Z }.
Definition next_loc (loc factor : Z) : Z :=
  let j := (loc / factor) mod BF in
  (loc / factor) * factor + ((j + 1) mod BF - j) * factor.
Definition search_step (lv w : Z -> Z) (q : pos) : Z + pos :=
  let i := q_base q + (q_loc q / q_factor q) mod BF in
  if (q_factor q =? 1) && (q_loc q <? g_size g) && (lv (q_loc q) =? FREE) then inl (q_loc q)
  else if (i <? g_total g) && negb (nib (w i) FREE =? 0)
  then inr (mkPos (q_loc q) (q_factor q / BF) ((i + 1) * BF) 0)
  else
    let up := (2 * BF <? q_iter q) && negb (q_base q =? 0) in
    let factor := if up then q_factor q * BF else q_factor q in
    let base := if up then ((i / BF - 1) / BF) * BF else q_base q in
    let it := if up then 0 else q_iter q in
    inr (mkPos (next_loc (q_loc q) factor) factor base (it + 1)).
Definition search_init : pos := mkPos 0 (g_root g) 0 0.
Fixpoint search (fuel : nat) (lv w : Z -> Z) (q : pos) : option Z :=
  match fuel with
  | O => None
  | S f => match search_step lv w q with inl b => Some b | inr q' => search f lv w q' end
  end.

End Map.
