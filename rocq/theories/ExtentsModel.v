(** Free file extents of one tree: src/catalog/free_extents.c.
    The two shared indexes are modelled as lists of (offset, length) used as
    finite sets; the key comparison follows src/catalog/sys_trees.c:1218-1263:
    the (off,len) index compares offsets only, the (len,off) index compares both
    fields.  Entries of other trees (different datoid/relnode/ixType,
    EXTENTS_IX_EQ, free_extents.c:45-47) never compare equal and are left out.
    Every index update is atomic (it happens under a page lock); everything in
    between may interleave.  Offsets and lengths are unbounded integers (uint48 /
    uint64 in the code). *)
From Coq Require Import ZArith List Bool.
From Verif Require Import Base.
Import ListNotations.
Open Scope Z_scope.

Definition ext := (Z * Z)%type.   (* offset, length in file blocks *)

Definition ext_eqb (a b : ext) : bool := (fst a =? fst b) && (snd a =? snd b).

(** Program counters inside get_extent / free_extent.  *)
Inductive epc :=
| EIdle
| GExtend (n : Z)                         (* 94-102, 178-188: about to extend the file *)
| GFind (n : Z)                           (* 105-176: searching the (len,off) index *)
| GGot (o L n : Z)                        (* 221: extent (o,L) deleted from (len,off) *)
| GDel (o L n : Z)                        (* 235: remainder is in (off,len) *)
| GPut (o L n : Z)                        (* 245: remainder not yet in (len,off) *)
| FScan (e : ext)                         (* 311: looking for neighbours *)
| FDelR (e : ext) (lf rt : option ext)    (* 368 *)
| FDelL (e : ext) (lf rt : option ext)    (* 378 *)
| FUndoR (e rt : ext)                     (* 386: put the right neighbour back *)
| FOffR (e : ext) (lf rt : option ext)    (* 405 *)
| FOffL (e : ext) (lf rt : option ext)    (* 418 *)
| FInsOff (e : ext) (lf rt : option ext)  (* 434-454 *)
| FInsLen (e : ext) (lf rt : option ext). (* 461 *)

Record est := mkEst {
  e_lenoff : list ext;      (* SYS_TREES_EXTENTS_LEN_OFF *)
  e_offlen : list ext;      (* SYS_TREES_EXTENTS_OFF_LEN *)
  e_filelen : Z;            (* metaPage->datafileLength[0] *)
  e_numfree : Z;            (* metaPage->numFreeBlocks *)
  e_used : list ext;        (* extents handed out to callers and not freed (ghost) *)
  e_thr : list epc;         (* backends *)
  e_fatal : bool            (* an elog(FATAL) of the code was reached *)
}.

Definition einit : est := mkEst [] [] 0 0 [] [] false.

Fixpoint set_nth {A} (l : list A) (i : nat) (x : A) : list A :=
  match l, i with
  | [], _ => []
  | _ :: t, O => x :: t
  | h :: t, S j => h :: set_nth t j x
  end.

Definition mem (e : ext) (l : list ext) : bool := existsb (ext_eqb e) l.

(** Delete one occurrence. *)
Fixpoint del (e : ext) (l : list ext) : list ext :=
  match l with
  | [] => []
  | h :: t => if ext_eqb e h then t else h :: del e t
  end.

(** (off,len) index: keyed by offset only (sys_trees.c:1218-1234). *)
Definition has_off (o : Z) (l : list ext) : bool := existsb (fun h => fst h =? o) l.
Fixpoint del_off (o : Z) (l : list ext) : list ext :=
  match l with
  | [] => []
  | h :: t => if fst h =? o then t else h :: del_off o t
  end.

(** free_extent 330-365: which neighbours to merge, from the one or two tuples
    fetched from the (off,len) index.  [c1] is the first fetched tuple, [c2] the
    second; both may be stale by the time they are used. *)
Definition decide_merge (e : ext) (c1 c2 : option ext) : option ext * option ext :=
  let '(o, l) := e in
  match c1 with
  | None => (None, None)
  | Some (co, cl) =>
      if negb (co =? o + l)
      then (if co + cl =? o then Some (co, cl) else None, None)
      else (match c2 with
            | Some (do, dl) => if do + dl =? o then Some (do, dl) else None
            | None => None
            end, Some (co, cl))
  end.

(** 434-450: the merged extent. *)
Definition merged (e : ext) (lf rt : option ext) : ext :=
  let '(o, l) := e in
  let '(o1, l1) := match lf with Some (lo, ll) => (lo, ll + l) | None => (o, l) end in
  match rt with Some (_, rl) => (o1, l1 + rl) | None => (o1, l1) end.

Definition opt_list {A} (o : option A) : list A := match o with Some x => [x] | None => [] end.

Inductive eop :=
| ESpawn                                     (* a new backend *)
| EGet (i : nat) (n : Z)                     (* call get_extent(n) *)
| EMiss (i : nat)                            (* the search ended without a match *)
| ETake (i : nat) (e : ext)                  (* the search found e and deletes it, 190-204 *)
| EFree (i : nat) (e : ext)                  (* caller frees e: 607-617 *)
| ESee (i : nat) (c1 c2 : option ext)        (* tuples fetched at 328 / 354 *)
| EStep (i : nat).                           (* any other next step of backend i *)

Definition with_thr (s : est) (i : nat) (pc : epc) : est :=
  mkEst (e_lenoff s) (e_offlen s) (e_filelen s) (e_numfree s) (e_used s)
        (set_nth (e_thr s) i pc) (e_fatal s).
Definition with_lenoff (s : est) l : est :=
  mkEst l (e_offlen s) (e_filelen s) (e_numfree s) (e_used s) (e_thr s) (e_fatal s).
Definition with_offlen (s : est) l : est :=
  mkEst (e_lenoff s) l (e_filelen s) (e_numfree s) (e_used s) (e_thr s) (e_fatal s).
Definition with_used (s : est) l : est :=
  mkEst (e_lenoff s) (e_offlen s) (e_filelen s) (e_numfree s) l (e_thr s) (e_fatal s).
Definition with_numfree (s : est) n : est :=
  mkEst (e_lenoff s) (e_offlen s) (e_filelen s) n (e_used s) (e_thr s) (e_fatal s).
Definition with_filelen (s : est) n : est :=
  mkEst (e_lenoff s) (e_offlen s) n (e_numfree s) (e_used s) (e_thr s) (e_fatal s).
Definition fatal (s : est) : est :=
  mkEst (e_lenoff s) (e_offlen s) (e_filelen s) (e_numfree s) (e_used s) (e_thr s) true.

(** Index insertions fail (FATAL) when the key is already there. *)
Definition ins_offlen (s : est) (e : ext) : est :=
  if has_off (fst e) (e_offlen s) then fatal s else with_offlen s (e :: e_offlen s).
Definition ins_lenoff (s : est) (e : ext) : est :=
  if mem e (e_lenoff s) then fatal s else with_lenoff s (e :: e_lenoff s).
(** Deletions from (off,len) fail (FATAL) when the key is absent. *)
Definition rm_offlen (s : est) (e : ext) : est :=
  if has_off (fst e) (e_offlen s) then with_offlen s (del_off (fst e) (e_offlen s)) else fatal s.

(** The next step of a backend that needs no outside information. *)
Definition plain_step (s : est) (i : nat) (pc : epc) : est :=
  match pc with
  | GExtend n =>                                             (* 101 / 185: fetch_add *)
      with_thr (with_used (with_filelen s (e_filelen s + n))
                          ((e_filelen s, n) :: e_used s)) i EIdle
  | GGot o L n =>                                            (* 217-233 *)
      with_thr (if L - n >? 0 then ins_offlen s (o + n, L - n) else s) i (GDel o L n)
  | GDel o L n =>                                            (* 235-243 *)
      let s1 := rm_offlen s (o, L) in
      if L - n >? 0 then with_thr s1 i (GPut o L n)
      else with_thr (with_used s1 ((o, n) :: e_used s1)) i EIdle
  | GPut o L n =>                                            (* 245-265 *)
      let s1 := ins_lenoff s (o + n, L - n) in
      with_thr (with_used s1 ((o, n) :: e_used s1)) i EIdle
  | FDelR e lf rt =>                                         (* 368-376 *)
      match rt with
      | None => with_thr s i (FDelL e lf rt)
      | Some r => if mem r (e_lenoff s)
                  then with_thr (with_lenoff s (del r (e_lenoff s))) i (FDelL e lf rt)
                  else with_thr s i (FScan e)
      end
  | FDelL e lf rt =>                                         (* 378-400 *)
      match lf with
      | None => with_thr s i (FOffR e lf rt)
      | Some l => if mem l (e_lenoff s)
                  then with_thr (with_lenoff s (del l (e_lenoff s))) i (FOffR e lf rt)
                  else match rt with
                       | Some r => with_thr s i (FUndoR e r)
                       | None => with_thr s i (FScan e)
                       end
      end
  | FUndoR e r => with_thr (ins_lenoff s r) i (FScan e)      (* 386-397 *)
  | FOffR e lf rt =>                                         (* 405-416 *)
      with_thr (match rt with Some r => rm_offlen s r | None => s end) i (FOffL e lf rt)
  | FOffL e lf rt =>                                         (* 418-429 *)
      with_thr (match lf with Some l => rm_offlen s l | None => s end) i (FInsOff e lf rt)
  | FInsOff e lf rt => with_thr (ins_offlen s (merged e lf rt)) i (FInsLen e lf rt) (* 434-459 *)
  | FInsLen e lf rt => with_thr (ins_lenoff s (merged e lf rt)) i EIdle             (* 461-470 *)
  | _ => s
  end.

Definition estep (s : est) (o : eop) : est :=
  match o with
  | ESpawn => mkEst (e_lenoff s) (e_offlen s) (e_filelen s) (e_numfree s) (e_used s)
                    (EIdle :: e_thr s) (e_fatal s)
  | EGet i n =>                                              (* 94-105 *)
      match nth_error (e_thr s) i with
      | Some EIdle =>
          if n >? 0 then
            with_thr s i (if e_numfree s <? n then GExtend n else GFind n)
          else s
      | _ => s
      end
  | EMiss i =>                                               (* 178 *)
      match nth_error (e_thr s) i with
      | Some (GFind n) => with_thr s i (GExtend n)
      | _ => s
      end
  | ETake i e =>                                             (* 190-204; any entry long enough *)
      match nth_error (e_thr s) i with
      | Some (GFind n) =>
          if mem e (e_lenoff s) && (n <=? snd e)
          then with_thr (with_lenoff (with_numfree s (e_numfree s - n)) (del e (e_lenoff s)))
                        i (GGot (fst e) (snd e) n)
          else s
      | _ => s
      end
  | EFree i e =>                                             (* 607, 617 *)
      match nth_error (e_thr s) i with
      | Some EIdle =>
          if mem e (e_used s)
          then with_thr (with_used (with_numfree s (e_numfree s + snd e)) (del e (e_used s)))
                        i (FScan e)
          else s
      | _ => s
      end
  | ESee i c1 c2 =>                                          (* 321-365 *)
      match nth_error (e_thr s) i with
      | Some (FScan e) =>
          let '(lf, rt) := decide_merge e c1 c2 in with_thr s i (FDelR e lf rt)
      | _ => s
      end
  | EStep i =>
      match nth_error (e_thr s) i with
      | Some pc => plain_step s i pc
      | None => s
      end
  end.

(** Sequential searches (what the index searches return when nothing else runs). *)

(** get_extent 117-176: first (len,off) entry with length >= n, i.e. the least in
    (length, offset) order. *)
Definition lenoff_less (a b : ext) : bool :=
  (snd a <? snd b) || ((snd a =? snd b) && (fst a <? fst b)).
Definition best_fit (n : Z) (l : list ext) : option ext :=
  fold_left (fun acc e =>
     if n <=? snd e
     then match acc with
          | None => Some e
          | Some b => if lenoff_less e b then Some e else acc
          end
     else acc) l None.

(** free_extent 321-329: backward scan: the entry with the greatest offset <= k. *)
Definition off_le (k : Z) (l : list ext) : option ext :=
  fold_left (fun acc e =>
     if fst e <=? k
     then match acc with
          | None => Some e
          | Some b => if fst b <? fst e then Some e else acc
          end
     else acc) l None.
(** 354: the next fetched tuple. *)
Definition off_next (c : option ext) (l : list ext) : option ext :=
  match c with None => None | Some (co, _) => off_le (co - 1) l end.

(** A whole get_extent / free_extent call executed alone by backend i. *)
Definition seq_get (s : est) (i : nat) (n : Z) : est :=
  let s1 := estep s (EGet i n) in
  match nth_error (e_thr s1) i with
  | Some (GFind _) =>
      match best_fit n (e_lenoff s1) with
      | Some e => run estep s1 [ETake i e; EStep i; EStep i; EStep i]
      | None => run estep s1 [EMiss i; EStep i]
      end
  | _ => estep s1 (EStep i)
  end.

Definition seq_free (s : est) (i : nat) (e : ext) : est :=
  let s1 := estep s (EFree i e) in
  let c1 := off_le (fst e + snd e) (e_offlen s1) in
  let c2 := off_next c1 (e_offlen s1) in
  run estep s1 [ESee i c1 c2; EStep i; EStep i; EStep i; EStep i; EStep i; EStep i].

(** foreach_free_extent 528-539: pieces of at most UINT16_MAX blocks passed to the
    callback for one index entry; fuel = number of callback calls allowed. *)
Fixpoint split_extent (fuel : nat) (o l : Z) : list ext :=
  match fuel with
  | O => []
  | S f => if l >? 65535 then (o, 65535) :: split_extent f (o + 65535) (l - 65535)
           else [(o, l)]
  end.

(** Backend-local list of a temporary tree: local_free_extents_push (653-682) and
    local_free_extents_pop (689-725).  The growable array is a list. *)
Definition local_push (l : list ext) (e : ext) : list ext := l ++ [e].

(** 710-715: remove item i by moving the last item into its place. *)
Definition swap_remove (l : list ext) (i : nat) : list ext :=
  match rev l with
  | [] => []
  | last :: _ => firstn (length l - 1) (set_nth l i last)
  end.

Fixpoint local_pop_from (l : list ext) (i : nat) (fuel : nat) (n : Z) : option (ext * list ext) :=
  match fuel with
  | O => None
  | S f =>
      match nth_error l i with
      | None => None
      | Some (o, k) =>
          if k <? n then local_pop_from l (S i) f n
          else Some ((o, n), if k =? n then swap_remove l i
                             else set_nth l i (o + n, k - n))
      end
  end.
Definition local_pop (l : list ext) (n : Z) : option (ext * list ext) :=
  local_pop_from l 0 (length l) n.
