(** Copy-on-write checkpoints of one tree: where page writes go, how blocks are
    freed and reused, what the checkpoint's image and map hold, and restart.
    Sources: src/btree/io.c:985-1240 (get_free_disk_offset,
    get_free_disk_extent, get_free_disk_extent_copy_blkno), 1954-2155
    (perform_page_io), 2157-2190 (perform_page_io_autonomous);
    src/checkpoint/checkpoint.c:2428-2461 (finalize_chkp_map), 2695-2749
    (free_extent_for_checkpoint), 3000-3140 (get_checkpoint_number), 3181-3490
    (checkpoint_ix), 3583-3640, 4213-4240, 4560-4600 (autonomous images),
    1955-2003 (control file, then lastCheckpointNumber), 5727-5807;
    src/btree/scan.c:2337-2376; src/btree/merge.c:240-278. *)
From Coq Require Import ZArith List Bool Lia.
From Verif Require Import Base.
Import ListNotations.
Open Scope Z_scope.

(** A page of the tree, in memory or evicted: the checkpoint number it was last
    written for (o_header.checkpointNum), its block (page_desc->fileExtent or
    the downlink), its contents, and whether the running checkpoint has passed
    it (side_of_checkpoint_bound). *)
Record page := mkPg { g_chk : Z; g_ext : option Z; g_val : Z; g_vis : bool }.

(** Phases of the running checkpoint with respect to this tree: not reached,
    walking, finished (map written), control file written. *)
Inductive phase := PBefore | PWalk | PDone | PControl.

(** An entry of a checkpoint's image: block, contents, checkpoint number in
    the page header. *)
Definition entry : Type := Z * Z * Z.
Definition e_blk (e : entry) : Z := fst (fst e).
Definition e_val (e : entry) : Z := snd (fst e).
Definition e_chk (e : entry) : Z := snd e.

Record state := mkS {
  s_last : Z;                      (* lastCheckpointNumber *)
  s_phase : phase;
  s_pages : Z -> option page;
  s_disk : Z -> Z;                 (* contents of each block *)
  s_tmp : Z -> list Z;             (* N.tmp: blocks freed for checkpoint N *)
  s_next : Z -> list Z;            (* nextChkp: the start of N.map *)
  s_fnum : Z;                      (* freeBuf.tag.num *)
  s_free : list Z;                 (* unread rest of freeBuf *)
  s_len : Z;                       (* datafileLength *)
  s_scans : list Z;                (* checkpoint numbers of running scans *)
  s_cimg : list entry;             (* image of the running checkpoint *)
  s_cmap : list Z; s_clen : Z;     (* its map and file length *)
  s_dur : Z;                       (* number in the control file *)
  s_dimg : list entry; s_dmap : list Z; s_dlen : Z }.  (* what it refers to *)

Definition set_page s p v := mkS (s_last s) (s_phase s) (upd (s_pages s) p v) (s_disk s) (s_tmp s) (s_next s) (s_fnum s) (s_free s) (s_len s) (s_scans s) (s_cimg s) (s_cmap s) (s_clen s) (s_dur s) (s_dimg s) (s_dmap s) (s_dlen s).
Definition set_disk s b v := mkS (s_last s) (s_phase s) (s_pages s) (upd (s_disk s) b v) (s_tmp s) (s_next s) (s_fnum s) (s_free s) (s_len s) (s_scans s) (s_cimg s) (s_cmap s) (s_clen s) (s_dur s) (s_dimg s) (s_dmap s) (s_dlen s).
Definition set_tmp s t := mkS (s_last s) (s_phase s) (s_pages s) (s_disk s) t (s_next s) (s_fnum s) (s_free s) (s_len s) (s_scans s) (s_cimg s) (s_cmap s) (s_clen s) (s_dur s) (s_dimg s) (s_dmap s) (s_dlen s).
Definition set_next s t := mkS (s_last s) (s_phase s) (s_pages s) (s_disk s) (s_tmp s) t (s_fnum s) (s_free s) (s_len s) (s_scans s) (s_cimg s) (s_cmap s) (s_clen s) (s_dur s) (s_dimg s) (s_dmap s) (s_dlen s).
Definition set_free s n l len := mkS (s_last s) (s_phase s) (s_pages s) (s_disk s) (s_tmp s) (s_next s) n l len (s_scans s) (s_cimg s) (s_cmap s) (s_clen s) (s_dur s) (s_dimg s) (s_dmap s) (s_dlen s).
Definition set_img s i := mkS (s_last s) (s_phase s) (s_pages s) (s_disk s) (s_tmp s) (s_next s) (s_fnum s) (s_free s) (s_len s) (s_scans s) i (s_cmap s) (s_clen s) (s_dur s) (s_dimg s) (s_dmap s) (s_dlen s).
Definition set_scans s l := mkS (s_last s) (s_phase s) (s_pages s) (s_disk s) (s_tmp s) (s_next s) (s_fnum s) (s_free s) (s_len s) l (s_cimg s) (s_cmap s) (s_clen s) (s_dur s) (s_dimg s) (s_dmap s) (s_dlen s).

(** metaPage->numSeqScans[n % 32]. *)
Definition NSCANS : Z := 32.
Definition num_scans (s : state) (n : Z) : Z := Z.of_nat (length (filter (fun x => x mod NSCANS =? n mod NSCANS) (s_scans s))).

(** can_use_checkpoint_extents (checkpoint.c:5791-5807). *)
Definition can_use (s : state) (n : Z) : bool := (n <=? s_last s) && (num_scans s (n - 1) =? 0).

(** get_free_disk_offset, one switch to the next .tmp file (io.c:1002-1055).
    The file is removed once its buffer is replaced; here it is emptied when
    it becomes the free buffer. *)
Definition switch_once (s : state) : state :=
  match s_free s with
  | [] => if can_use s (s_fnum s + 1)
          then set_tmp (set_free s (s_fnum s + 1) (s_tmp s (s_fnum s + 1)) (s_len s)) (upd (s_tmp s) (s_fnum s + 1) [])
          else s
  | _ => s
  end.
Fixpoint switch (fuel : nat) (s : state) : state :=
  match fuel with O => s | S f => switch f (switch_once s) end.

(** get_free_disk_offset (io.c:985-1105): the loop above, then a block from the
    buffer or one more block at the end of the file. *)
Definition alloc (s : state) : state * Z :=
  let s1 := switch (Z.to_nat (s_last s - s_fnum s)) s in
  match s_free s1 with
  | b :: r => (set_free s1 (s_fnum s1) r (s_len s1), b)
  | [] => (set_free s1 (s_fnum s1) [] (s_len s1 + 1), s_len s1)
  end.

(** get_free_disk_extent_copy_blkno (io.c:1183-1236): while the tree is being
    walked, a block taken for the next checkpoint is noted as free in the
    running one. *)
Definition alloc_copy (s : state) (n : Z) : state * Z :=
  let (s1, b) := alloc s in
  match s_phase s1 with
  | PWalk => (set_next s1 (upd (s_next s1) (n - 1) (s_next s1 (n - 1) ++ [b])), b)
  | _ => (s1, b)
  end.

(** free_extent_for_checkpoint (checkpoint.c:2695-2749). *)
Definition free_for (s : state) (b n : Z) : state :=
  set_tmp (set_next s (upd (s_next s) n (s_next s n ++ [b]))) (upd (s_tmp s) n (s_tmp s n ++ [b])).

(** get_checkpoint_number (checkpoint.c:3000-3140). *)
Definition wnum (s : state) (vis : bool) : Z :=
  match s_phase s with
  | PBefore => s_last s + 1
  | PWalk => if vis then s_last s + 2 else s_last s + 1
  | _ => s_last s + 2
  end.
Definition wcopy (s : state) (vis : bool) : bool := match s_phase s with PWalk => vis | _ => false end.

(** perform_page_io (io.c:1954-2155), uncompressed: relocate when the page was
    not yet written for checkpoint [n], else write in place. *)
Definition page_io (s : state) (p : Z) (g : page) (v n : Z) (copy : bool) : state :=
  if g_chk g <? n then
    let s1 := match g_ext g with Some b => set_page (free_for s b n) p (Some (mkPg n None v (g_vis g))) | None => s end in
    let (s2, b) := if copy then alloc_copy s1 n else alloc s1 in
    set_disk (set_page s2 p (Some (mkPg n (Some b) v (g_vis g)))) b v
  else match g_ext g with
       | Some b => set_disk (set_page s p (Some (mkPg (g_chk g) (Some b) v (g_vis g)))) b v
       | None => s
       end.

Inductive op :=
| ONew (p v : Z) (vis : bool)   (* a page made by a split, not written yet *)
| OWrite (p v : Z)              (* a changed page is written out by a backend *)
| OMerge (p : Z)                (* the page is merged away *)
| OStart | OVisit (p v : Z) | OVisitClean (p : Z) | OPass (p : Z)
| OAutoFree (p : Z)             (* the page will not be part of the image: its block is freed *)
| OAutoWrite (v : Z)            (* an autonomous image is written *)
| OFinish | OControl | OPublish
| OScanStart | OScanEnd (n : Z)
| ORestart.

(** get_cur_checkpoint_number (checkpoint.c:5727-5785). *)
Definition scan_num (s : state) : Z := match s_phase s with PDone | PControl => s_last s + 1 | _ => s_last s end.

Fixpoint remove1 (n : Z) (l : list Z) : list Z :=
  match l with [] => [] | x :: r => if x =? n then r else x :: remove1 n r end.

(** The .tmp files after the free buffer's, up to the last checkpoint
    (finalize_chkp_map, checkpoint.c:2441-2458). *)
Definition later_tmps (s : state) : list Z :=
  flat_map (fun i => s_tmp s (s_fnum s + 1 + Z.of_nat i)) (seq 0 (Z.to_nat (s_last s - s_fnum s))).

Definition clear_vis (f : Z -> option page) : Z -> option page :=
  fun p => match f p with Some g => Some (mkPg (g_chk g) (g_ext g) (g_val g) false) | None => None end.

(** Loading the tree from an image: pages known by their blocks. *)
Definition load (i : list entry) : Z -> option page :=
  fun b => match find (fun e => e_blk e =? b) i with
           | Some e => Some (mkPg (e_chk e) (Some b) (e_val e) false)
           | None => None
           end.

Definition walking (s : state) : bool := match s_phase s with PWalk => true | _ => false end.

Definition step (s : state) (o : op) : state :=
  match o with
  | ONew p v vis =>
      match s_pages s p with
      | None => set_page s p (Some (mkPg 0 None v (walking s && vis)))
      | Some _ => s
      end
  | OWrite p v =>
      match s_pages s p with
      | Some g => page_io s p g v (wnum s (g_vis g)) (wcopy s (g_vis g))
      | None => s
      end
  | OMerge p =>
      match s_pages s p with
      | Some g => set_page (match g_ext g with Some b => free_for s b (wnum s (g_vis g)) | None => s end) p None
      | None => s
      end
  | OStart => match s_phase s with
              | PBefore => mkS (s_last s) PWalk (s_pages s) (s_disk s) (s_tmp s) (s_next s) (s_fnum s) (s_free s) (s_len s) (s_scans s) [] (s_cmap s) (s_clen s) (s_dur s) (s_dimg s) (s_dmap s) (s_dlen s)
              | _ => s
              end
  | OVisit p v =>
      if walking s then
        match s_pages s p with
        | Some g =>
            if g_vis g then s
            else let s1 := page_io s p g v (s_last s + 1) false in
                 match s_pages s1 p with
                 | Some (mkPg c (Some b) v' _) => set_img (set_page s1 p (Some (mkPg c (Some b) v' true))) (s_cimg s1 ++ [(b, v', c)])
                 | _ => s1
                 end
        | None => s
        end
      else s
  | OVisitClean p =>
      (* a page that is clean on disk: its block is referred to as it is *)
      if walking s then
        match s_pages s p with
        | Some (mkPg c (Some b) v false) =>
            if s_disk s b =? v then set_img (set_page s p (Some (mkPg c (Some b) v true))) (s_cimg s ++ [(b, v, c)]) else s
        | _ => s
        end
      else s
  | OPass p =>
      if walking s then
        match s_pages s p with Some g => set_page s p (Some (mkPg (g_chk g) (g_ext g) (g_val g) true)) | None => s end
      else s
  | OAutoFree p =>
      if walking s then
        match s_pages s p with
        | Some g => if g_vis g then s
                    else set_page (match g_ext g with Some b => free_for s b (s_last s + 1) | None => s end) p (Some (mkPg 0 None (g_val g) false))
        | None => s
        end
      else s
  | OAutoWrite v =>
      if walking s then
        let (s1, b) := alloc s in
        set_img (free_for (set_disk s1 b v) b (s_last s + 2)) (s_cimg s1 ++ [(b, v, s_last s + 1)])
      else s
  | OFinish => match s_phase s with
               | PWalk => mkS (s_last s) PDone (s_pages s) (s_disk s) (s_tmp s) (s_next s) (s_fnum s) (s_free s) (s_len s) (s_scans s) (s_cimg s)
                            (s_next s (s_last s + 1) ++ s_free s ++ later_tmps s) (s_len s) (s_dur s) (s_dimg s) (s_dmap s) (s_dlen s)
               | _ => s
               end
  | OControl => match s_phase s with
               | PDone => mkS (s_last s) PControl (s_pages s) (s_disk s) (s_tmp s) (s_next s) (s_fnum s) (s_free s) (s_len s) (s_scans s) (s_cimg s)
                            (s_cmap s) (s_clen s) (s_last s + 1) (s_cimg s) (s_cmap s) (s_clen s)
               | _ => s
               end
  | OPublish => match s_phase s with
               | PControl => mkS (s_last s + 1) PBefore (clear_vis (s_pages s)) (s_disk s) (s_tmp s) (s_next s) (s_fnum s) (s_free s) (s_len s) (s_scans s) []
                            (s_cmap s) (s_clen s) (s_dur s) (s_dimg s) (s_dmap s) (s_dlen s)
               | _ => s
               end
  | OScanStart => set_scans s (scan_num s :: s_scans s)
  | OScanEnd n => set_scans s (remove1 n (s_scans s))
  | ORestart =>
      mkS (s_dur s) PBefore (load (s_dimg s)) (s_disk s) (fun _ => []) (fun _ => []) (s_dur s) (s_dmap s) (s_dlen s) [] []
          [] 0 (s_dur s) (s_dimg s) (s_dmap s) (s_dlen s)
  end.

Definition init : state :=
  mkS 0 PBefore (fun _ => None) (fun _ => 0) (fun _ => []) (fun _ => []) 0 [] 0 [] [] [] 0 0 [] [] 0.
