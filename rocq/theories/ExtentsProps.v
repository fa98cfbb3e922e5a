(** C27: the free-space allocator never hands out a block twice. *)
From Coq Require Import ZArith List Bool Lia Permutation.
From Verif Require Import Base ExtentsModel ExtentsSpec ExtentsLemmas.
Import ListNotations.
Open Scope Z_scope.

(** After any interleaving of get_extent and free_extent calls of any number of
    backends: extents in use and free extents are pairwise disjoint, non-empty
    and inside the file. *)
Theorem C27_extents_exclusive :
  forall s ops, s = run estep einit ops ->
  (forall i j a b, i <> j -> nth_error (e_used s ++ e_lenoff s) i = Some a ->
     nth_error (e_used s ++ e_lenoff s) j = Some b -> disjoint a b) /\
  (forall e, In e (e_used s ++ e_lenoff s) ->
     0 < snd e /\ 0 <= fst e /\ fst e + snd e <= e_filelen s).
Proof. exact extents_exclusive. Qed.
Print Assumptions C27_extents_exclusive.

(** When no call is in progress, every block of the file is either in use or free
    (with C27_extents_exclusive: exactly one of the two, exactly once), the free
    block counter is the total length of the free extents, and the two indexes
    hold the same extents. *)
Theorem C27_blocks_conserved :
  forall s ops, s = run estep einit ops -> all_idle s ->
  (forall b, 0 <= b < e_filelen s ->
     exists i e, nth_error (e_used s ++ e_lenoff s) i = Some e /\ in_ext b e) /\
  e_numfree s = fold_right (fun e a => snd e + a) 0 (e_lenoff s) /\
  Permutation (e_offlen s) (e_lenoff s).
Proof. exact extents_conserved. Qed.
Print Assumptions C27_blocks_conserved.

(** None of the elog(FATAL) checks of the allocator can fire. *)
Theorem C27_no_fatal : forall ops, e_fatal (run estep einit ops) = false.
Proof. exact extents_no_fatal. Qed.
Print Assumptions C27_no_fatal.

(** A get_extent call that runs alone returns exactly the requested number of
    blocks: the front of the shortest sufficient free extent (lowest offset among
    equals), the rest staying free; if no free extent is long enough, new blocks
    at the end of the file. *)
Theorem C27_get_extent_best_fit :
  forall s ops i n,
  s = run estep einit ops -> all_idle s -> nth_error (e_thr s) i = Some EIdle -> 0 < n ->
  let s' := seq_get s i n in
  exists o, e_used s' = (o, n) :: e_used s /\ nth_error (e_thr s') i = Some EIdle /\
    ((exists L, In (o, L) (e_lenoff s) /\ n <= L /\ e_filelen s' = e_filelen s /\
        (forall x, In x (e_lenoff s) -> n <= snd x -> L < snd x \/ (L = snd x /\ o <= fst x)) /\
        e_lenoff s' = (if L - n >? 0 then [(o + n, L - n)] else []) ++ del (o, L) (e_lenoff s))
     \/
     ((forall x, In x (e_lenoff s) -> snd x < n) /\
      o = e_filelen s /\ e_filelen s' = e_filelen s + n /\ e_lenoff s' = e_lenoff s)).
Proof. exact seq_get_spec. Qed.
Print Assumptions C27_get_extent_best_fit.

(** A free_extent call that runs alone merges with both neighbours: free extents
    that do not touch before still do not touch after, and exactly the freed
    blocks become free. *)
Theorem C27_free_extent_coalesces :
  forall s ops i e,
  s = run estep einit ops -> all_idle s -> nth_error (e_thr s) i = Some EIdle ->
  In e (e_used s) -> coalesced (e_lenoff s) ->
  let s' := seq_free s i e in
  all_idle s' /\ coalesced (e_lenoff s') /\ e_used s' = del e (e_used s) /\
  (forall b, (exists x, In x (e_lenoff s') /\ in_ext b x) <->
             (exists x, In x (e_lenoff s) /\ in_ext b x) \/ in_ext b e).
Proof. exact seq_free_coalesces. Qed.
Print Assumptions C27_free_extent_coalesces.

(** The pieces written to the map file for one free extent have 16-bit lengths,
    are disjoint and cover exactly that extent. *)
Theorem C27_split_for_map_exact :
  forall fuel o l, 0 < l -> l <= 65535 * Z.of_nat fuel ->
  (forall e, In e (split_extent fuel o l) -> 0 < snd e <= 65535) /\
  (forall i j a b, i <> j -> nth_error (split_extent fuel o l) i = Some a ->
     nth_error (split_extent fuel o l) j = Some b -> disjoint a b) /\
  (forall b, (exists e, In e (split_extent fuel o l) /\ in_ext b e) <-> o <= b < o + l).
Proof. exact split_extent_exact. Qed.
Print Assumptions C27_split_for_map_exact.

(** Backend-local allocator of temporary trees: a successful pop takes exactly n
    blocks out of the free list and keeps the rest; a failing pop means no
    extent is long enough; a push adds exactly the freed blocks. *)
Theorem C27_local_pop_exact :
  forall l n, 0 < n -> (forall x, In x l -> 0 < snd x) -> pairwise_disjoint l ->
  match local_pop l n with
  | Some (e, l') => snd e = n /\ pairwise_disjoint (e :: l') /\ (forall x, In x l' -> 0 < snd x) /\
      (forall b, (exists x, In x l /\ in_ext b x) <-> (exists x, In x (e :: l') /\ in_ext b x))
  | None => forall x, In x l -> snd x < n
  end.
Proof. exact local_pop_exact. Qed.
Print Assumptions C27_local_pop_exact.

Theorem C27_local_push_exact :
  forall l e, (forall x, In x l -> disjoint x e) -> pairwise_disjoint l ->
  pairwise_disjoint (local_push l e) /\
  (forall b, (exists x, In x (local_push l e) /\ in_ext b x) <->
             (exists x, In x l /\ in_ext b x) \/ in_ext b e).
Proof. exact local_push_exact. Qed.
Print Assumptions C27_local_push_exact.

(** Concrete case: three extents are allocated, the outer two freed; then backend
    0 frees the middle one and reads both neighbours, but backend 1 takes the
    left one first: backend 0's deletion fails, it puts the right one back and
    rescans. *)
Definition setup : list eop :=
  [ESpawn; ESpawn; EGet 0 4; EStep 0; EGet 0 2; EStep 0; EGet 0 3; EStep 0;
   EFree 0 (0, 4); ESee 0 None None; EStep 0; EStep 0; EStep 0; EStep 0; EStep 0; EStep 0;
   EFree 0 (6, 3); ESee 0 (Some (0, 4)) None; EStep 0; EStep 0; EStep 0; EStep 0; EStep 0; EStep 0].
Definition race : list eop :=
  [EFree 0 (4, 2); EGet 1 1; ESee 0 (Some (6, 3)) (Some (0, 4)); EStep 0; ETake 1 (0, 4);
   EStep 0; EStep 0; EStep 1; EStep 1; EStep 1;
   ESee 0 (Some (6, 3)) (Some (1, 3)); EStep 0; EStep 0; EStep 0; EStep 0; EStep 0; EStep 0].

Example C27_setup_case :
  let s := run estep einit setup in
  all_idle s /\ e_used s = [(4, 2)] /\ e_lenoff s = [(6, 3); (0, 4)] /\
  nth_error (e_thr s) 0 = Some EIdle /\ coalesced (e_lenoff s) /\
  e_lenoff (seq_free s 0 (4, 2)) = [(0, 9)] /\
  e_used (seq_get s 1 3) = [(6, 3); (4, 2)].
Proof.
  vm_compute. repeat split; auto.
  - intros pc [<-|[<-|[]]]; reflexivity.
  - intros a b [<-|[<-|[]]] [<-|[<-|[]]]; cbn; discriminate.
Qed.

Example C27_race_case :
  let s := run estep einit (setup ++ firstn 7 race) in
  nth_error (e_thr s) 0 = Some (FScan (4, 2)) /\
  let s' := run estep einit (setup ++ race) in
  all_idle s' /\ e_used s' = [(0, 1)] /\ e_lenoff s' = [(1, 8)] /\ e_numfree s' = 8.
Proof.
  vm_compute. repeat split; auto.
  intros pc [<-|[<-|[]]]; reflexivity.
Qed.

Example C27_split_case : split_extent 3 10 131072 = [(10, 65535); (65545, 65535); (131080, 2)].
Proof. vm_compute. reflexivity. Qed.

Example C27_local_case :
  local_pop [(0, 1); (4, 3); (9, 2)] 3 = Some ((4, 3), [(0, 1); (9, 2)]) /\
  local_pop [(0, 1); (4, 3)] 2 = Some ((4, 2), [(0, 1); (6, 1)]).
Proof. vm_compute. split; reflexivity. Qed.
