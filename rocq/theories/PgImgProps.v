(** C26: the page a snapshot reads. *)
From Coq Require Import ZArith List Bool Lia.
From Verif Require Import Base PgImgModel PgImgSpec PgImgProofs PgImgRunProofs.
Import ListNotations.
Open Scope Z_scope.

Section Reads.
Variable ops : list op.
Variables i c ret p : Z.
Variable P : page.
Let s := run step init ops.
Hypothesis Hcalm : calm ops.
Hypothesis Hsnap : In (i, (c, ret)) (s_snap s).
Hypothesis Hpage : s_pages s p = Some P.

Lemma reads : forall q, exists h sn, rows_of ops i = Some h /\ read (s_recs s) c q P = Some sn /\
  exists R' : Z -> Prop,
    (forall k, R' k -> vis (s_st s) c (look (p_it (v_pg sn)) k) = h k) /\
    (forall k, look (p_it (v_pg sn)) k <> [] -> R' k) /\
    (lows q (cov P) -> lows q R') /\
    (v_wide sn = false -> lows q (cov P) -> fw q (cov P) (p_hi P) -> fw q R' (p_hi (v_pg sn))) /\
    ((exists k, ends q k) -> tops q (cov P) ->
       (forall k, above (p_lo P) k -> ends q k -> cov P k) ->
       match v_lo sn with
       | Some a => ends q a /\ forall k, a <= k -> ends q k -> R' k
       | None => forall k, above (p_lo P) k -> ends q k -> R' k
       end).
Proof.
  intros q. pose proof (Inv_run ops Hcalm) as I. fold s in I.
  destruct (i_snap _ _ I _ _ _ Hsnap) as (_ & _ & X).
  destruct (t_snap (run tstep empty ops) i) as [h|] eqn:E; [|congruence].
  destruct (read_ok _ _ _ _ _ _ _ _ q I Hsnap E Hpage) as (sn & R & W).
  exists h, sn. split; [exact E|]. split; [exact R|exact W].
Qed.
End Reads.

(** After any history, a snapshot in use that reads the page of a key, however
    that page has been split, merged and compacted since, finds for the key what
    the database held when the snapshot was taken. *)
Theorem C26_point_partial : forall ops i c ret p P k,
  calm ops -> let s := run step init ops in
  In (i, (c, ret)) (s_snap s) -> s_pages s p = Some P -> covers P k = true ->
  exists rows img, rows_of ops i = Some rows /\ read (s_recs s) c (KKey k) P = Some img /\
    vis (s_st s) c (look (p_it (v_pg img)) k) = rows k.
Proof.
  intros ops i c ret p P k C s Hs Hp Hk.
  destruct (reads ops i c ret p P C Hs Hp (KKey k)) as (h & sn & E & R & R' & A & _ & L & _ & _).
  exists h, sn. split; auto. split; auto. apply A.
  destruct (L) with (k := k) as (j & J1 & J2 & J3).
  - intros x Hx. exists k. cbn in Hx |- *. split; [lia|]. split; [lia|exact Hk].
  - cbn. lia.
  - cbn in J2. replace k with j by lia. exact J3.
Qed.

(** There always is exactly one such page, and every snapshot taken and not yet
    dropped is in use. *)
Theorem C26_pages_partial : forall ops, calm ops -> let s := run step init ops in
  (forall k, exists p P, s_pages s p = Some P /\ covers P k = true /\
     forall p' P', s_pages s p' = Some P' -> covers P' k = true -> p' = p) /\
  (forall i rows, rows_of ops i = Some rows -> exists c ret, In (i, (c, ret)) (s_snap s)).
Proof.
  intros ops C s. pose proof (Inv_run ops C) as I. fold s in I. split.
  - intros k. destruct (i_cov _ _ I k) as (p & P & HP & CP). exists p, P. split; auto. split; auto.
    intros p' P' HP' CP'. apply (i_disj _ _ I _ _ _ _ _ HP' HP CP' CP).
  - intros i rows E. destruct (i_snap2 _ _ I i) as [[c ret] He].
    + unfold rows_of in E. congruence.
    + eauto.
Qed.

(** Whatever the reader asks for, no image shows it a row its snapshot did not
    have. *)
Theorem C26_rows_sound_partial : forall ops i c ret p P q,
  calm ops -> let s := run step init ops in
  In (i, (c, ret)) (s_snap s) -> s_pages s p = Some P ->
  exists rows img, rows_of ops i = Some rows /\ read (s_recs s) c q P = Some img /\
    forall k v, vis (s_st s) c (look (p_it (v_pg img)) k) = Some v -> rows k = Some v.
Proof.
  intros ops i c ret p P q C s Hs Hp.
  destruct (reads ops i c ret p P C Hs Hp q) as (h & sn & E & R & R' & A & B & _).
  exists h, sn. split; auto. split; auto. intros k v V. rewrite <- (A k); auto.
  apply B. intros X. rewrite X in V. discriminate.
Qed.

(** Reading forward: the image is complete from the reader's key up to its own
    high key, unless the walk replaced a high key by a larger one. *)
Theorem C26_forward_range_partial : forall ops i c ret p P k,
  calm ops -> let s := run step init ops in
  In (i, (c, ret)) (s_snap s) -> s_pages s p = Some P -> covers P k = true ->
  exists rows img, rows_of ops i = Some rows /\ read (s_recs s) c (KKey k) P = Some img /\
    (v_wide img = false -> forall k', k <= k' ->
       match p_hi (v_pg img) with None => True | Some h => k' < h end ->
       vis (s_st s) c (look (p_it (v_pg img)) k') = rows k').
Proof.
  intros ops i c ret p P k C s Hs Hp Hk.
  destruct (reads ops i c ret p P C Hs Hp (KKey k)) as (h & sn & E & R & R' & A & _ & _ & F & _).
  exists h, sn. split; auto. split; auto. intros W k' L U. apply A. apply F; auto.
  - intros x Hx. exists k. cbn in Hx |- *. split; [lia|]. split; [lia|exact Hk].
  - intros x Hx Ux. cbn in Hx. apply cov_iff. split; auto.
    apply cov_iff in Hk. destruct (p_lo P); cbn in *; auto. lia.
Qed.

(** The same from the first page of the tree. *)
Theorem C26_forward_first_partial : forall ops i c ret p P,
  calm ops -> let s := run step init ops in
  In (i, (c, ret)) (s_snap s) -> s_pages s p = Some P -> p_lo P = None ->
  exists rows img, rows_of ops i = Some rows /\ read (s_recs s) c KNone P = Some img /\
    (v_wide img = false -> forall k',
       match p_hi (v_pg img) with None => True | Some h => k' < h end ->
       vis (s_st s) c (look (p_it (v_pg img)) k') = rows k').
Proof.
  intros ops i c ret p P C s Hs Hp Hlo.
  destruct (reads ops i c ret p P C Hs Hp KNone) as (h & sn & E & R & R' & A & _ & _ & F & _).
  exists h, sn. split; auto. split; auto. intros W k' U. apply A. apply F; cbn; auto.
  - intros x _. pose proof (Inv_run ops C) as I. destruct (g_ne _ _ _ (i_pg _ _ I _ _ Hp)) as [y Hy].
    exists (Z.min x y). split; [lia|]. split; cbn; auto. apply cov_iff in Hy. apply cov_iff.
    rewrite Hlo. split; cbn; auto. destruct (p_hi P); cbn in *; auto. lia.
  - intros x _ Ux. apply cov_iff. rewrite Hlo. split; cbn; auto.
Qed.

(** Reading backward from below [k]: the low key the read reports is below [k],
    and the image is complete from that low key up to [k]. *)
Theorem C26_backward_range_partial : forall ops i c ret p P k,
  calm ops -> let s := run step init ops in
  In (i, (c, ret)) (s_snap s) -> s_pages s p = Some P -> covers P (k - 1) = true ->
  exists rows img, rows_of ops i = Some rows /\ read (s_recs s) c (KHi k) P = Some img /\
    let low := match v_lo img with Some a => Some a | None => p_lo P end in
    match low with Some a => a < k | None => True end /\
    forall k', match low with Some a => a <= k' | None => True end -> k' < k ->
       vis (s_st s) c (look (p_it (v_pg img)) k') = rows k'.
Proof.
  intros ops i c ret p P k C s Hs Hp Hk.
  destruct (reads ops i c ret p P C Hs Hp (KHi k)) as (h & sn & E & R & R' & A & _ & _ & _ & B).
  assert (B' := B).
  exists h, sn. split; auto. split; auto.
  pose proof (proj1 (cov_iff P (k - 1)) Hk) as [K1 K2].
  assert (Ne : exists x, ends (KHi k) x) by (exists (k - 1); cbn; lia).
  specialize (B' Ne).
  assert (T : tops (KHi k) (cov P)).
  { intros x Hx. exists (k - 1). cbn in Hx |- *. split; [lia|]. split; [lia|exact Hk]. }
  assert (Bc : forall x, above (p_lo P) x -> ends (KHi k) x -> cov P x).
  { intros x Ax Ex. cbn in Ex. apply cov_iff. split; auto. destruct (p_hi P); cbn in *; auto. lia. }
  specialize (B' T Bc). cbv zeta. destruct (v_lo sn) as [a|].
  - destruct B' as [B1 B2]. cbn in B1. split; [exact B1|]. intros k' L U. apply A. apply B2; auto.
  - split.
    + destruct (p_lo P); cbn in *; auto. lia.
    + intros k' L U. apply A. apply B'; auto.
Qed.

(** The same from the last page of the tree. *)
Theorem C26_backward_last_partial : forall ops i c ret p P,
  calm ops -> let s := run step init ops in
  In (i, (c, ret)) (s_snap s) -> s_pages s p = Some P -> p_hi P = None ->
  exists rows img, rows_of ops i = Some rows /\ read (s_recs s) c KRight P = Some img /\
    let low := match v_lo img with Some a => Some a | None => p_lo P end in
    forall k', match low with Some a => a <= k' | None => True end ->
       vis (s_st s) c (look (p_it (v_pg img)) k') = rows k'.
Proof.
  intros ops i c ret p P C s Hs Hp Hhi.
  destruct (reads ops i c ret p P C Hs Hp KRight) as (h & sn & E & R & R' & A & _ & _ & _ & B).
  exists h, sn. split; auto. split; auto.
  pose proof (Inv_run ops C) as I. destruct (g_ne _ _ _ (i_pg _ _ I _ _ Hp)) as [y Hy].
  pose proof (proj1 (cov_iff P y) Hy) as [K1 K2].
  assert (Bc : forall x, above (p_lo P) x -> ends KRight x -> cov P x).
  { intros x Ax Ex. apply cov_iff. rewrite Hhi. split; cbn; auto. }
  assert (T : tops KRight (cov P)).
  { intros x Hx. exists (Z.max x y). split; [lia|]. split; [cbn; auto|].
    apply Bc; cbn; auto. destruct (p_lo P); cbn in *; auto. lia. }
  specialize (B (ex_intro _ 0 Logic.I) T Bc). cbv zeta. destruct (v_lo sn) as [a|].
  - destruct B as [B1 B2]. intros k' L. apply A. apply B2; cbn; auto.
  - intros k' L. apply A. apply B; cbn; auto.
Qed.

(* ------------------------------------------------- the hypotheses can be met *)

(** Rows 1..5; then a snapshot; then row 2 is deleted, row 3 changed and row 6
    inserted while the page is compacted, split twice and merged again.  The
    reads go through full and differential records. *)
Definition hist : list op :=
  [ Write 5 1 (Some 10); Write 5 2 (Some 20); Write 5 3 (Some 30); Write 5 4 (Some 40); Write 5 5 (Some 50);
    Commit 5; Split 0 1 3 1 0 0 false; Snap 7 0;
    Write 6 2 None; Write 6 3 (Some 33); Commit 6; Tick; Compact 0 3 9;
    Write 8 6 (Some 60); Abort 8; Tick; Merge 0 1 4 9 9 false; Tick; Split 0 2 4 5 9 9 false ].

Lemma hist_calm : calm hist.
Proof.
  intros p q r x1 x2 sq H. unfold hist in H.
  repeat (destruct H as [H|H]; [try discriminate; injection H; intros; subst; reflexivity|]). destruct H.
Qed.

Example C26_met :
  let s := run step init hist in
  In (7, (2, 0)) (s_snap s) /\
  (exists P, s_pages s 0 = Some P /\ covers P 2 = true /\ p_csn P = 5 /\ p_hi P = Some 4) /\
  option_map (fun h => (h 2, h 3, h 6)) (rows_of hist 7) = Some (Some 20, Some 30, None) /\
  fscan 9 s [0; 1; 2] 2 KNone = [(1, 10); (2, 20); (3, 30); (4, 40); (5, 50)] /\
  fscan 9 s [0; 1; 2] 6 KNone = [(1, 10); (3, 33); (4, 40); (5, 50)] /\
  bscan 9 s [0; 1; 2] 6 KRight None = [(5, 50); (4, 40); (3, 33); (1, 10)].
Proof.
  cbv zeta. split; [vm_compute; auto|]. split.
  - eexists. split; [vm_compute; reflexivity|]. vm_compute. auto.
  - vm_compute. auto 6.
Qed.

(* ------------------------------------------------- refuted *)

(** A merge chooses its image before it collects the items.  If the oldest
    running transaction changes between the two, a row deleted after the snapshot
    is removed and no image keeps it: the snapshot loses the row. *)
Definition late_horizon : list op :=
  [ Write 5 1 (Some 10); Commit 5; Split 0 1 3 1 0 0 false; Snap 7 0;
    Write 6 1 None; Commit 6; Tick; Merge 0 1 3 6 7 false ].

Theorem C26_refuted_late_horizon : exists ops i c ret p P rows img k,
  let s := run step init ops in
  In (i, (c, ret)) (s_snap s) /\ s_pages s p = Some P /\ covers P k = true /\
  rows_of ops i = Some rows /\ rows k = Some 10 /\
  read (s_recs s) c (KKey k) P = Some img /\
  vis (s_st s) c (look (p_it (v_pg img)) k) = None.
Proof.
  exists late_horizon, 7, 2, 0, 0. do 2 eexists. eexists. exists 1. cbv zeta.
  split; [vm_compute; auto|]. split; [vm_compute; reflexivity|].
  split; [vm_compute; reflexivity|]. split; [vm_compute; reflexivity|].
  split; [vm_compute; reflexivity|]. split; [vm_compute; reflexivity|]. vm_compute. reflexivity.
Qed.

(** Two pages are merged with a differential record, and the merged page is split
    below the boundary.  The left part is rebuilt with the boundary as its high
    key although it ends at the split key, so a forward scan steps over the rows
    in between. *)
Definition wide_hikey : list op :=
  [ Write 5 1 (Some 10); Write 5 2 (Some 20); Write 5 3 (Some 30); Write 5 4 (Some 40); Write 5 5 (Some 50);
    Commit 5; Split 0 1 4 1 0 0 false; Snap 7 0;
    Tick; Compact 1 2 0; Tick; Merge 0 1 3 0 0 false; Tick; Split 0 2 2 4 0 0 false ].

Theorem C26_refuted_forward_scan : exists ops i c ret rows,
  calm ops /\ let s := run step init ops in
  In (i, (c, ret)) (s_snap s) /\ rows_of ops i = Some rows /\
  map rows [1; 2; 3; 4; 5] = map Some [10; 20; 30; 40; 50] /\
  map (fun p => option_map (fun P => (p_lo P, p_hi P)) (s_pages s p)) [0; 2] =
    [Some (None, Some 2); Some (Some 2, None)] /\
  fscan 9 s [0; 2] c KNone = [(1, 10); (4, 40); (5, 50)] /\
  fscan 9 s [0; 2] c (KKey 1) = [(1, 10); (4, 40); (5, 50)].
Proof.
  exists wide_hikey, 7, 2, 0. eexists. split.
  { intros p q r x1 x2 sq H. unfold wide_hikey in H.
    repeat (destruct H as [H|H]; [try discriminate; injection H; intros; subst; reflexivity|]). destruct H. }
  cbv zeta. split; [vm_compute; auto|]. split; [vm_compute; reflexivity|].
  split; [vm_compute; reflexivity|]. split; [vm_compute; reflexivity|].
  split; vm_compute; reflexivity.
Qed.

(** A differential split of a page whose older history is a full image: the two
    halves lead to one historical page under two identities, and a backward scan
    returns its rows again. *)
Definition two_names : list op :=
  [ Write 5 0 (Some 1); Write 5 1 (Some 10); Write 5 2 (Some 20); Write 5 3 (Some 30); Write 5 4 (Some 40);
    Commit 5; Split 0 9 1 1 0 0 false; Snap 7 0;
    Tick; Split 9 1 3 2 0 0 true; Tick; Split 1 2 4 3 0 0 false ].

Theorem C26_refuted_backward_scan : exists ops i c ret rows,
  calm ops /\ let s := run step init ops in
  In (i, (c, ret)) (s_snap s) /\ rows_of ops i = Some rows /\
  map rows [0; 1; 2; 3; 4] = map Some [1; 10; 20; 30; 40] /\
  bscan 9 s [0; 9; 1; 2] c KRight None =
    [(4, 40); (3, 30); (2, 20); (1, 10); (4, 40); (3, 30); (2, 20); (1, 10);
     (4, 40); (3, 30); (2, 20); (1, 10); (0, 1)].
Proof.
  exists two_names, 7, 2, 0. eexists. split.
  { intros p q r x1 x2 sq H. unfold two_names in H.
    repeat (destruct H as [H|H]; [discriminate|]). destruct H. }
  cbv zeta. split; [vm_compute; auto|]. split; [vm_compute; reflexivity|].
  split; vm_compute; reflexivity.
Qed.

(** A differential merge, and a differential split of the merged page above the
    boundary.  The identity of an image is the first differential record, which is
    the split for both parts of the left page: the second part counts as already
    shown, and a backward scan does not return its rows. *)
Theorem C26_refuted_backward_skip : exists ops i c ret rows,
  calm ops /\ let s := run step init ops in
  In (i, (c, ret)) (s_snap s) /\ rows_of ops i = Some rows /\
  map rows [1; 2; 3; 4; 5] = map Some [10; 20; 30; 40; 50] /\
  fscan 9 s [0; 1; 2] c KNone = [(1, 10); (2, 20); (3, 30); (4, 40); (5, 50)] /\
  bscan 9 s [0; 1; 2] c KRight None = [(5, 50); (4, 40); (3, 30)].
Proof.
  exists hist, 7, 2, 0. eexists. split; [exact hist_calm|].
  cbv zeta. split; [vm_compute; auto|]. split; [vm_compute; reflexivity|].
  split; [vm_compute; reflexivity|]. split; vm_compute; reflexivity.
Qed.

Print Assumptions C26_point_partial.
Print Assumptions C26_pages_partial.
Print Assumptions C26_rows_sound_partial.
Print Assumptions C26_forward_range_partial.
Print Assumptions C26_forward_first_partial.
Print Assumptions C26_backward_range_partial.
Print Assumptions C26_backward_last_partial.
Print Assumptions C26_refuted_late_horizon.
Print Assumptions C26_refuted_forward_scan.
Print Assumptions C26_refuted_backward_scan.
Print Assumptions C26_refuted_backward_skip.
