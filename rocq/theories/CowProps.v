(** C28: blocks of the last completed checkpoint are never overwritten.
    Uncompressed trees. *)
From Coq Require Import ZArith List Bool Lia ZifyBool.
From Verif Require Import Base CowModel CowSpec CowProofs.
Import ListNotations.
Open Scope Z_scope.

(** At every moment every block of the image named by the control file holds
    what the checkpoint wrote there, whatever was written, freed, checkpointed
    or restarted before. *)
Theorem C28_image_intact_partial : forall s, reachable s -> image_intact s.
Proof. intros s R b v c H. apply reach_Inv in R. apply (i_dimg _ R b v c H). Qed.

(** So a restart at any point finds the image: each of its pages is read back
    with its contents, and nothing else is. *)
Theorem C28_restart_reads_image_partial : forall s, reachable s ->
  (forall b v c, In (b, v, c) (s_dimg s) -> s_pages (step s ORestart) b = Some (mkPg c (Some b) v false) /\ s_disk (step s ORestart) b = v)
  /\ (forall p g, s_pages (step s ORestart) p = Some g -> exists c, In (p, g_val g, c) (s_dimg s)).
Proof.
  intros s R. apply reach_Inv in R. split.
  - intros b v c H. split; [|exact (proj1 (i_dimg _ R b v c H))].
    cbn [step s_pages]. unfold load. destruct (find (fun e => e_blk e =? b) (s_dimg s)) as [[[b' v'] c']|] eqn:F.
    + apply find_some in F. destruct F as [F1 F2]. unfold e_blk in F2. cbn in F2. assert (b' = b) as -> by lia.
      destruct (i_dmap _ R) as [_ [ND _]].
      assert (E : (b, v', c') = (b, v, c)).
      { clear -ND F1 H. induction (s_dimg s) as [|e r IH]; [contradiction|]. cbn in ND. inversion ND as [|? ? NI ND']; subst.
        destruct F1 as [->|F1], H as [H|H]; auto.
        - exfalso; apply NI. apply blocks_in. eauto.
        - subst e. exfalso; apply NI. apply blocks_in. eauto. }
      injection E as -> ->. reflexivity.
    + exfalso. pose proof (find_none _ _ F _ H) as Q. unfold e_blk in Q. cbn in Q. lia.
  - intros p g H. cbn [step s_pages] in H. unfold load in H. destruct (find _ _) as [[[b v] c]|] eqn:F; [|discriminate].
    injection H as <-. apply find_some in F. destruct F as [F1 F2]. unfold e_blk in F2. cbn in F2. assert (b = p) as -> by lia. exists c. exact F1.
Qed.

(** No two pages of the tree share a block, and no block of a page is on a free
    list, also right after a restart. *)
Theorem C28_blocks_distinct_partial : forall s, reachable s -> blocks_distinct s /\ blocks_not_free s.
Proof. intros s R. apply reach_Inv in R. split; [apply i_pages|apply i_used]; exact R. Qed.

(** A block handed out for a new page version is not one of the image's. *)
Theorem C28_new_block_outside_image_partial : forall s s2 b, reachable s -> alloc s = (s2, b) -> forall v c, ~ In (b, v, c) (s_dimg s).
Proof.
  intros s s2 b R E v c H. apply reach_Inv in R. destruct (alloc_Inv s s2 b R E) as [_ [SM [_ [_ ND]]]].
  unfold same in SM. apply ND. apply blocks_in. exists v, c. replace (s_dimg s2) with (s_dimg s) by (symmetry; apply SM). exact H.
Qed.

(** While a scan is running, no block that belonged to a page when it started
    is given to another page. *)
Theorem C28_scan_blocks_not_reused_partial : forall s p g b ops, reachable s -> s_pages s p = Some g -> g_ext g = Some b ->
  scan_on (scan_num s) (step s OScanStart) ops ->
  forall q h, s_pages (run step (step s OScanStart) ops) q = Some h -> g_ext h = Some b -> q = p.
Proof.
  intros s p g b ops R P E SO q h Q EQ. apply reach_Inv in R.
  assert (A : J (scan_num s) p b (step s OScanStart)).
  { pose proof (start_J s p g b R P E) as A. destruct A; constructor; auto. }
  exact (j_own _ _ _ _ (run_J _ _ _ ops _ A SO) q h Q EQ).
Qed.

(** * Cases that meet the hypotheses *)

(** Two checkpoints of two pages; page 1 is rewritten during the second, page 2
    before it; then block 0 is reused. *)
Definition two : list op :=
  [ONew 1 10 false; ONew 2 20 false; OStart; OVisit 1 10; OWrite 1 11; OVisit 2 20; OFinish; OControl; OPublish;
   OWrite 2 21; OStart; OVisit 1 12; OWrite 1 13; OVisit 2 21; OFinish; OControl; OPublish].

Example C28_two : s_dimg (run step init two) = [(1, 12, 2); (3, 21, 2)] /\ s_last (run step init two) = 2.
Proof. vm_compute. auto. Qed.

(** Blocks freed for the second checkpoint are reused after it. *)
Example C28_reuse : option_map g_ext (s_pages (run step init (two ++ [OWrite 2 22])) 2) = Some (Some 0).
Proof. vm_compute. reflexivity. Qed.

(** A crash after more writes: both pages come back as checkpointed. *)
Example C28_crash :
  let s := run step init (two ++ [OWrite 2 22; OWrite 1 14; OStart; OVisit 1 15; ORestart]) in
  map (fun b => option_map g_val (s_pages s b)) [3; 1] = [Some 21; Some 12] /\ s_disk s 3 = 21 /\ s_disk s 1 = 12.
Proof. vm_compute. auto. Qed.

(** A scan holds block reuse back. *)
Example C28_scan :
  let pre := firstn 9 two in let ops := skipn 9 two ++ [OWrite 2 22] in
  scan_on (scan_num (run step init pre)) (step (run step init pre) OScanStart) ops
  /\ option_map g_ext (s_pages (run step (step (run step init pre) OScanStart) ops) 2) = Some (Some 5).
Proof.
  vm_compute. repeat split; try discriminate; auto.
Qed.

Print Assumptions C28_image_intact_partial.
Print Assumptions C28_restart_reads_image_partial.
Print Assumptions C28_blocks_distinct_partial.
Print Assumptions C28_new_block_outside_image_partial.
Print Assumptions C28_scan_blocks_not_reused_partial.
