(** Property C38: large values survive chunked storage. *)
From Coq Require Import List ZArith Bool Lia.
From Coq Require Import ZifyBool.
From Verif Require Import Base ToastModel ToastSpec ToastProofs.
Import ListNotations.
Open Scope Z_scope.

(** After any history of writes, deletes, commits, rollbacks and reuse of
    space, a reader holding a version of a row gets back exactly the value
    which that version stored out of line.  Assumed: key images which compare
    equal have the same size, and either the value does not fill its last
    piece, or no chunk numbered after its last one is found.  Without either
    of these the claim is false: see the refuted cases below. *)
Theorem C38_value_partial : forall attrs msize ops rd p r a v,
  NoDup attrs -> same_pieces msize -> (forall p x, (1 <= msize p x)%nat) ->
  let s := run (step attrs msize) init ops in
  in_use (hor s) rd -> holds (cs s) rd (rows s p) r -> r_val r a = Some v ->
  ((length v mod msize p (r_img r))%nat <> 0%nat \/
   nothing_after (cs s) rd p a
     (Z.of_nat (length (chunks (msize p (r_img r)) v))) (tr s)) ->
  detoast msize s rd p r a (length v) = Some v.
Proof.
  intros attrs msize ops rd p r a v ND SP MP s U H V HZ.
  pose proof (inv_run attrs msize ND SP MP ops) as I. fold s in I.
  unfold detoast, toast_get. rewrite (SP p (r_img r) 0) in *.
  destruct (iterate_eq attrs msize s rd p r a v I U H V) as [rest [E R]].
  rewrite E. rewrite (get_loop_chunks (length v) _ _ _ []);
    [reflexivity|lia|apply MP|reflexivity|].
  destruct HZ as [HZ|HZ]; [right; exact HZ|left].
  destruct rest as [|[i d] rest]; [reflexivity|exfalso].
  assert (Hi : In (i, d) ((i, d) :: rest)) by (left; reflexivity).
  apply R in Hi. destruct Hi as [L X].
  destruct (lookup (tr s) (p, a, i)) as [|e c] eqn:Lk; [discriminate|].
  rewrite (HZ i (e :: c)) in X; [discriminate|exact L|].
  rewrite <- Lk. apply lookup_some. rewrite Lk. discriminate.
Qed.
Print Assumptions C38_value_partial.

(** The live chunks of a column are exactly those of the value of the newest
    version of the row: put together they are that value, and there is none
    when the row is deleted or the value is not stored out of line. *)
Theorem C38_exact_partial : forall attrs msize ops p a,
  NoDup attrs -> same_pieces msize -> (forall p x, (1 <= msize p x)%nat) ->
  let s := run (step attrs msize) init ops in
  match rows s p with
  | r :: _ =>
      (r_del r = false -> forall v, r_val r a = Some v ->
         get_any (p, a, 0) (tr s) = v) /\
      ((r_del r = true \/ r_val r a = None) ->
         forall i c, In ((p, a, i), c) (tr s) -> cur c = None)
  | [] => forall i c, In ((p, a, i), c) (tr s) -> cur c = None
  end.
Proof.
  intros attrs msize ops p a ND SP MP s.
  pose proof (inv_run attrs msize ND SP MP ops) as I. fold s in I.
  assert (X : forall j, 0 <= j -> cur (lookup (tr s) (p, a, j)) =
            cchunk (msize p 0) a j (rows s p)).
  { intros j Hj. destruct (iv_cells _ _ s I p a j Hj) as [C _].
    destruct (cchunk (msize p 0) a j (rows s p)) as [d|] eqn:Cc.
    - destruct (ck_live _ _ _ _ _ _ _ C) as [l1 [l2 [El [Lv Cut]]]].
      pose proof (ck_cur _ _ _ _ _ _ _ C) as CC.
      destruct (rows s p) as [|r l] eqn:Er; [discriminate|]. cbn [cchunk] in Cc.
      pose proof (iv_rows _ _ s I p) as RO. rewrite Er in RO.
      destruct (lookup (tr s) (p, a, j)) as [|e c] eqn:Lk.
      { exfalso. cbn in CC. destruct CC as [CC _]. specialize (CC Logic.I). congruence. }
      assert (De : e_del e = false).
      { destruct (e_del e) eqn:D; [|reflexivity]. exfalso. cbn in CC. apply CC in D.
        congruence. }
      cbn [cur]. rewrite De. f_equal.
      destruct (writer _ _ _ _ _ _ _ _ RO Cc) as [lk [r0 [l0 [Ek [Hk [N0 C0]]]]]].
      rewrite Ek in El.
      assert (HL : exists t, live (e :: c) = Ent (r_tx r0) (r_ver r0) false d :: t).
      { destruct (app_cmp _ _ _ _ _ _ El) as [[t [-> _]]|[t [X Y]]].
        - rewrite Lv, live_of_app.
          replace (live_of (msize p 0) a j lk) with (@nil entry).
          + cbn [app]. unfold live_of. cbn [flat_map]. unfold contrib at 1.
            rewrite N0, C0. cbn [app]. eauto.
          + symmetry. clear - Hk. induction lk as [|x lk IH]; [reflexivity|].
            unfold live_of. cbn [flat_map]. unfold contrib at 1.
            destruct (Hk x (or_introl eq_refl)) as [-> _]. cbn [app].
            apply IH. intros y Hy. apply Hk. right. exact Hy.
        - exfalso. destruct Cut as [->|[l1' [rc [n [-> [_ [_ Lk']]]]]]].
          { destruct t; discriminate X. }
          assert (Irc : In rc lk).
          { rewrite Y. apply in_or_app. left. apply in_or_app. right. left. reflexivity. }
          apply Hk in Irc. destruct Irc. congruence. }
      destruct HL as [t HL]. unfold live in HL. cbn [filter] in HL.
      rewrite De in HL. cbn [negb] in HL. inversion HL. reflexivity.
    - apply cur_none. apply (ck_cur _ _ _ _ _ _ _ C). exact Cc. }
  assert (NONE : (forall j, cchunk (msize p 0) a j (rows s p) = None) ->
            forall i c, In ((p, a, i), c) (tr s) -> cur c = None).
  { intros Hn i c Hi. assert (Li := iv_nonneg _ _ s I _ _ _ _ Hi).
    rewrite <- (lookup_in _ _ _ (iv_sorted _ _ s I) Hi), X by auto. apply Hn. }
  destruct (rows s p) as [|r l] eqn:Er.
  - apply NONE. reflexivity.
  - split.
    + intros D v V. apply (get_any_exact (msize p 0)); [apply MP|apply I|apply I|].
      intros j Hj. rewrite X by auto. cbn [cchunk]. unfold rchunk. rewrite D, V. reflexivity.
    + intros H. apply NONE. intros j. cbn [cchunk]. unfold rchunk.
      destruct H as [->|H]; [reflexivity|]. destruct (r_del r); [reflexivity|].
      rewrite H. reflexivity.
Qed.
Print Assumptions C38_exact_partial.

(** Storing the chunks of a value never meets a live chunk: writes never fail
    because of left chunks. *)
Theorem C38_store_partial : forall attrs msize ops,
  NoDup attrs -> same_pieces msize -> (forall p x, (1 <= msize p x)%nat) ->
  failed (run (step attrs msize) init ops) = false.
Proof.
  intros attrs msize ops ND SP MP. apply (iv_ok attrs msize).
  apply inv_run; auto.
Qed.
Print Assumptions C38_store_partial.

(** What a write stores is what its own transaction reads back at once. *)
Theorem C38_write_read_partial : forall attrs msize ops tx p img vals sp a v,
  NoDup attrs -> same_pieces msize -> (forall p x, (1 <= msize p x)%nat) ->
  let s0 := run (step attrs msize) init ops in
  may_write (cs s0) tx (rows s0 p) = true ->
  In a attrs -> vals a = Some v -> (length v mod msize p img)%nat <> 0%nat ->
  let s := step attrs msize s0 (OWrite tx p img vals sp) in
  exists r l, rows s p = r :: l /\ l = rows s0 p /\
    detoast msize s (ROwn tx (r_ver r)) p r a (length v) = Some v.
Proof.
  intros attrs msize ops tx p img vals sp a v ND SP MP s0 M Ia V L s.
  assert (F : failed s = false).
  { subst s s0. change (step attrs msize (run (step attrs msize) init ops)
      (OWrite tx p img vals sp)) with (run (step attrs msize)
      (run (step attrs msize) init ops) [OWrite tx p img vals sp]).
    rewrite <- run_app. apply C38_store_partial; auto. }
  assert (RUN : s = run (step attrs msize) init (ops ++ [OWrite tx p img vals sp])).
  { rewrite run_app. reflexivity. }
  assert (R : exists r, rows s p = r :: rows s0 p /\ r_tx r = tx /\ r_del r = false /\
            r_img r = img /\ r_val r a = Some v /\ cs s = cs s0).
  { subst s. cbn [step] in *. unfold do_write in *. rewrite M in *.
    destruct (write_cols _ _ _ _ _ _ _ _ _); [|discriminate F].
    cbn [set_rows rows cs]. rewrite upd_same.
    eexists. split; [reflexivity|]. cbn [r_tx r_del r_img r_val].
    split; [reflexivity|]. split; [reflexivity|]. split; [reflexivity|].
    split; [|reflexivity].
    replace (existsb (Z.eqb a) attrs) with true.
    - rewrite V. destruct v; [|reflexivity]. exfalso. apply L.
      cbn [length]. apply Nat.mod_0_l. specialize (MP p img). lia.
    - symmetry. apply existsb_exists. exists a. split; [auto|apply Z.eqb_refl]. }
  destruct R as [r [Er [Et [Dr [Ei [Vr Ec]]]]]]. exists r, (rows s0 p).
  split; [exact Er|]. split; [reflexivity|].
  rewrite RUN. apply (C38_value_partial attrs msize); auto; rewrite <- ?RUN.
  - exact Logic.I.
  - split; [exact Dr|]. split; [rewrite Er; left; reflexivity|].
    split; [exact Et|]. split; [reflexivity|]. rewrite Ec.
    eapply may_none. exact M.
  - left. rewrite Ei. exact L.
Qed.
Print Assumptions C38_write_read_partial.

(** Replacing the value of a system tree entry, longer or shorter, leaves
    exactly the new value, and the chunks of other entries as they were. *)
Theorem C38_replace : forall m tx w p a v t,
  (1 <= m)%nat -> sorted t -> nonneg t ->
  get_any (p, a, 0) (upd_chunks m tx w p a v t) = v /\
  (forall p' a' j, 0 <= j -> (p', a') <> (p, a) ->
     lookup (upd_chunks m tx w p a v t) (p', a', j) = lookup t (p', a', j)).
Proof.
  intros m tx w p a v t Hm So N. unfold upd_chunks.
  destruct (upd_loop_spec (chunks m v) tx w p a 0 t So N ltac:(lia))
    as [S' [N' [Ho [_ Ha]]]]. split.
  - apply (get_any_exact m); auto. intros j Hj. rewrite Ha, Z.sub_0_r by auto.
    reflexivity.
  - intros p' a' j Hj D. apply Ho; [exact Hj|].
    destruct (Z.eq_dec p' p) as [->|]; [|auto]. right. congruence.
Qed.
Print Assumptions C38_replace.

(** * Refuted cases *)

Definition m2 (p x : Z) : nat := 2.
Definition none2 (a i : Z) : bool := false.
Definition val (v : bytes) (a : Z) : option bytes := if a =? 3 then Some v else None.

(** A value of five bytes in pieces of two, committed; then replaced by a
    value which fills exactly one piece. *)
Definition left_ops : list op :=
  [OWrite 7 10 0 (val [1; 2; 3; 4; 5]) none2; OCommit 7;
   OWrite 8 10 0 (val [6; 9]) none2; OCommit 8].

(** The read of the new value meets the deleted second chunk of the old
    value, and fails. *)
Theorem C38_refuted_leftover :
  exists r, holds (cs (run (step [3] m2) init left_ops)) (RCsn 9)
              (rows (run (step [3] m2) init left_ops) 10) r /\
    r_val r 3 = Some [6; 9] /\
    detoast m2 (run (step [3] m2) init left_ops) (RCsn 9) 10 r 3 2 = None.
Proof.
  eexists. split.
  - split; [|exists [], (tl (rows (run (step [3] m2) init left_ops) 10))].
    2:{ split; [vm_compute; reflexivity|]. split; [|intros r' []].
        exists 2. split; [vm_compute; reflexivity|lia]. }
    reflexivity.
  - split; vm_compute; reflexivity.
Qed.
Print Assumptions C38_refuted_leftover.

(** The same within the writing transaction. *)
Definition own_ops : list op :=
  [OWrite 7 10 0 (val [1; 2; 3; 4; 5]) none2; OWrite 7 10 0 (val [6; 9]) none2].

Theorem C38_refuted_leftover_own :
  exists r, holds (cs (run (step [3] m2) init own_ops)) (ROwn 7 1)
              (rows (run (step [3] m2) init own_ops) 10) r /\
    r_val r 3 = Some [6; 9] /\
    detoast m2 (run (step [3] m2) init own_ops) (ROwn 7 1) 10 r 3 2 = None.
Proof.
  eexists. split.
  - split; [|split; [vm_compute; left; reflexivity|]].
    + reflexivity.
    + vm_compute. auto.
  - split; vm_compute; reflexivity.
Qed.
Print Assumptions C38_refuted_leftover_own.

(** A key is rewritten to an equal key with a shorter image, so that pieces
    are larger; the unchanged value, still stored in the small pieces, can no
    longer be read. *)
Definition mimg (p x : Z) : nat := if x =? 0 then 2%nat else 4%nat.
Definition img_ops : list op :=
  [OWrite 7 10 0 (val [1; 2; 3; 4; 5]) none2; OCommit 7;
   OWrite 8 10 1 (val [1; 2; 3; 4; 5]) none2; OCommit 8].

Theorem C38_refuted_key_image :
  exists r, holds (cs (run (step [3] mimg) init img_ops)) (RCsn 9)
              (rows (run (step [3] mimg) init img_ops) 10) r /\
    r_val r 3 = Some [1; 2; 3; 4; 5] /\
    detoast mimg (run (step [3] mimg) init img_ops) (RCsn 9) 10 r 3 5 = None.
Proof.
  eexists. split.
  - split; [|exists [], (tl (rows (run (step [3] mimg) init img_ops) 10))].
    2:{ split; [vm_compute; reflexivity|]. split; [|intros r' []].
        exists 2. split; [vm_compute; reflexivity|lia]. }
    reflexivity.
  - split; vm_compute; reflexivity.
Qed.
Print Assumptions C38_refuted_key_image.

(** * The hypotheses can be met *)

(** A row written, updated twice by one transaction to a shorter and a longer
    value; the first version is still read by a cursor of the transaction and
    an older snapshot still reads the committed one. *)
Definition ex_ops : list op :=
  [OWrite 7 10 0 (val [1; 2; 3; 4; 5]) none2; OCommit 7;
   OWrite 8 10 0 (val [6; 7; 8]) none2;
   OWrite 8 10 0 (val [11; 12; 13; 14; 15; 16; 17]) none2].

Example C38_ex :
  let s := run (step [3] m2) init ex_ops in
  match rows s 10 with
  | [r2; r1; r0] =>
      detoast m2 s (ROwn 8 1) 10 r2 3 7 = Some [11; 12; 13; 14; 15; 16; 17] /\
      detoast m2 s (ROwn 8 0) 10 r1 3 3 = Some [6; 7; 8] /\
      detoast m2 s (RCsn 5) 10 r0 3 5 = Some [1; 2; 3; 4; 5]
  | _ => False
  end.
Proof. vm_compute. auto. Qed.

Example C38_ex_hyp :
  NoDup [3] /\ same_pieces m2 /\ (forall p x, (1 <= m2 p x)%nat) /\
  let s := run (step [3] m2) init ex_ops in
  in_use (hor s) (ROwn 8 0) /\
  (exists r, holds (cs s) (ROwn 8 0) (rows s 10) r /\ r_val r 3 = Some [6; 7; 8]) /\
  (length [6; 7; 8] mod m2 10 0)%nat <> 0%nat /\
  may_write (cs s) 8 (rows s 10) = true.
Proof.
  split; [constructor; [intros []|constructor]|].
  split; [intros p x y; reflexivity|]. split; [intros; unfold m2; lia|].
  split; [exact Logic.I|]. split.
  - eexists. split.
    + split; [|split; [vm_compute; right; left; reflexivity|]].
      * reflexivity.
      * vm_compute. auto.
    + vm_compute. reflexivity.
  - vm_compute. split; [discriminate|reflexivity].
Qed.

(** Once the space of the deleted chunks is reused, the whole-piece value can
    be read. *)
Example C38_ex_cleaned :
  let s := run (step [3] m2) init
             (left_ops ++ [OHorizon 5; OClean (10, 3, 1); OClean (10, 3, 2)]) in
  match rows s 10 with
  | r :: _ => detoast m2 s (RCsn 9) 10 r 3 2 = Some [6; 9]
  | [] => False
  end.
Proof. vm_compute. reflexivity. Qed.

Example C38_ex_replace :
  sorted (upd_chunks 2 1 0 4 2 [1; 2; 3] []) /\ nonneg (upd_chunks 2 1 0 4 2 [1; 2; 3] []).
Proof.
  split.
  - vm_compute. repeat constructor.
  - intros p a i c H. vm_compute in H. destruct H as [H|[H|[]]]; inversion H; lia.
Qed.
