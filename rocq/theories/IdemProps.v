(** C36: replaying changes that the checkpoint image already contains, in full, in part,
    or not at all, gives the contents each record taking effect exactly once would give. *)
From Coq Require Import ZArith List Bool Lia.
From Verif Require Import Base IdemSpec IdemModel IdemProofs.
Import ListNotations.
Open Scope Z_scope.

Lemma idem : forall ops c0 cap p q,
  let before := g_log (grun (firstn c0 ops)) in
  (forall k, (c0 <= cap k <= length ops)%nat) ->
  g_log (grun ops) = before ++ p ++ q ->
  let s := replay (rinit (image ops cap) before) p in
  r_stuck s = false ->
  forall k, contents s k = once (before ++ p) k /\ versions s k = history (before ++ p) k.
Proof.
  intros ops c0 cap p q before Hcap Hlog s NS k.
  rewrite app_assoc in Hlog.
  assert (J : jinv (before ++ p) (before ++ p) [] s).
  2: { split; [apply (jfinal (before ++ p)); auto; apply (wfL ops _ q Hlog)|apply jfinal_versions; auto]. }
  unfold s. apply (jrun (before ++ p)); auto.
  - apply (wfL ops _ q Hlog).
  - intros k'. apply (chain_L ops _ q Hlog).
  - constructor; cbn; auto.
    + intros x. destruct (has_commit before x); lia.
    + intros x. rewrite <- has_commit_in. destruct (has_commit before x); split; intros; congruence || lia.
    + intros k'. unfold image. eapply image_ok; eauto.
Qed.

(** Any history [ops] of concurrent transactions; the checkpoint starts after [c0] steps and
    captures each row whenever it gets to it; the log is durable up to [p].  If recovery
    gets through [p], it ends with the contents [once] gives, and each change of a
    committed transaction is in the row's version chain exactly once.
    _partial: that recovery gets through is not always true (C36_refuted). *)
Theorem C36_partial : forall ops c0 cap p q,
  let before := g_log (grun (firstn c0 ops)) in
  (forall k, (c0 <= cap k <= length ops)%nat) ->
  g_log (grun ops) = before ++ p ++ q ->
  let s := replay (rinit (image ops cap) before) p in
  r_stuck s = false ->
  forall k, contents s k = once (before ++ p) k /\ versions s k = history (before ++ p) k.
Proof. exact idem. Qed.

(** It gets through whenever the log shows one transaction at a time. *)
Definition one_at_a_time (p : list rec) : Prop :=
  forall l1 x k ver v l2, p = l1 ++ RMod x k ver v :: l2 ->
  forall y k' ver' v', y <> x -> In (RMod y k' ver' v') l1 -> In (RCommit y) l1 \/ In (RAbort y) l1.

Lemma put_some : forall st x ver v row, (forall y, y <> x -> st y <> 1) -> put st x ver v row <> None.
Proof.
  intros st x ver v row H. induction row as [|e r IH]; cbn; [discriminate|].
  unfold is_own. destruct (Z.eqb_spec (e_own e) x) as [Q|Q].
  - destruct (ver <=? e_ver e); auto. discriminate.
  - destruct (gone st (e_own e)); auto. specialize (H _ Q).
    destruct (Z.eqb_spec (st (e_own e)) 1); [contradiction|discriminate].
Qed.

Lemma del_some : forall st x ver row, (forall y, y <> x -> st y <> 1) -> del st x ver row <> None.
Proof.
  intros st x ver row H. induction row as [|e r IH]; cbn; [discriminate|].
  unfold is_own. destruct (Z.eqb_spec (e_own e) x) as [Q|Q].
  - destruct (e_val e); [|discriminate]. destruct (ver <? e_ver e); auto. discriminate.
  - destruct (gone st (e_own e)); auto. specialize (H _ Q).
    destruct (Z.eqb_spec (st (e_own e)) 1); [contradiction|]. destruct (e_val e); discriminate.
Qed.

Lemma solo_run : forall p2 p1 s, one_at_a_time (p1 ++ p2) ->
  (forall l1 r l2, p1 ++ p2 = l1 ++ r :: l2 -> ~ ends (rown r) l1) -> r_stuck s = false ->
  (forall x, r_st s x = 1 -> ~ ends x p1 /\ exists k ver v, In (RMod x k ver v) p1) ->
  r_stuck (replay s p2) = false.
Proof.
  induction p2 as [|r p2 IH]; intros p1 s H W NS I; cbn; auto.
  change (fold_left rstep p2 (rstep s r)) with (replay (rstep s r) p2).
  assert (EA : p1 ++ r :: p2 = (p1 ++ [r]) ++ p2) by (rewrite <- app_assoc; reflexivity).
  pose proof (W p1 r p2 eq_refl) as NE.
  unfold rstep. rewrite NS. destruct r as [x k ver v|x|x]; cbn in NE.
  - set (st := see (r_st s) x).
    assert (O : forall y, y <> x -> st y <> 1).
    { intros y N Q. assert (Q' : r_st s y = 1).
      { unfold st, see in Q. destruct (r_st s x =? 0); auto. rewrite upd_other in Q by auto. auto. }
      destruct (I y Q') as (NE' & k' & ver' & v' & Hin). apply NE'.
      eapply (H p1 x k ver v p2 eq_refl); eauto. }
    assert (I' : forall y, st y = 1 -> ~ ends y (p1 ++ [RMod x k ver v])
                 /\ exists k0 ver0 v0, In (RMod y k0 ver0 v0) (p1 ++ [RMod x k ver v])).
    { intros y Q. destruct (Z.eq_dec y x) as [->|N]; [|destruct (O y N Q)]. split.
      - rewrite ends_app. intros [Q'|[[Q'|[]]|[Q'|[]]]]; try discriminate. auto.
      - exists k, ver, v. apply in_or_app. right. left. reflexivity. }
    rewrite EA in H, W.
    destruct v as [v0|].
    + destruct (put st x ver (Some v0) (r_rows s k)) eqn:E; [|destruct (put_some _ _ _ _ _ O E)].
      apply (IH (p1 ++ [RMod x k ver (Some v0)])); auto.
    + destruct (del st x ver (r_rows s k)) eqn:E; [|destruct (del_some _ _ _ _ O E)].
      apply (IH (p1 ++ [RMod x k ver None])); auto.
  - rewrite EA in H, W. apply (IH (p1 ++ [RCommit x])); auto. cbn. intros y Q. unfold upd in Q.
    destruct (Z.eqb_spec y x) as [Ey|N]; [discriminate|]. destruct (I y Q) as (A & k0 & ver0 & v0 & B). split.
    + rewrite ends_app. intros [Q'|[[Q'|[]]|[Q'|[]]]]; auto; congruence.
    + exists k0, ver0, v0. apply in_or_app. auto.
  - rewrite EA in H, W. apply (IH (p1 ++ [RAbort x])); auto. cbn. intros y Q. unfold upd in Q.
    destruct (Z.eqb_spec y x) as [Ey|N]; [discriminate|]. destruct (I y Q) as (A & k0 & ver0 & v0 & B). split.
    + rewrite ends_app. intros [Q'|[[Q'|[]]|[Q'|[]]]]; auto; congruence.
    + exists k0, ver0, v0. apply in_or_app. auto.
Qed.

Theorem C36_one_at_a_time : forall ops c0 cap p q,
  let before := g_log (grun (firstn c0 ops)) in
  (forall k, (c0 <= cap k <= length ops)%nat) ->
  g_log (grun ops) = before ++ p ++ q ->
  one_at_a_time p ->
  let s := replay (rinit (image ops cap) before) p in
  r_stuck s = false /\
  forall k, contents s k = once (before ++ p) k /\ versions s k = history (before ++ p) k.
Proof.
  intros ops c0 cap p q before Hcap Hlog S s.
  assert (NS : r_stuck s = false).
  { apply (solo_run p []); auto.
    - cbn. intros l1 r l2 E Q. assert (W := wfL ops (before ++ p) q).
      rewrite <- app_assoc in W. specialize (W Hlog).
      apply (w_once _ W (before ++ l1) r l2); [rewrite E, app_assoc; reflexivity|].
      apply ends_app. auto.
    - cbn. intros x. destruct (has_commit before x); discriminate. }
  split; [exact NS|]. unfold s. eapply idem; eauto.
Qed.
Print Assumptions C36_partial.
Print Assumptions C36_one_at_a_time.

(** The moment each row got into the image makes no difference. *)
Corollary C36_any_image : forall ops c0 cap cap' p q,
  let before := g_log (grun (firstn c0 ops)) in
  (forall k, (c0 <= cap k <= length ops)%nat) -> (forall k, (c0 <= cap' k <= length ops)%nat) ->
  g_log (grun ops) = before ++ p ++ q ->
  r_stuck (replay (rinit (image ops cap) before) p) = false ->
  r_stuck (replay (rinit (image ops cap') before) p) = false ->
  forall k, versions (replay (rinit (image ops cap) before) p) k
          = versions (replay (rinit (image ops cap') before) p) k.
Proof.
  intros ops c0 cap cap' p q before H1 H2 HL N1 N2 k.
  etransitivity; [eapply idem; eauto|symmetry; eapply idem; eauto].
Qed.
Print Assumptions C36_any_image.

(** ** Hypotheses met: transaction 1 inserts, updates and deletes row 10 and inserts it
    again around the checkpoint; 2 updates row 20 and aborts; 3 updates row 20 and commits.
    The image has row 10 from the middle of it and row 20 from the end. *)
Definition ex_ops : list gop :=
  [GPut 9 20 1; GCommit 9; GPut 1 10 5; GPut 1 10 6; GFlush 1; GDel 1 10; GPut 1 10 7; GCommit 1;
   GPut 2 20 2; GFlush 2; GAbort 2; GPut 3 20 3; GDel 3 20; GPut 3 20 4; GCommit 3].
Definition ex_cap (k : key) : nat := if k =? 10 then 6%nat else 15%nat.

Example C36_example :
  let before := g_log (grun (firstn 3 ex_ops)) in
  let p := skipn (length before) (g_log (grun ex_ops)) in
  let s := replay (rinit (image ex_ops ex_cap) before) p in
  before = [RMod 9 20 0 (Some 1); RCommit 9] /\ length p = 11%nat /\
  g_log (grun ex_ops) = before ++ p ++ [] /\
  map e_val (image ex_ops ex_cap 10) = [None; Some 6; Some 5] /\
  map e_val (image ex_ops ex_cap 20) = [Some 4; None; Some 3; Some 1] /\
  r_stuck s = false /\ contents s 10 = Some 7 /\ contents s 20 = Some 4.
Proof. vm_compute. repeat split; reflexivity. Qed.

(** ** Finding F25: transaction 2 logs a record (row 20); 1 changes row 10 and commits; 2
    changes row 10; the image gets row 10 with the version of 2.  On replay 2 is known to be
    running when the record of 1 meets the version of 2, and 1 waits for ever. *)
Definition bad_ops : list gop :=
  [GPut 2 20 5; GFlush 2; GPut 1 10 7; GCommit 1; GPut 2 10 8; GCommit 2].

Theorem C36_refuted : exists ops cap p,
  (forall k, (0 <= cap k <= length ops)%nat) /\
  g_log (grun ops) = [] ++ p ++ [] /\
  r_stuck (replay (rinit (image ops cap) []) p) = true.
Proof.
  exists bad_ops, (fun _ => 5%nat), (g_log (grun bad_ops)). split; [cbn; intros; lia|].
  split; [cbn [app]; rewrite app_nil_r; reflexivity|]. vm_compute. reflexivity.
Qed.
Print Assumptions C36_refuted.

(** The same history with the row captured before the change of 2 is replayed. *)
Example C36_other_capture :
  r_stuck (replay (rinit (image bad_ops (fun _ => 4%nat)) []) (g_log (grun bad_ops))) = false.
Proof. vm_compute. reflexivity. Qed.

(** A checker for [one_at_a_time], used for the example. *)
Definition ended (y : oxid) (l : list rec) : bool :=
  existsb (fun r => match r with RCommit z | RAbort z => z =? y | _ => false end) l.
Fixpoint solo_b (seen p : list rec) : bool :=
  match p with
  | [] => true
  | r :: p' =>
      match r with
      | RMod x _ _ _ => forallb (fun q => match q with RMod y _ _ _ => (y =? x) || ended y seen | _ => true end) seen
      | _ => true
      end && solo_b (seen ++ [r]) p'
  end.

Lemma solo_b_ok : forall p seen, solo_b seen p = true ->
  forall l1 x k ver v l2, p = l1 ++ RMod x k ver v :: l2 ->
  forall y k' ver' v', y <> x -> In (RMod y k' ver' v') (seen ++ l1) ->
  In (RCommit y) (seen ++ l1) \/ In (RAbort y) (seen ++ l1).
Proof.
  induction p as [|r p IH]; intros seen H l1 x k ver v l2 E y k' ver' v' N Hin; [destruct l1; discriminate|].
  cbn in H. apply andb_prop in H as [H1 H2]. destruct l1 as [|r' l1]; cbn in E; injection E as Er E.
  - subst r. rewrite app_nil_r in *. rewrite forallb_forall in H1. specialize (H1 _ Hin). cbn in H1.
    destruct (Z.eqb_spec y x); [contradiction|]. cbn in H1. unfold ended in H1. apply existsb_exists in H1 as (q & Hq & Q).
    destruct q as [| z | z]; try discriminate; apply Z.eqb_eq in Q; subst z; auto.
  - subst r'. replace (seen ++ r :: l1) with ((seen ++ [r]) ++ l1) in * by (rewrite <- app_assoc; reflexivity).
    eapply IH; eauto.
Qed.

Example C36_example_serial :
  one_at_a_time (skipn (length (g_log (grun (firstn 3 ex_ops)))) (g_log (grun ex_ops))).
Proof. unfold one_at_a_time. intros. eapply (solo_b_ok _ []); eauto. vm_compute. reflexivity. Qed.
