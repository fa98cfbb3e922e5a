(** Properties C01, C02, C03, C05, C06: row visibility, snapshot stability,
    rollback, row-lock compatibility and own-lock bookkeeping. *)
From Coq Require Import ZArith List Bool Lia.
From Coq Require Import ZifyBool.
From Verif Require Import Base RowModel RowSpec RowLemmas RowInv RowLock RowRead.
Import ListNotations.
Open Scope Z_scope.

(** Nobody reads between two records of its own rollback. *)
Definition may_read (s : st) (x : Z) : Prop := tst (tx s x) = InProg -> troll (tx s x) = 0.

(** ** C01 *)

(** The full statement, for one reader in one history. *)
Definition reads_right (ops : list op) (x csn cid : Z) : Prop :=
  let s := exec ops in
  read (tx s) x csn cid (ch s) = visible (spec_of (evs s)) x csn cid.

(** After every history a read under any snapshot returns the reader's own
    newest earlier write or else the newest value committed before the
    snapshot, provided no lock mark of a committed transaction lies above a
    version not committed before it and below another version (F19). *)
Theorem C01_partial : forall ops x csn cid, may_read (exec ops) x ->
  ~ lock_shadow (tx (exec ops)) (ch (exec ops)) -> reads_right ops x csn cid.
Proof. intros ops x csn cid M N. apply read_visible; auto using Inv_exec. Qed.

(** In particular for all histories of inserts, updates, deletes, commits,
    aborts and rollbacks to savepoints in which rows are not locked by
    SELECT ... FOR statements. *)
Theorem C01_without_select_for : forall ops x csn cid, Forall no_lock_op ops ->
  may_read (exec ops) x -> reads_right ops x csn cid.
Proof.
  intros ops x csn cid F M. apply C01_partial; [exact M|]. apply nolocks_shadow, nolocks_exec, F.
Qed.

Definition seed := [OBegin 1; OSnap 1 0; OMod 1 KI 3 10 true; OCommit 1].
(** F19: transaction 2 updates twice with a KEY SHARE lock of transaction 3 in
    between; when 3 commits, others see the first uncommitted update of 2. *)
Definition dirty := seed ++ [OBegin 2; OSnap 2 0; OBegin 3; OSnap 3 0; OMod 2 KU 2 12 true;
  OMod 3 KL 0 0 true; OCmd 2; OMod 2 KU 2 19 true; OCommit 3].

Theorem C01_refuted : exists ops x csn cid, may_read (exec ops) x /\ ~ reads_right ops x csn cid.
Proof.
  exists dirty, 9, 3, 1. split; [vm_compute; discriminate|]. unfold reads_right. vm_compute. discriminate.
Qed.

(** ** C02 *)

(** Which transaction acts. *)
Definition opx (o : op) : Z :=
  match o with
  | OBegin x | OSnap x _ | OUnsnap x | OCmd x | OMod x _ _ _ _ | OOther x | OSave x | ORollTo x
  | OAbort x | OUndo x | OCommit x => x
  end.

(** Operations that keep a transaction going forward. *)
Definition forward (o : op) : bool :=
  match o with
  | OSnap _ _ | OUnsnap _ | OCmd _ | OMod _ _ _ _ _ | OOther _ | OSave _ => true
  | _ => false
  end.

Lemma modify_log : forall s x k m v go, let s' := modify s x k m v go in
  ncsn s' = ncsn s /\ (forall z, tcid (tx s' z) = tcid (tx s z)) /\
  (forall z, tst (tx s' z) = tst (tx s z)) /\
  (evs s' = evs s \/ exists n, evs s' = EvGrant x n :: evs s \/
     exists w, evs s' = EvGrant x n :: EvWrite x (tcid (tx s x)) w :: evs s).
Proof.
  intros s x k m v go.
  assert (PV : forall s2 a n w, tx s2 = tx s -> ncsn s2 = ncsn s -> evs s2 = evs s ->
    let s' := put_version s2 x a n w in
    ncsn s' = ncsn s /\ (forall z, tcid (tx s' z) = tcid (tx s z)) /\ 
    (forall z, tst (tx s' z) = tst (tx s z)) /\
    (evs s' = evs s \/ exists n, evs s' = EvGrant x n :: evs s \/
     exists w, evs s' = EvGrant x n :: EvWrite x (tcid (tx s x)) w :: evs s)).
  { intros s2 a n w A B C s'. split; [exact B|]. split; [|split].
    - intros z. cbn. rewrite <- A. unfold upd. destruct (z =? x) eqn:Q; [|reflexivity].
      cbn. assert (z = x) by lia. congruence.
    - intros z. cbn. rewrite <- A. unfold upd. destruct (z =? x) eqn:Q; [|reflexivity].
      cbn. assert (z = x) by lia. congruence.
    - right. exists n. right. exists w. cbn. rewrite A, C. reflexivity. }
  assert (PL : forall s2 n, tx s2 = tx s -> ncsn s2 = ncsn s -> evs s2 = evs s ->
    let s' := put_lock s2 x n in
    ncsn s' = ncsn s /\ (forall z, tcid (tx s' z) = tcid (tx s z)) /\ 
    (forall z, tst (tx s' z) = tst (tx s z)) /\
    (evs s' = evs s \/ exists n, evs s' = EvGrant x n :: evs s \/
     exists w, evs s' = EvGrant x n :: EvWrite x (tcid (tx s x)) w :: evs s)).
  { intros s2 n A B C s'. split; [exact B|]. split; [|split].
    - intros z. cbn. rewrite <- A. unfold upd. destruct (z =? x) eqn:Q; [|reflexivity].
      cbn. assert (z = x) by lia. congruence.
    - intros z. cbn. rewrite <- A. unfold upd. destruct (z =? x) eqn:Q; [|reflexivity].
      cbn. assert (z = x) by lia. congruence.
    - right. exists n. left. cbn. rewrite C. reflexivity. }
  unfold modify; cbv zeta. set (mm := match k with KI | KD => 3 | KU => if m =? 3 then 3 else 2 | KL => m end).
  destruct (ch s) as [|e0 l0]; [destruct k; try (cbn; auto; fail); destruct go; [apply PV; auto|cbn; auto]|].
  set (r := rlc _ _ _ _ _ _ _).
  destruct (rres r && negb (rconf r =? x)); [cbn; auto|].
  destruct go; cbn [negb]; [|cbn; auto].
  destruct (rchain r) as [|p pr]; [cbn; auto|].
  destruct (ed p).
  - destruct k; try (cbn; auto; fail). apply PV; auto.
  - destruct k; try (cbn; auto; fail);
      try (destruct (rred r && negb false); apply PV; auto; fail).
    destruct (rstat r =? 2).
    + change (negb true) with false; rewrite andb_false_r. cbn. split; [auto|]. split; [auto|]. split; [auto|]. right. exists mm. auto.
    + destruct (rred r && negb false); apply PL; auto.
Qed.

(** Effect of one operation on commit counter and specification. *)
Lemma step_com : forall s o, ncsn s <= ncsn (step s o) /\
  (com (sp (step s o)) = com (sp s) \/ exists v, com (sp (step s o)) = (ncsn s, v) :: com (sp s)).
Proof.
  intros s o. destruct o; cbn [step]; try (match goal with |- context [running ?t] => destruct (running t) eqn:R end);
    try (split; [cbn; lia | left; reflexivity]).
  - destruct (tst (tx s x)); (split; [cbn; lia | left; reflexivity]).
  - destruct (true && (tret (tx s x) <? INF) && (0 <=? m) && (m <=? 3)); [|split; [lia|auto]].
    destruct (modify_log s x k m v go) as (A & _ & _ & B). split; [lia|]. left. unfold sp.
    destruct B as [->|(n & [->|(w & ->)])]; reflexivity.
  - destruct (true && (0 <=? sploc (tstack (tx s x)))); (split; [cbn; lia | left; reflexivity]).
  - destruct (tst (tx s x)); (split; [cbn; lia | left; reflexivity]).
  - destruct (tst (tx s x)); try (split; [cbn; lia | left; reflexivity]).
    destruct (negb (troll (tx s x) =? 0)); [|split; [lia|auto]].
    unfold undo1. destruct (tstack (tx s x)) as [|i l]; [destruct (troll (tx s x) =? 2)|destruct (ia i)];
      (split; [cbn; lia | left; reflexivity]).
  - split; [cbn; lia|]. unfold sp. cbn.
    destruct (last_write (pend (fold_right spec_step spec0 (evs s)) x)); eauto.
Qed.

Lemma step_pend_other : forall s o x, opx o <> x ->
  pend (sp (step s o)) x = pend (sp s) x /\ tx (step s o) x = tx s x \/ False.
Proof.
  intros s o y N. left. destruct o; cbn [step opx] in *; try (match goal with |- context [running ?t] => destruct (running t) eqn:R end);
    try (split; [reflexivity | cbn; try apply upd_other; auto]; fail).
  - destruct (tst (tx s x)); (split; [reflexivity | cbn; try apply upd_other; auto]).
  - destruct (true && (tret (tx s x) <? INF) && (0 <=? m) && (m <=? 3)); [|auto].
    destruct (modify_log s x k m v go) as (_ & _ & _ & B). split.
    + unfold sp. destruct B as [->|(n & [->|(w & ->)])]; cbn; try reflexivity. apply upd_other. auto.
    + assert (PV : forall s2 a n w, tx s2 = tx s -> tx (put_version s2 x a n w) y = tx s y)
        by (intros s2 a n w A; cbn; rewrite upd_other by auto; congruence).
      assert (PL : forall s2 n, tx s2 = tx s -> tx (put_lock s2 x n) y = tx s y)
        by (intros s2 n A; cbn; rewrite upd_other by auto; congruence).
      unfold modify; cbv zeta. set (mm := match k with KI | KD => 3 | KU => if m =? 3 then 3 else 2 | KL => m end).
      destruct (ch s) as [|e0 l0]; [destruct k; auto; destruct go; auto|].
      set (r := rlc _ _ _ _ _ _ _).
      destruct (rres r && negb (rconf r =? x)); [auto|].
      destruct go; cbn [negb]; [|auto].
      destruct (rchain r) as [|p pr]; [auto|].
      destruct (ed p); [destruct k; auto|].
      destruct k; auto; try (destruct (rred r && negb false); apply PV; auto; fail).
      destruct (rstat r =? 2); [change (negb true) with false; rewrite andb_false_r; auto|]. destruct (rred r && negb false); apply PL; auto.
  - split; [cbn; apply upd_other; auto | cbn; apply upd_other; auto].
  - destruct (true && (0 <=? sploc (tstack (tx s x)))); [|auto].
    split; [cbn; apply upd_other; auto | cbn; apply upd_other; auto].
  - destruct (tst (tx s x)); auto. split; [cbn; apply upd_other; auto | cbn; apply upd_other; auto].
  - destruct (tst (tx s x)); auto. destruct (negb (troll (tx s x) =? 0)); [|auto].
    unfold undo1. destruct (tstack (tx s x)) as [|i l]; [destruct (troll (tx s x) =? 2)|destruct (ia i)];
      (split; [reflexivity | cbn; apply upd_other; auto]).
  - split; [cbn; apply upd_other; auto | cbn; apply upd_other; auto].
Qed.

Definition later (cid : Z) (p : pitem) : Prop := match p with PM => True | PW c _ => cid <= c end.

Lemma step_pend_forward : forall s o, forward o = true ->
  tcid (tx s (opx o)) <= tcid (tx (step s o) (opx o)) /\
  exists p, pend (sp (step s o)) (opx o) = p ++ pend (sp s) (opx o) /\
            Forall (later (tcid (tx s (opx o)))) p.
Proof.
  intros s o F. destruct o; cbn [step opx forward] in *; try discriminate;
    try (match goal with |- context [running ?t] => destruct (running t) eqn:R end);
    try (split; [cbn; rewrite ?upd_same; cbn; lia | exists []; split; [reflexivity|constructor]]; fail).
  - destruct (true && (tret (tx s x) <? INF) && (0 <=? m) && (m <=? 3));
      [|split; [lia | exists []; split; [reflexivity|constructor]]].
    destruct (modify_log s x k m v go) as (_ & A & _ & B). rewrite A. split; [lia|].
    unfold sp. destruct B as [->|(n & [->|(w & ->)])]; cbn.
    + exists []. split; [reflexivity|constructor].
    + exists []. split; [reflexivity|constructor].
    + rewrite upd_same. exists [PW (tcid (tx s x)) w]. split; [reflexivity|]. constructor; [cbn; lia|constructor].
  - split; [cbn; rewrite upd_same; cbn; lia|]. cbn. rewrite upd_same. exists [PM].
    split; [reflexivity|]. constructor; [exact Logic.I|constructor].
Qed.

Lemma own_version_later : forall cid p l, Forall (later cid) p -> own_version cid (p ++ l) = own_version cid l.
Proof.
  intros cid p l H. induction H as [|[c v|] p P H IH]; cbn; auto. cbn in P.
  assert (c <? cid = false) as -> by lia. exact IH.
Qed.

Lemma visible_stable : forall ops s x csn cid, csn <= ncsn s -> cid <= tcid (tx s x) ->
  (forall o, In o ops -> opx o = x -> forward o = true) ->
  visible (sp (run step s ops)) x csn cid = visible (sp s) x csn cid.
Proof.
  induction ops as [|o ops IH]; intros s x csn cid C1 C2 F; [reflexivity|].
  cbn [run fold_left]. fold (run step (step s o) ops).
  destruct (step_com s o) as [N CM].
  assert (CB : committed_before csn (com (sp (step s o))) = committed_before csn (com (sp s))).
  { destruct CM as [->|(v & ->)]; [reflexivity|]. cbn. assert (ncsn s <? csn = false) as -> by lia. reflexivity. }
  assert (PO : own_version cid (pend (sp (step s o)) x) = own_version cid (pend (sp s) x) /\
               cid <= tcid (tx (step s o) x)).
  { destruct (Z.eq_dec (opx o) x) as [E|E].
    - assert (FO := F o (or_introl eq_refl) E). destruct (step_pend_forward s o FO) as (A & p & B & D).
      rewrite E in *. split; [|lia]. rewrite B. apply own_version_later.
      eapply Forall_impl; [|exact D]. intros [c v|]; cbn; lia.
    - destruct (step_pend_other s o x E) as [[A B]|[]]. rewrite A, B. auto. }
  destruct PO as [P1 P2]. rewrite IH; auto; [|lia|intros o' I; apply F; right; exact I].
  unfold visible. rewrite P1, CB. reflexivity.
Qed.

(** Two reads by one transaction under one snapshot (taken no later than the
    first read) agree, whatever the other transactions do in between and
    whatever the reader itself writes in between, provided F19 does not bite at
    either read. *)
Theorem C02_partial : forall ops1 ops2 x csn cid,
  let s1 := exec ops1 in let s2 := exec (ops1 ++ ops2) in
  csn <= ncsn s1 -> cid <= tcid (tx s1 x) ->
  (forall o, In o ops2 -> opx o = x -> forward o = true) ->
  may_read s1 x -> may_read s2 x ->
  ~ lock_shadow (tx s1) (ch s1) -> ~ lock_shadow (tx s2) (ch s2) ->
  read (tx s1) x csn cid (ch s1) = read (tx s2) x csn cid (ch s2).
Proof.
  intros ops1 ops2 x csn cid s1 s2 A B F M1 M2 N1 N2.
  rewrite !read_visible; auto; try apply Inv_exec.
  unfold s2, s1, exec in *. rewrite run_app. symmetry. apply visible_stable; auto.
Qed.

Theorem C02_without_select_for : forall ops1 ops2 x csn cid,
  let s1 := exec ops1 in let s2 := exec (ops1 ++ ops2) in
  Forall no_lock_op (ops1 ++ ops2) ->
  csn <= ncsn s1 -> cid <= tcid (tx s1 x) ->
  (forall o, In o ops2 -> opx o = x -> forward o = true) ->
  may_read s1 x -> may_read s2 x ->
  read (tx s1) x csn cid (ch s1) = read (tx s2) x csn cid (ch s2).
Proof.
  intros ops1 ops2 x csn cid s1 s2 K A B F M1 M2. apply C02_partial; auto; apply nolocks_shadow, nolocks_exec.
  - apply Forall_app in K. tauto.
  - exact K.
Qed.

(** F19 breaks it: the uncommitted value goes away with transaction 2. *)
Theorem C02_refuted : exists ops1 ops2 x csn cid,
  let s1 := exec ops1 in let s2 := exec (ops1 ++ ops2) in
  csn <= ncsn s1 /\ (forall o, In o ops2 -> opx o <> x) /\
  read (tx s1) x csn cid (ch s1) <> read (tx s2) x csn cid (ch s2).
Proof.
  exists dirty, [OAbort 2; OUndo 2; OUndo 2; OUndo 2], 9, 3, 1. split; [vm_compute; discriminate|].
  split; [|vm_compute; discriminate].
  intros o I. repeat (destruct I as [<-|I]; [cbn; lia|]). contradiction.
Qed.

(** ** C03 *)

Lemma erase_spec : forall x h, (forall c, ~ In (EvCommit x c) h) ->
  com (spec_of (erase x h)) = com (spec_of h) /\
  forall y, y <> x -> pend (spec_of (erase x h)) y = pend (spec_of h) y /\
                      hold (spec_of (erase x h)) y = hold (spec_of h) y.
Proof.
  intros x h. induction h as [|e h IH]; intros NC; [cbn; auto|].
  destruct IH as [IC IP]; [intros c I; apply (NC c); right; exact I|].
  cbn [erase filter]. destruct (owner e =? x) eqn:Q; cbn [negb].
  - fold (erase x h). assert (owner e = x) by lia.
    destruct e; cbn in *; subst; try (elim (NC c); auto; fail);
      (split; [exact IC|]); intros y N; destruct (IP y N) as [A B]; rewrite ?upd_other by assumption; auto.
  - fold (erase x h). assert (owner e <> x) by lia.
    change (spec_of (e :: erase x h)) with (spec_step e (spec_of (erase x h))).
    change (spec_of (e :: h)) with (spec_step e (spec_of h)).
    assert (PE := proj1 (IP (owner e) H)). assert (HE := proj2 (IP (owner e) H)).
    destruct e; cbn [spec_step com pend hold owner] in *; rewrite ?PE, ?HE, ?IC; (split; [reflexivity|]);
      intros y N; destruct (IP y N) as [A B]; unfold upd; destruct (y =? x0); auto.
Qed.

Lemma step_commit_event : forall s o x c, In (EvCommit x c) (evs (step s o)) ->
  In (EvCommit x c) (evs s) \/ exists c', tst (tx (step s o) x) = Comm c'.
Proof.
  intros s o x c.
  destruct o as [y|y d|y|y|y k m v go|y|y|y|y|y|y]; cbn [step];
    try (match goal with |- context [running ?t] => destruct (running t) eqn:R end); auto.
  - destruct (tst (tx s y)); auto.
  - destruct (true && (tret (tx s y) <? INF) && (0 <=? m) && (m <=? 3)); auto.
    destruct (modify_log s y k m v go) as (_ & _ & _ & B).
    destruct B as [->|(n & [->|(w & ->)])]; auto.
    + intros [I|I]; [discriminate|auto].
    + intros [I|[I|I]]; try discriminate. auto.
  - intros [I|I]; [discriminate|auto].
  - destruct (true && (0 <=? sploc (tstack (tx s y)))); auto. intros [I|I]; [discriminate|auto].
  - destruct (tst (tx s y)); auto. intros [I|I]; [discriminate|auto].
  - destruct (tst (tx s y)); auto. destruct (negb (troll (tx s y) =? 0)); auto. unfold undo1.
    destruct (tstack (tx s y)) as [|i l]; [destruct (troll (tx s y) =? 2)|destruct (ia i)]; auto.
  - intros [I|I]; [|auto]. inv I. right. cbn. rewrite upd_same. cbn. eauto.
Qed.

Lemma step_stays_committed : forall s o x c, tst (tx s x) = Comm c -> tst (tx (step s o) x) = Comm c.
Proof.
  intros s o x c H. destruct (Z.eq_dec (opx o) x) as [E|E].
  - destruct o; cbn [step opx] in *; subst; unfold running; rewrite ?H; cbn; auto.
  - destruct (step_pend_other s o x E) as [[_ A]|[]]. rewrite A. exact H.
Qed.

Lemma no_commit : forall ops x, (forall c, tst (tx (exec ops) x) <> Comm c) ->
  forall c, ~ In (EvCommit x c) (evs (exec ops)).
Proof.
  intros ops x.
  assert (K : forall c, In (EvCommit x c) (evs (exec ops)) -> exists c', tst (tx (exec ops) x) = Comm c').
  { unfold exec.
    apply (run_inv _ _ step (fun s => forall c, In (EvCommit x c) (evs s) -> exists c', tst (tx s x) = Comm c'));
      [|intros c []].
    intros s o IH c I. destruct (step_commit_event s o x c I) as [J|J]; [|exact J].
    destruct (IH c J) as (c' & Q). exists c'. apply step_stays_committed, Q. }
  intros N c I. destruct (K c I) as (c' & Q). exact (N c' Q).
Qed.

(** A transaction that has not committed - in progress, rolling back or
    aborted - has no effect on what others read: they see the row as if it had
    never touched it (unless F19 bites). *)
Theorem C03_partial : forall ops x y csn cid, let s := exec ops in
  x <> y -> (forall c, tst (tx s x) <> Comm c) -> may_read s y ->
  ~ lock_shadow (tx s) (ch s) ->
  read (tx s) y csn cid (ch s) = visible (spec_of (erase x (evs s))) y csn cid.
Proof.
  intros ops x y csn cid s N T M NS. unfold s in *. rewrite read_visible by (auto using Inv_exec).
  destruct (erase_spec x (evs (exec ops)) (no_commit ops x T)) as [A B].
  destruct (B y ltac:(congruence)) as [B1 _]. unfold visible. rewrite A, B1. reflexivity.
Qed.

Theorem C03_without_select_for : forall ops x y csn cid, let s := exec ops in
  Forall no_lock_op ops -> x <> y -> (forall c, tst (tx s x) <> Comm c) -> may_read s y ->
  read (tx s) y csn cid (ch s) = visible (spec_of (erase x (evs s))) y csn cid.
Proof. intros. apply C03_partial; auto. apply nolocks_shadow, nolocks_exec. assumption. Qed.

(** After the rollback nothing of it is left but marks of locks it no longer
    holds. *)
Theorem C03_no_versions_left : forall ops e, let s := exec ops in
  In e (ch s) -> tst (tx s (ex e)) = Abrt -> elk e = true /\ hold (spec_of (evs s)) (ex e) = [].
Proof.
  intros ops e s I T. assert (H := Inv_exec ops). fold s in H. split.
  - destruct (elk e) eqn:L; [reflexivity|]. exfalso.
    destruct (i_vers _ H) as (y & o & c & A & B & C & _).
    assert (V : In e (o ++ c)) by (rewrite <- A; apply vers_in; auto).
    apply in_app_iff in V. rewrite Forall_forall in *. destruct V as [V|V].
    + destruct (B e V). congruence.
    + destruct (C e V) as (k & K & _). congruence.
  - apply (i_hold _ H). left. congruence.
Qed.

(** The same lock or version, apart from the "locks below" flag. *)
Definition same_entry (e f : ent) : Prop :=
  ex f = ex e /\ em f = em e /\ elk f = elk e /\ eu f = eu e /\ ed f = ed e /\ ecid f = ecid e /\ ev f = ev e.

Lemma eqc_same : forall e f, eqc e f -> same_entry e f.
Proof. intros e f H. eqcf H. unfold same_entry. auto 10. Qed.

(** Undoing a record touches no entry of any other transaction. *)
Theorem C03_others_untouched : forall ops x, let s := exec ops in let s' := step s (OUndo x) in
  (forall e, In e (ch s) -> ex e <> x -> exists e', In e' (ch s') /\ same_entry e e') /\
  (forall e', In e' (ch s') -> exists e, In e (ch s) /\ same_entry e e') /\
  (forall y, y <> x -> hold (spec_of (evs s')) y = hold (spec_of (evs s)) y).
Proof.
  intros ops x s. cbn zeta. assert (H := Inv_exec ops). fold s in H. cbn [step].
  assert (REF : forall e l, In e l -> exists e', In e' l /\ same_entry e e')
    by (intros e l I; exists e; split; [exact I|apply eqc_same, eqc_refl]).
  assert (REF2 : forall e' l, In e' l -> exists e, In e l /\ same_entry e e')
    by (intros e l I; exists e; split; [exact I|apply eqc_same, eqc_refl]).
  destruct (tst (tx s x)) eqn:T; try (split; [|split]; auto; fail).
  destruct (troll (tx s x) =? 0) eqn:R; cbn [negb]; [split; [|split]; auto|].
  split; [|split].
  - intros e I N. unfold undo1. destruct (tstack (tx s x)) as [|i l] eqn:ST;
      [destruct (troll (tx s x) =? 2); cbn; auto|].
    assert (MO : modif i = true -> exists e', In e' (undo_version x i (ch s)) /\ same_entry e e').
    { intros M. destruct (undo_version_shape _ _ _ _ H T ST M) as (a & e0 & b & A & B & CC & D & F & W & EQ).
      assert (IN : In e (a ++ b)).
      { rewrite A in I. rewrite in_app_iff in *. destruct I as [I|[I|I]]; auto. congruence. }
      assert (SH := eqcl_shr (fun _ => False) _ _ EQ).
      destruct (shr_keeps _ _ _ _ SH IN ltac:(auto)) as (e' & E1 & E2). eauto using eqc_same. }
    destruct (ia i) eqn:IA; cbn [set_ch set_tx ch]; auto; try (apply MO; unfold modif; rewrite IA; reflexivity).
    destruct (shr_keeps _ _ _ _ (undo_lock_shr (tx s) x (tret (tx s x)) i (ch s) (i_wf _ H)) I)
      as (e' & E1 & E2); [cbn; tauto|]. eauto using eqc_same.
  - intros e' I. destruct (undo1_sub s x e' H T I) as (e & E1 & E2). eauto using eqc_same.
  - intros y N. unfold undo1. destruct (tstack (tx s x)) as [|i l]; [destruct (troll (tx s x) =? 2)|destruct (ia i)];
      reflexivity.
Qed.

(** F20: but it can make another transaction's lock ineffective; see C05. *)

(** ** C05 *)

(** Granted locks of different transactions in progress are compatible after
    every history in whose states no lock in progress is hidden from the
    conflict walk: either every header above a live lock says that there are
    locks below, or no version of a finished transaction lies above a live
    lock. *)
Theorem C05_partial : forall ops,
  (forall pre post, ops = pre ++ post ->
     ~ flag_lost (tx (exec pre)) (ch (exec pre)) \/ ~ buried_lock (tx (exec pre)) (ch (exec pre))) ->
  locks_ok (spec_of (evs (exec ops))).
Proof. exact locks_compatible. Qed.

(** Without any condition: two transactions never both have uncommitted writes
    on one row. *)
Theorem C05_writers : forall ops x y c v d w, let s := spec_of (evs (exec ops)) in
  In (PW c v) (pend s x) -> In (PW d w) (pend s y) -> x = y.
Proof.
  intros ops x y c v d w s A B. assert (H := Inv_exec ops). unfold s in *.
  change (spec_of (evs (exec ops))) with (sp (exec ops)) in *.
  assert (G : forall z c v, In (PW c v) (pend (sp (exec ops)) z) ->
     exists e, In e (vers (ch (exec ops))) /\ ex e = z /\ tst (tx (exec ops) z) = InProg).
  { intros z c0 v0 I.
    assert (T : tst (tx (exec ops) z) = InProg).
    { destruct (tst (tx (exec ops) z)) eqn:T; auto;
        destruct (i_idle _ H z ltac:(congruence)) as [_ P]; rewrite P in I; contradiction. }
    rewrite (i_pend _ H z T) in I.
    assert (NE : filter modif (tstack (tx (exec ops) z)) <> []).
    { assert (SUB : forall l, In (PW c0 v0) (pitems l) -> filter modif l <> []).
      { unfold pitems. induction l as [|i l IH]; cbn; [tauto|]. rewrite in_app_iff.
        unfold pitem_of at 1, modif at 1. destruct (ia i); cbn; try discriminate; intuition discriminate. }
      unfold keepk in I. destruct (troll (tx (exec ops) z) =? 0); [auto|].
      destruct (troll (tx (exec ops) z) =? 1); [|contradiction].
      apply SUB. clear - I. unfold pitems in *. induction (tstack (tx (exec ops) z)) as [|i l IH]; cbn in *; [tauto|].
      apply in_app_iff. destruct (ia i); auto. }
    assert (K := i_stk _ H z T). destruct (own z (vers (ch (exec ops)))) as [|e l] eqn:O.
    - destruct (filter modif (tstack (tx (exec ops) z))); [congruence|discriminate].
    - assert (IO : In e (own z (vers (ch (exec ops))))) by (rewrite O; left; reflexivity).
      unfold own in IO. rewrite filter_In in IO. exists e. split; [tauto|]. split; [lia|exact T]. }
  destruct (G _ _ _ A) as (e & E1 & E2 & E3). destruct (G _ _ _ B) as (f & F1 & F2 & F3).
  destruct (i_vers _ H) as (u & o & cc & V & VB & VC & _). rewrite V in E1, F1.
  rewrite in_app_iff in E1, F1. rewrite Forall_forall in *.
  destruct E1 as [E1|E1]; [|destruct (VC _ E1) as (k & K & _); congruence].
  destruct F1 as [F1|F1]; [|destruct (VC _ F1) as (k & K & _); congruence].
  destruct (VB _ E1). destruct (VB _ F1). congruence.
Qed.

(** F20: two ways to lose a lock.  First, a transaction that rolls back after
    its last snapshot is gone clears the flag of the page header only. *)
Definition lost_by_rollback := seed ++ [OBegin 2; OSnap 2 0; OBegin 3; OSnap 3 0; OBegin 4; OSnap 4 0;
  OMod 2 KL 0 0 true; OMod 3 KL 0 0 true; OMod 4 KU 2 11 true; OCommit 4; OUnsnap 2; OAbort 2;
  OUndo 2; OUndo 2; OBegin 5; OSnap 5 0; OMod 5 KD 3 0 true].

Theorem C05_refuted : exists ops, ~ locks_ok (spec_of (evs (exec ops))).
Proof.
  exists lost_by_rollback. intros L.
  assert (K : compatible 0 3).
  { apply (L 3 5 0 3); [lia| |]; vm_compute; auto. }
  unfold compatible in K. lia.
Qed.

(** Second, with all snapshots held: a deep flag left behind by a transaction
    with a newer snapshot leads a walk under an older snapshot to clear flags
    above a live lock. *)
Definition lost_by_cleaning := seed ++ [OBegin 9; OSnap 9 0;
  OBegin 2; OSnap 2 0; OMod 2 KL 0 0 true;
  OBegin 3; OSnap 3 0; OMod 3 KU 2 11 true; OCommit 3;
  OBegin 4; OSnap 4 0; OMod 4 KU 2 12 true; OCommit 4; OCommit 2;
  OBegin 5; OSnap 5 0; OMod 5 KL 0 0 true;
  OBegin 6; OSnap 6 0; OMod 6 KL 0 0 true;
  OBegin 7; OSnap 7 0; OMod 7 KU 2 13 true; OCommit 7; OCommit 5; OMod 9 KL 0 0 true;
  OCommit 9; OBegin 8; OSnap 8 0; OMod 8 KD 3 0 true].

Definition always_snapshot (o : op) : bool := match o with OUnsnap _ => false | _ => true end.

Theorem C05_refuted_with_snapshots : exists ops, forallb always_snapshot ops = true /\
  ~ locks_ok (spec_of (evs (exec ops))).
Proof.
  exists lost_by_cleaning. split; [vm_compute; reflexivity|]. intros L.
  assert (K : compatible 0 3).
  { apply (L 6 8 0 3); [lia| |]; vm_compute; auto. }
  unfold compatible in K. lia.
Qed.

(** ** C06 *)

(** The lookup never reports a lock the transaction does not hold, and reports
    each of its locks that is not hidden: "same or stronger" exactly when it
    has an entry of at least the requested mode. *)
Theorem C06_lookup_partial : forall ops x mode, let s := exec ops in
  ~ flag_lost (tx s) (ch s) \/ ~ buried_lock (tx s) (ch s) ->
  running (tx s x) = true -> tret (tx s x) < INF ->
  let r := rlc (tx s) mode x (tcsn (tx s x)) (tret (tx s x)) (sploc (tstack (tx s x))) (ch s) in
  (rstat r = 2 <-> exists e, In e (ch s) /\ ex e = x /\ mode <= em e) /\
  (rstat r = 0 <-> forall e, In e (ch s) -> ex e <> x).
Proof.
  intros ops x mode s SN R RT r. assert (H := Inv_exec ops). fold s in H.
  destruct (running_ip _ R) as [T R0].
  destruct (rlc_stat (tx s) mode x (tcsn (tx s x)) (tret (tx s x)) (sploc (tstack (tx s x))) (ch s) (i_wf _ H))
    as (S0 & S1 & S2). fold r in S0, S1, S2.
  assert (SH : shr (Pdel (tx s) x) (ch s) (rchain r)) by (apply rlc_shr, i_wf, H).
  assert (P : forall f, In f (ch s) -> ex f = x -> 1 <= rstat r /\ (mode <= em f -> 2 <= rstat r)).
  { intros f I E. apply (live_processed s x mode (tcsn (tx s x)) (sploc (tstack (tx s x))) f H SN I); auto; congruence. }
  split; split.
  - intros Q. destruct S2 as (f & F1 & F2 & F3); [lia|].
    destruct (shr_in _ _ _ _ SH F1) as (g & G1 & G2). eqcf G2. exists g. repeat split; try congruence; lia.
  - intros (e & I & E & M). destruct (P e I E) as [_ K]. specialize (K M). lia.
  - intros Q e I E. destruct (P e I E). lia.
  - intros N. destruct (Z.eq_dec (rstat r) 0) as [Q|Q]; [exact Q|]. exfalso.
    destruct S1 as (f & F1 & F2); [lia|]. destruct (shr_in _ _ _ _ SH F1) as (g & G1 & G2). eqcf G2.
    apply (N g G1). congruence.
Qed.

(** Whatever a transaction does to the row: every version stays, every lock of
    another transaction in progress stays with its mode, and an own lock goes
    only if it is no stronger than the mode requested and was taken after the
    newest savepoint. *)
Definition reqmode (k : kind) (m : Z) : Z :=
  match k with KI | KD => 3 | KU => if m =? 3 then 3 else 2 | KL => m end.

Theorem C06_nothing_lost : forall ops x k m v go e, let s := exec ops in
  let s' := step s (OMod x k m v go) in
  In e (ch s) ->
  elk e = false \/ (ex e <> x /\ tst (tx s (ex e)) = InProg) \/
  (ex e = x /\ (reqmode k m < em e \/ eu e < sploc (tstack (tx s x)))) ->
  exists e', In e' (ch s') /\ same_entry e e'.
Proof.
  intros ops x k m v go e s s' I K. subst s'. assert (H := Inv_exec ops). fold s in H.
  assert (REF : exists e', In e' (ch s) /\ same_entry e e')
    by (exists e; split; [exact I|apply eqc_same, eqc_refl]).
  cbn [step].
  destruct (running (tx s x) && (tret (tx s x) <? INF) && (0 <=? m) && (m <=? 3)) eqn:RU; [|exact REF].
  unfold modify; cbv zeta. change (match k with KI | KD => 3 | KU => if m =? 3 then 3 else 2 | KL => m end) with (reqmode k m).
  destruct (ch s) as [|e0 l0] eqn:CH; [contradiction|]. rewrite <- CH in *.
  set (r := rlc _ _ _ _ _ _ _).
  assert (SH : shr (Pdel (tx s) x) (ch s) (rchain r)) by (apply rlc_shr, i_wf, H).
  assert (W1 : wfc (rchain r)) by (eapply shr_wfc; eauto; apply i_wf, H).
  assert (K1 : exists e', In e' (rchain r) /\ eqc e e').
  { destruct K as [K|K]; [eapply shr_keeps_version; eauto|]. eapply shr_keeps; eauto.
    unfold Pdel, rdel, inpr. destruct K as [[K1 K2]|[K1 K2]].
    - rewrite K2. destruct (elk e); destruct (ex e =? x); discriminate.
    - assert (ex e =? x = true) as -> by lia. destruct (elk e); discriminate. }
  destruct K1 as (e1 & I1 & E1).
  assert (A1 : exists e', In e' (rchain r) /\ same_entry e e') by eauto using eqc_same.
  assert (A2 : exists e', In e' (remred (tx s) (reqmode k m) x (tret (tx s x)) (sploc (tstack (tx s x))) (rchain r)) /\ same_entry e e').
  { assert (SQ := remred_shr (tx s) (reqmode k m) x (tret (tx s x)) (sploc (tstack (tx s x))) (rchain r) W1).
    assert (K2 : exists e', In e' (remred (tx s) (reqmode k m) x (tret (tx s x)) (sploc (tstack (tx s x))) (rchain r)) /\ eqc e1 e').
    { eqcf E1. destruct K as [K|K]; [eapply shr_keeps_version; eauto; congruence|]. eapply shr_keeps; eauto.
      unfold Qdel, qdel. rewrite <- Hx, <- Hlk, <- Hm, <- Hu. destruct K as [[N1 N2]|[N1 N2]]; [lia|].
      assert (W := i_wf _ H). destruct (wfc_eu _ e W I) as [[U1 U2]|(U1 & U2 & U3 & _)]; [lia|].
      rewrite U3. discriminate. }
    destruct K2 as (e2 & J1 & J2). exists e2. split; [exact J1|]. apply eqc_same. eapply eqc_trans; eauto. }
  assert (PV : forall s2 a w, (exists e', In e' (ch s2) /\ same_entry e e') ->
     exists e', In e' (ch (put_version s2 x a (reqmode k m) w)) /\ same_entry e e').
  { intros s2 a w (e' & J1 & J2). exists e'. split; [cbn; auto|exact J2]. }
  assert (PL : forall s2, (exists e', In e' (ch s2) /\ same_entry e e') ->
     exists e', In e' (ch (put_lock s2 x (reqmode k m))) /\ same_entry e e').
  { intros s2 (e' & J1 & J2). exists e'. split; [cbn; auto|exact J2]. }
  destruct (rres r && negb (rconf r =? x)); [exact A1|]. destruct go; cbn [negb]; [|exact A1].
  destruct (rchain r) as [|p pr] eqn:RC; [exact A1|]. rewrite <- RC in *.
  destruct (ed p).
  - destruct k; try exact A1. apply PV. exact A1.
  - destruct k; try exact A1; try (destruct (rred r && negb false); apply PV; assumption).
    destruct (rstat r =? 2); [change (negb true) with false; rewrite andb_false_r; exact A1|].
    destruct (rred r && negb false); apply PL; assumption.
Qed.

(** Every lock a transaction holds (granted, not rolled back to a savepoint,
    transaction still in progress) is backed by an entry of at least that mode:
    in particular the one just granted. *)
Theorem C06_granted_held : forall ops x m, In (HG m) (hold (spec_of (evs (exec ops))) x) ->
  exists e, In e (ch (exec ops)) /\ ex e = x /\ m <= em e /\ tst (tx (exec ops) x) = InProg.
Proof.
  intros ops x m I. assert (H := Inv_exec ops). assert (C := Cov_exec ops).
  change (spec_of (evs (exec ops))) with (sp (exec ops)) in I.
  apply in_split in I. destruct I as (a & b & Q). destruct (hold_live _ _ _ _ _ H Q) as [T _].
  destruct (k_cov _ C _ _ _ _ Q) as (e & I & E & M & _). exists e. repeat split; auto. lia.
Qed.

(** ** Concrete cases *)

(** Five transactions: a chain with committed and uncommitted versions, live
    and finished locks, a rollback to a savepoint. *)
Definition ex1 := seed ++ [OBegin 2; OSnap 2 0; OMod 2 KL 0 0 true; OBegin 3; OSnap 3 0; OMod 3 KU 2 11 true;
  OSave 3; OCmd 3; OMod 3 KU 2 12 true; ORollTo 3; OUndo 3; OUndo 3; OCmd 3; OMod 3 KU 2 13 true; OCommit 2;
  OBegin 4; OSnap 4 0; OMod 4 KL 0 0 true].

(** A decision procedure for the condition of C01, C02 and C03. *)
Fixpoint next_version (l : list ent) : option ent :=
  match l with [] => None | e :: r => if elk e then next_version r else Some e end.
Fixpoint clearb (T : Z -> txr) (l : list ent) : bool :=
  match l with
  | [] => true
  | k :: r =>
    match elk k, tst (T (ex k)), next_version r with
    | true, Comm c, Some w => match tst (T (ex w)) with Comm c' => c' <=? c | _ => false end
    | _, _, _ => true
    end && clearb T r
  end.
Lemma clearb_ok : forall T l, clearb T l = true -> ~ lock_shadow T l.
Proof.
  intros T l H (a & v & b & k & d & w & r & c & Q & L & LK & TK & FD & LW & N).
  assert (Q2 : exists a2, l = a2 ++ k :: d ++ w :: r).
  { exists (a ++ v :: b). rewrite Q, <- app_assoc. reflexivity. }
  destruct Q2 as (a2 & Q2). clear Q. subst l. induction a2 as [|z a2 IH]; cbn [app clearb] in H.
  - rewrite LK, TK in H.
    assert (NV : next_version (d ++ w :: r) = Some w)
      by (clear - FD LW; induction FD as [|e d E _ IH]; cbn; [rewrite LW|rewrite E]; auto).
    rewrite NV in H. apply N. destruct (tst (T (ex w))) as [| |c'|] eqn:TW; try discriminate. exists c'. split; [auto|]. lia.
  - apply andb_true_iff in H. tauto.
Qed.

Example ex1_reads : let s := exec ex1 in
  (read (tx s) 3 (ncsn s) 3 (ch s), read (tx s) 3 (ncsn s) 4 (ch s), read (tx s) 9 (ncsn s) 1 (ch s),
   read (tx s) 9 0 1 (ch s), length (ch s), hold (spec_of (evs s)) 4, hold (spec_of (evs s)) 3) =
  (Some 11, Some 13, Some 10, None, 5%nat, [HG 0], [HG 2; HG 2]).
Proof. vm_compute. reflexivity. Qed.
Example ex1_may : may_read (exec ex1) 3 /\ may_read (exec ex1) 9 /\ running (tx (exec ex1) 3) = true /\
  tret (tx (exec ex1) 3) < INF.
Proof. vm_compute. repeat split; auto; discriminate. Qed.
Example ex1_clear : ~ lock_shadow (tx (exec ex1)) (ch (exec ex1)).
Proof. apply clearb_ok. vm_compute. reflexivity. Qed.
Definition ex1b := [OCmd 3; OMod 3 KU 2 14 true; OBegin 5; OSnap 5 0; OAbort 4; OUndo 4; OUndo 4].
Example ex1b_stable : let s1 := exec ex1 in let s2 := exec (ex1 ++ ex1b) in
  (2 <=? ncsn s1, 3 <=? tcid (tx s1 3), forallb (fun o => negb (opx o =? 3) || forward o) ex1b,
   running (tx s2 3), clearb (tx s2) (ch s2), read (tx s1) 3 2 3 (ch s1), read (tx s2) 3 2 3 (ch s2)) =
  (true, true, true, true, true, Some 11, Some 11).
Proof. vm_compute. reflexivity. Qed.
(** The prefix condition of C05 holds in every state of a history with locks. *)
Definition ex2 := seed ++ [OBegin 2; OSnap 2 0; OMod 2 KL 0 0 true; OBegin 3; OSnap 3 0; OMod 3 KU 2 11 true;
  OMod 2 KL 1 0 true].

Fixpoint no_buried (T : Z -> txr) (l : list ent) : bool :=
  match l with
  | [] => true
  | e :: r => (elk e || inpr T (ex e) || forallb (fun f => negb (elk f && inpr T (ex f))) r) && no_buried T r
  end.
Lemma no_buried_ok : forall T l, no_buried T l = true -> ~ buried_lock T l.
Proof.
  intros T l H (a & e & b & f & Q & L & N & I & LF & TF). subst l.
  induction a as [|z a IH]; cbn [app no_buried] in H; apply andb_true_iff in H; [|tauto].
  destruct H as [H _]. rewrite L in H. cbn [orb] in H. apply orb_true_iff in H. destruct H as [H|H].
  - unfold inpr in H. destruct (tst (T (ex e))); try discriminate. congruence.
  - rewrite forallb_forall in H. specialize (H f I). rewrite LF in H. unfold inpr in H. rewrite TF in H. discriminate.
Qed.
Fixpoint prefixes (l : list op) : list (list op) :=
  match l with [] => [[]] | o :: r => [] :: map (cons o) (prefixes r) end.
Lemma prefixes_in : forall pre post, In pre (prefixes (pre ++ post)).
Proof. induction pre as [|o pre IH]; intros post; cbn; [destruct post; cbn; auto|]. right. apply in_map, IH. Qed.

Example ex2_condition : forall pre post, ex2 = pre ++ post ->
  ~ flag_lost (tx (exec pre)) (ch (exec pre)) \/ ~ buried_lock (tx (exec pre)) (ch (exec pre)).
Proof.
  intros pre post Q. right. apply no_buried_ok.
  assert (A : forallb (fun p => no_buried (tx (exec p)) (ch (exec p))) (prefixes ex2) = true) by (vm_compute; reflexivity).
  rewrite forallb_forall in A. apply (A pre). rewrite Q. apply prefixes_in.
Qed.
Example ex2_holds : (hold (spec_of (evs (exec ex2))) 2, hold (spec_of (evs (exec ex2))) 3) = ([HG 0], [HG 2]).
Proof. vm_compute. reflexivity. Qed.

Print Assumptions C01_partial.
Print Assumptions C01_without_select_for.
Print Assumptions C01_refuted.
Print Assumptions C02_partial.
Print Assumptions C02_without_select_for.
Print Assumptions C02_refuted.
Print Assumptions C03_partial.
Print Assumptions C03_without_select_for.
Print Assumptions C03_no_versions_left.
Print Assumptions C03_others_untouched.
Print Assumptions C05_partial.
Print Assumptions C05_writers.
Print Assumptions C05_refuted.
Print Assumptions C05_refuted_with_snapshots.
Print Assumptions C06_lookup_partial.
Print Assumptions C06_nothing_lost.
Print Assumptions C06_granted_held.
