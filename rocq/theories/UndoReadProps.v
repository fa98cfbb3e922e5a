(** Property C13: undo reads return the bytes written. *)
From Coq Require Import ZArith List Bool Lia.
From Verif Require Import Base UndoReadModel UndoReadSpec UndoReadProofs UndoReadCalm.
Import ListNotations.
Open Scope Z_scope.

Lemma haz_wstep : forall PS NP s p, haz (wstep PS NP s p) = [] -> haz s = [].
Proof.
  intros PS NP s p. unfold wstep, hit. destruct (ws s p); cbn; auto; repeat match goal with |- context [if ?b then _ else _] => destruct b; cbn; auto end; try discriminate.
  all: destruct (lk s); cbn; auto.
Qed.
Lemma haz_step : forall PS NP n s o, haz (step PS NP n s o) = [] -> haz s = [].
Proof.
  intros PS NP n s o. destruct o; cbn; try apply haz_wstep; unfold rstep, hit;
    repeat match goal with
           | |- context [if ?b then _ else _] => destruct b; cbn; auto
           | |- context [match ?b with Some _ => _ | None => _ end] => destruct b as [?|]; cbn; auto
           | |- context [match ?b with pair _ _ => _ end] => destruct b; cbn; auto
           | |- context [match lk ?s with _ => _ end] => destruct (lk s); cbn; auto
           | |- context [match fl ?s with _ => _ end] => destruct (fl s); cbn; auto
           | |- context [match ws ?s ?p with _ => _ end] => destruct (ws s p); cbn; auto
           | |- context [match rd ?s ?p with _ => _ end] => destruct (rd s p); cbn; auto
           end; try discriminate; auto.
Qed.
Lemma run_ok : forall PS NP n l ops, 0 < PS -> 0 < NP -> haz (run (step PS NP n) (init l) ops) = [] ->
  Inv PS NP n (run (step PS NP n) (init l) ops).
Proof.
  intros PS NP n l ops HS HN. pose proof (init_inv PS NP n HS HN l) as H. revert H. generalize (init l).
  induction ops as [|o ops IH]; cbn; auto. intros s H Hz.
  apply IH; auto. apply step_inv; auto.
  clear - Hz. revert Hz. generalize (step PS NP n s o) as s'. induction ops as [|o' ops IH]; cbn; auto.
  intros s' Hz. eapply haz_step. apply IH. exact Hz.
Qed.

(** The full claim: in every schedule every completed read returns, for each byte, one
    that was the last stored there at some moment of the read.  It is false of the code:
    see the four refutations below.  What holds in every schedule: if none of the four
    hazardous situations recorded in [haz] occurs, every completed read is right. *)
Theorem C13_undo_read_partial : forall PS NP n l ops, 0 < PS -> 0 < NP ->
  let s := run (step PS NP n) (init l) ops in
  haz s = [] -> forall r, In r (out s) -> read_ok r.
Proof. intros PS NP n l ops HS HN s Hz. apply (i_out PS NP n). apply run_ok; auto. Qed.

(** Without concurrent stores to it, a read returns exactly the bytes last stored. *)
Theorem C13_undisturbed_read_partial : forall PS NP n l ops a z res cands v, 0 < PS -> 0 < NP ->
  let s := run (step PS NP n) (init l) ops in
  haz s = [] -> In (a, z, res, cands) (out s) -> undisturbed (a, z, res, cands) v -> forall x, a <= x < a + z -> res x = v x.
Proof.
  intros PS NP n l ops a z res cands v HS HN s Hz Hin Hu x Hx.
  pose proof (C13_undo_read_partial PS NP n l ops HS HN Hz _ Hin x Hx) as X. cbn in X. rewrite (Hu x Hx) in X.
  destruct X as [X|[]]; auto.
Qed.

(** Schedules in which no checkpoint flush runs and every in-place update is of a record
    that must exist never meet a hazard: there the property holds in full. *)
Theorem C13_undo_read_without_flush : forall PS NP n l ops, 0 < PS -> 0 < NP ->
  Forall no_flush ops -> Forall must_exist ops ->
  let s := run (step PS NP n) (init l) ops in haz s = [] /\ forall r, In r (out s) -> read_ok r.
Proof.
  intros PS NP n l ops HS HN A B s. destruct (calm_inv PS NP n HS HN l ops A B) as [H1 H2]. split; [apply H2|apply H1].
Qed.

(** Concrete schedules: pages of 4 bytes, a ring of 2 pages, 1 process. *)
Definition st_ := step 4 2 1.
Definition rec_ (l z : Z) (vs : list (Z * Z)) : list op :=
  Alloc z :: Mark l :: map (fun q => Fill (fst q) (snd q)) vs ++ [Close l].
Definition evict_ (t m g : Z) (pages : nat) : list op :=
  [EBegin t m; EScan; ESet g] ++ repeat EPage pages ++ [EEnd].
Definition flush_ (a b mr : Z) : list op :=
  [FBegin a b mr; FLock; FPage; FByte; FByte; FByte; FByte; FByte; FPut1; FPut2; FUnlock; FEnd].
Definition read_ (l : Z) : list op := [RBegin 0 l 1; RStep 0; RStep 0; RStep 0; OLoad (l / 4); RStep 0; RStep 0; RStep 0; RStep 0; RStep 0].

Definition view (x : Z) (r : Z * Z * (Z -> Z) * (Z -> list Z)) : Z * Z * Z * list Z := let '(l, z, res, c) := r in (l, z, res x, c x).
Definition wrong (ops : list op) (h : list hazard) : Prop :=
  let s := run st_ (init 0) ops in haz s = h /\ exists r, In r (out s) /\ ~ read_ok r.
Lemma wrong_intro : forall ops h x l z v cs t, haz (run st_ (init 0) ops) = h ->
  map (view x) (out (run st_ (init 0) ops)) = (l, z, v, cs) :: t -> l <= x < l + z -> ~ In v cs -> wrong ops h.
Proof.
  intros ops h x l z v cs t H E Hx Hn. unfold wrong. cbv zeta. split; auto.
  destruct (out (run st_ (init 0) ops)) as [|[[[l' z'] a] c] t']; cbn in E; [discriminate|]. inversion E; subst.
  eexists. split; [left; reflexivity|]. intros R. apply Hn. apply (R x). auto.
Qed.
Ltac bad x := eapply (wrong_intro _ _ x); [vm_compute; reflexivity|vm_compute; reflexivity|lia|cbn; intuition discriminate].

(** F3: the flush of a partly drained page overwrites an in-place update made meanwhile. *)
Definition ops_reload : list op :=
  rec_ 0 2 [(0, 10)] ++ evict_ 2 2 0 1 ++ rec_ 2 2 [(2, 20)] ++
  [FBegin 2 4 4; FLock; FPage; FByte; FByte; FByte; FByte; FByte] ++
  [WBegin 0 0 1 (fun _ => 11) true; WStep 0; WStep 0; WStep 0; WStep 0] ++
  [FPut1; FPut2; FUnlock; FEnd] ++ read_ 0.
Theorem C13_reload_refuted : wrong ops_reload [HReload].
Proof. bad 0. Qed.

(** F4: the ring is full and its first page is shared by the oldest and the newest undo
    page; flushing the former clears the dirty bit of the latter, which is then lost. *)
Definition ops_share : list op :=
  rec_ 0 2 [(0, 10)] ++ evict_ 2 2 0 1 ++ rec_ 2 2 [(2, 20)] ++ rec_ 4 4 [(4, 30)] ++ rec_ 8 2 [(8, 40)] ++
  flush_ 2 4 10 ++ evict_ 10 10 0 3 ++ [OEvict 2] ++ read_ 8.
Theorem C13_shared_bit_refuted : wrong ops_share [HShare].
Proof. bad 8. Qed.

(** F12: a page is half drained; the flush cleans it; an in-place update of the drained
    half makes the cached page dirty again; draining the other half marks it clean. *)
Definition ops_clean : list op :=
  rec_ 0 2 [(0, 10)] ++ rec_ 2 2 [(2, 20)] ++ evict_ 2 2 0 1 ++ flush_ 2 4 4 ++
  [WBegin 0 0 1 (fun _ => 11) true; WStep 0; WStep 0; WStep 0; WStep 0] ++
  evict_ 4 4 0 1 ++ [OEvict 0] ++ read_ 0.
Theorem C13_marked_clean_refuted : wrong ops_clean [HClean].
Proof. bad 0. Qed.

(** F13: undo_write_if_exists has passed its check; the retained minimum moves past the
    record; its ring cells go to a new record; then the store happens. *)
Definition ops_gone : list op :=
  rec_ 0 2 [(0, 10)] ++ [WBegin 0 0 1 (fun _ => 11) false; WStep 0; WStep 0; WStep 0] ++ [Update 2] ++
  rec_ 2 6 [(2, 20)] ++ rec_ 8 2 [(8, 40)] ++ [WStep 0] ++ read_ 8.
Theorem C13_write_if_exists_refuted : wrong ops_gone [HGone].
Proof. bad 8. Qed.

(** The theorems are not vacuous: a schedule with evictions to the block cache, to the
    file, a flush and an in-place update, without hazard, whose reads come from the ring,
    the cache and the file. *)
Definition ops_good : list op :=
  rec_ 0 4 [(0, 10)] ++ rec_ 4 4 [(4, 20)] ++ flush_ 0 4 8 ++ evict_ 4 8 0 1 ++
  [WBegin 0 0 1 (fun _ => 11) true; WStep 0; WStep 0; WStep 0; WStep 0; OEvict 0] ++
  rec_ 8 4 [(8, 30)] ++ read_ 0 ++ read_ 4 ++ read_ 8.
Example C13_good : let s := run st_ (init 0) ops_good in
  haz s = [] /\ map (fun r => let '(l, _, res, c) := r in (l, res l, c l)) (out s) = [(8, 30, [30]); (4, 20, [20]); (0, 11, [11])].
Proof. vm_compute. auto. Qed.
Definition ops_calm : list op :=
  rec_ 0 4 [(0, 10)] ++ rec_ 4 4 [(4, 20)] ++ evict_ 4 8 0 1 ++
  [WBegin 0 0 1 (fun _ => 11) true; WStep 0; WStep 0; WStep 0; WStep 0; OEvict 0] ++
  rec_ 8 4 [(8, 30)] ++ read_ 0 ++ read_ 4 ++ read_ 8.
Example C13_calm : Forall no_flush ops_calm /\ Forall must_exist ops_calm /\
  map (fun r => let '(l, _, res, c) := r in (l, res l, c l)) (out (run st_ (init 0) ops_calm)) = [(8, 30, [30]); (4, 20, [20]); (0, 11, [11])].
Proof. split; [|split]; [cbv; repeat constructor|cbv; repeat constructor|vm_compute; auto]. Qed.

Print Assumptions C13_undo_read_partial.
Print Assumptions C13_undisturbed_read_partial.
Print Assumptions C13_undo_read_without_flush.
Print Assumptions C13_reload_refuted.
Print Assumptions C13_shared_bit_refuted.
Print Assumptions C13_marked_clean_refuted.
Print Assumptions C13_write_if_exists_refuted.
