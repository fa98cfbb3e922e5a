(** C46: a cached file part is never evicted or replaced while in use. *)
From Coq Require Import ZArith List Bool Lia.
From Coq Require Import ZifyBool.
From Verif Require Import Base S3PartModel S3PartSpec S3PartProofs.
Import ListNotations.
Open Scope Z_scope.

Definition begins (s : st) : Prop := (exists c, s = start_stored c) \/ s = start_new.

(* PostgreSQL allows fewer than 2^18 processes, each with one lock. *)
Definition few (ps : list Z) : Prop := NoDup ps /\ Z.of_nat (length ps) < 2 ^ 18.

Lemma begins_L : forall ps s, few ps -> begins s -> InvL ps s.
Proof. intros ps s [N F] B. pose proof (start_D ps s B) as I. destruct I as [[R L _ _ _ _ _ _] _ _ _ _ _ _ _ _ _]. split; assumption. Qed.

(* No lock is ever lost or invented, in any run whatsoever. *)
Theorem C46_locks : forall ps s0 ops, few ps -> begins s0 -> Forall (only ps) ops ->
  let s := run step s0 ops in get_locks (word s) = number holds ps s.
Proof.
  intros ps s0 ops Hf B F s. pose proof (begins_L ps s0 Hf B) as I. destruct Hf as [N L].
  exact (proj2 (run_L ps N L ops s0 I F)).
Qed.

(* Eviction never begins on a part that somebody has locked, that has changes not
   uploaded, or that is being uploaded; again in any run whatsoever. *)
Theorem C46_eviction : forall ps s0 ops o, few ps -> begins s0 -> Forall (only ps) (ops ++ [o]) ->
  let s := run step s0 ops in let s' := step s o in
  get_status (word s) <> Evicting -> get_status (word s') = Evicting ->
  number holds ps s = 0 /\ flag (word s) DIRTY_FLAG = false /\ flag (word s) WRITING_FLAG = false.
Proof.
  intros ps s0 ops o Hf B F s s' E1 E2. apply Forall_app in F as [F Fo]. inversion Fo as [|? ? Ho _]; subst.
  pose proof (begins_L ps s0 Hf B) as I0. destruct Hf as [N L].
  pose proof (run_L ps N L ops s0 I0 F) as I. fold s in I. destruct I as [R Lk].
  pose proof (shows_self _ R) as S. unfold s' in E2. change (number holds ps s) with (cnt holds ps (at_ s)). rewrite <- Lk.
  assert (K : forall v l t d w sc, shows v l t d w sc -> get_status v = t) by (intros v l t d w sc (_ & _ & ? & _); assumption).
  destruct o; cbn [step] in E2;
    try (destruct (at_ s p); cbn [word setp setw] in E2; try contradiction; try (destruct (0 <? _); cbn [word] in E2); contradiction).
  cbn [only] in Ho. rename Ho into Hp. unfold go, cas, setp, setw in E2. destruct (at_ s p) eqn:E; cbn [word] in E2; try contradiction;
    repeat match type of E2 with context [if ?b then _ else _] => let Bb := fresh "B" in destruct b eqn:Bb; cbn [word] in E2 end; try contradiction;
    try (match goal with Bx : (word s =? ?v) = true |- _ => apply Z.eqb_eq in Bx; subst v end).
  - assert (CH : cnt holds ps (at_ s) + 1 <= Z.of_nat (length ps)).
    { pose proof (cnt_le_length holds ps (upd (at_ s) p (Held false))) as C'. rewrite cnt_upd in C' by assumption. rewrite E in C'. cbn in C'. lia. }
    rewrite (K _ _ _ _ _ _ (s_lock _ _ _ _ _ _ S ltac:(lia))) in E2. contradiction.
  - assert (C0 : 0 < cnt holds ps (at_ s)) by (eapply cnt_pos; [exact Hp|rewrite E; reflexivity]).
    rewrite (K _ _ _ _ _ _ (s_unlock _ _ _ _ _ _ wrote S ltac:(lia))) in E2. contradiction.
  - unfold v_loading in E2. rewrite (K _ _ _ _ _ _ (s_status _ _ _ _ _ _ Loading S ltac:(unfold Loading; lia))) in E2. discriminate.
  - unfold v_loading in E2. rewrite (K _ _ _ _ _ _ (s_status _ _ _ _ _ _ Loading S ltac:(unfold Loading; lia))) in E2. discriminate.
  - rewrite (K _ _ _ _ _ _ (s_loaded _ _ _ _ _ _ S)) in E2. discriminate.
  - rewrite (K _ _ _ _ _ _ (s_scheduled _ _ _ _ _ _ S)) in E2. contradiction.
  - rewrite (K _ _ _ _ _ _ (s_writing _ _ _ _ _ _ S)) in E2. contradiction.
  - rewrite (K _ _ _ _ _ _ (s_written _ _ _ _ _ _ S)) in E2. contradiction.
  - rewrite (K _ _ _ _ _ _ (s_not_written _ _ _ _ _ _ S)) in E2. contradiction.
  - rewrite (K _ _ _ _ _ _ (s_evict _ _ _ _ _ _ S)) in E2. destruct (evictable (word s)) eqn:EB; [|contradiction].
    destruct (s_evictable _ _ _ _ _ _ S EB) as (_ & ? & ? & ?). auto.
  - unfold v_not_loaded in E2. rewrite (K _ _ _ _ _ _ (s_status _ _ _ _ _ _ NotLoaded S ltac:(unfold NotLoaded; lia))) in E2. discriminate.
Qed.

(* While a process has the part locked it stays loaded, and only a process that
   has it locked changes its contents; provided no worker repeats a download it
   had already marked as finished. *)
Theorem C46_in_use_partial : forall ps s0 ops p, few ps -> begins s0 -> Forall (only ps) ops -> never repeats_load s0 ops ->
  let s := run step s0 ops in In p ps -> holds (at_ s p) = true ->
  get_status (word s) = Loaded /\
  forall o, only ps o -> file (step s o) <> file s -> exists q x, o = Write q x /\ holds (at_ s q) = true.
Proof.
  intros ps s0 ops p [N L] B F NL s Hp Hh. pose proof (run_S ps N L ops s0 (d_S ps s0 (start_D ps s0 B)) F NL) as I. fold s in I.
  pose proof (S_hold ps s p I Hp Hh) as HL. split; [exact HL|]. intros o Ho X.
  destruct o; cbn [step only] in *;
    try (exfalso; apply X; destruct (at_ s p0); try reflexivity; destruct (0 <? _); reflexivity).
  - exists p0, x. split; [reflexivity|]. destruct (at_ s p0); cbn [file] in X; try (exfalso; apply X; reflexivity). reflexivity.
  - exfalso. revert X. unfold go, cas, setp, setw. destruct (at_ s p0) eqn:E;
      repeat match goal with |- context [if ?b then _ else _] => destruct b end; cbn [file]; intros X; try (apply X; reflexivity).
    + destruct (S_rt ps s p0 I Ho) as (Y & _); [rewrite E; reflexivity|]. rewrite HL in Y. discriminate.
    + destruct (S_ev ps s p0 I Ho) as (Y & _); [rewrite E; reflexivity|]. rewrite HL in Y. discriminate.
Qed.

(* A process that has the part locked finds in it what was last written, and a
   part that is not loaded is stored remotely as last written; provided in
   addition no upload is repeated after it ended or scheduled while one runs. *)
Theorem C46_contents_partial : forall ps s0 ops, few ps -> begins s0 -> Forall (only ps) ops ->
  never repeats_load s0 ops -> never (repeats_upload ps) s0 ops ->
  let s := run step s0 ops in
  (forall p, In p ps -> holds (at_ s p) = true -> file s = cur s) /\
  (get_status (word s) = NotLoaded -> remote s = cur s).
Proof.
  intros ps s0 ops [N L] B F N1 N2 s. pose proof (run_D ps N L ops s0 (start_D ps s0 B) F N1 N2) as I. fold s in I. split.
  - intros p Hp Hh. apply (d_file ps s I). exact (S_hold ps s p (d_S ps s I) Hp Hh).
  - intros E. apply (d_out ps s I). rewrite E. discriminate.
Qed.

(* ---- the hypotheses are met ---- *)
Definition three : list Z := [1; 2; 3].
Lemma few_three : few three.
Proof. split; [repeat constructor; cbn; intuition discriminate|reflexivity]. Qed.
Fixpoint times (n : nat) (o : op) : list op := match n with O => [] | S m => o :: times m o end.
(* 1 asks for the part, 2 downloads it *)
Definition loaded_by_2 := [Load 1; Go 1; PickRead 2] ++ times 6 (Go 2).
(* 1 writes [x] *)
Definition write_1 (x : Z) := [Lock 1; Go 1; Write 1 x; Unlock 1; Go 1].
(* [p] takes the scheduled upload and marks it begun *)
Definition upload_begins (p : Z) := [Schedule 1; Go 1; PickWrite p; Go p; Go p].
(* 1 ages the part three times and evicts it *)
Definition evict_1 := [Evict 1; Go 1; Evict 1; Go 1; Evict 1; Go 1; Go 1; Go 1; Go 1].
Ltac conc := vm_compute; repeat first [apply conj | exact Logic.I | intro];
  repeat match goal with
  | X : False |- _ => destruct X
  | X : _ /\ _ |- _ => destruct X
  | X : exists _, _ |- _ => destruct X
  | X : _ = _ |- _ => discriminate X
  end; auto.
Ltac members := vm_compute; repeat (apply Forall_cons; [first [left; reflexivity | right; left; reflexivity | right; right; left; reflexivity]|]); apply Forall_nil.

(* Download, change, upload with one failed attempt, eviction, second download: a
   reader finds the change. *)
Definition long_run := loaded_by_2 ++ [Go 2] ++ write_1 8 ++ upload_begins 3 ++ [Go 3; Fail 3] ++ times 4 (Go 3) ++ times 5 (Go 3) ++ [Go 3]
  ++ evict_1 ++ loaded_by_2 ++ [Lock 1; Go 1].
Example C46_example : Forall (only three) long_run /\ begins (start_stored 7) /\
  never repeats_load (start_stored 7) long_run /\ never (repeats_upload three) (start_stored 7) long_run /\
  let s := run step (start_stored 7) long_run in holds (at_ s 1) = true /\ file s = 8 /\ remote s = 8 /\ get_locks (word s) = 1.
Proof. split; [members|]. split; [left; eauto|]. split; [conc|]. split; [conc|]. vm_compute. repeat split. Qed.

(* ---- where it fails ---- *)

(* A worker that errors out after marking the part loaded downloads it again, over
   the changes made since. *)
Definition replayed := loaded_by_2 ++ [Lock 1; Go 1; Write 1 8; Fail 2; Go 2; Go 2].
Theorem C46_refuted_download_replayed : exists ps s0 ops, few ps /\ begins s0 /\ Forall (only ps) ops /\ never (repeats_upload ps) s0 ops /\
  let s := run step s0 ops in exists p, In p ps /\ holds (at_ s p) = true /\ file s <> cur s.
Proof.
  exists three, (start_stored 7), replayed. split; [apply few_three|]. split; [left; eauto|]. split; [members|]. split; [conc|].
  exists 1. vm_compute. repeat split; auto; discriminate.
Qed.

(* A second upload is scheduled while the first runs; the end of the first clears
   the mark of the second; the part is evicted and the second stores zeroes. *)
Definition overlap := write_1 5 ++ upload_begins 2 ++ [Go 2] ++ write_1 6 ++ upload_begins 3 ++ times 3 (Go 2) ++ evict_1 ++ times 2 (Go 3).
Theorem C46_refuted_two_uploads : exists ps s0 ops, few ps /\ begins s0 /\ Forall (only ps) ops /\ never repeats_load s0 ops /\
  (forall p, ~ In (Fail p) ops) /\
  let s := run step s0 ops in get_status (word s) = NotLoaded /\ remote s <> cur s.
Proof.
  exists three, start_new, overlap. split; [apply few_three|]. split; [right; reflexivity|]. split; [members|]. split; [conc|].
  split. { intros p H. vm_compute in H. repeat destruct H as [H|H]; discriminate || contradiction. }
  vm_compute. repeat split; auto; discriminate.
Qed.

(* A worker that errors out after marking the upload as ended uploads again, by
   then an evicted part. *)
Definition reuploaded := write_1 5 ++ upload_begins 2 ++ times 4 (Go 2) ++ [Fail 2] ++ evict_1 ++ times 4 (Go 2).
Theorem C46_refuted_upload_replayed : exists ps s0 ops, few ps /\ begins s0 /\ Forall (only ps) ops /\ never repeats_load s0 ops /\
  let s := run step s0 ops in get_status (word s) = NotLoaded /\ remote s <> cur s.
Proof.
  exists three, start_new, reuploaded. split; [apply few_three|]. split; [right; reflexivity|]. split; [members|]. split; [conc|].
  vm_compute. repeat split; auto; discriminate.
Qed.

Print Assumptions C46_locks.
Print Assumptions C46_eviction.
Print Assumptions C46_in_use_partial.
Print Assumptions C46_contents_partial.
Print Assumptions C46_refuted_download_replayed.
Print Assumptions C46_refuted_two_uploads.
Print Assumptions C46_refuted_upload_replayed.
