(** Proofs about the task queue. *)
From Coq Require Import ZArith List Bool Lia.
From Coq Require Import ZifyBool.
From Verif Require Import Base S3QueueModel S3QueueSpec.
Import ListNotations.
Open Scope Z_scope.

Section QueueProofs.
Variable Q : Z.
Hypothesis Qpos : 0 < Q.
Hypothesis Qsmall : Q < LENGTH_ERASED_FLAG.

Lemma tot_pos : forall d, 1 <= tot d.
Proof using. intros. unfold tot. lia. Qed.

(* Two locations of one window of [Q] words are different addresses. *)
Lemma mod_inj : forall E x y, E <= x < E + Q -> E <= y < E + Q -> x mod Q = y mod Q -> x = y.
Proof using Qpos.
  intros E x y Hx Hy M.
  pose proof (Z.div_mod x Q ltac:(lia)) as Dx. pose proof (Z.div_mod y Q ltac:(lia)) as Dy.
  rewrite M in Dx. set (qx := x / Q) in *. set (qy := y / Q) in *.
  assert (qx = qy) by nia. subst qx. lia.
Qed.

Lemma upd_loc : forall (m : Z -> Z) E l v x, E <= l < E + Q -> E <= x < E + Q ->
  upd m (l mod Q) v (x mod Q) = if x =? l then v else m (x mod Q).
Proof using Qpos.
  intros m E l v x Hl Hx. destruct (Z.eqb_spec x l) as [->|N].
  - apply upd_same.
  - apply upd_other. intro C. apply N. eapply mod_inj; eauto.
Qed.

(* A copy or an erasure of a body, in terms of locations. *)
Definition ring (m : Z -> Z) (l n : Z) (f : Z -> Z) : Z -> Z :=
  if l / Q =? (l + (1 + n) - 1) / Q
  then blk m (l mod Q + 1) n f
  else let firstChunkLen := Q - l mod Q in
    blk (blk m (l mod Q + 1) (firstChunkLen - 1) f) 0 (1 + n - firstChunkLen) (fun i => f (firstChunkLen - 1 + i)).

Lemma ring_loc : forall m E l n f x, 0 <= n -> E <= l -> l + 1 + n <= E + Q -> E <= x < E + Q ->
  ring m l n f (x mod Q) = if (l + 1 <=? x) && (x <? l + 1 + n) then f (x - l - 1) else m (x mod Q).
Proof using Qpos.
  intros m E l n f x Hn Hl Hw Hx. unfold ring, blk.
  pose proof (Z.div_mod x Q ltac:(lia)) as Dx. pose proof (Z.mod_pos_bound x Q Qpos) as Bx.
  pose proof (Z.div_mod l Q ltac:(lia)) as Dl. pose proof (Z.mod_pos_bound l Q Qpos) as Bl.
  assert (R : (l / Q =? (l + (1 + n) - 1) / Q) = (l mod Q + n <? Q)).
  { destruct (Z.ltb_spec (l mod Q + n) Q) as [L|L].
    - apply Z.eqb_eq. apply (Z.div_unique_pos _ _ _ (l mod Q + n)); lia.
    - apply Z.eqb_neq. intro C.
      assert (X : (l + (1 + n) - 1) / Q = l / Q + 1).
      { symmetry. apply (Z.div_unique_pos _ _ _ (l mod Q + n - Q)); nia. }
      lia. }
  rewrite R. clear R. set (a := x mod Q) in *. set (r := l mod Q) in *. set (qx := x / Q) in *. set (ql := l / Q) in *.
  assert (qx = ql - 1 \/ qx = ql \/ qx = ql + 1) as Hq by nia.
  assert (X : (x = a + l - r - Q \/ x = a + l - r \/ x = a + l - r + Q)) by (destruct Hq as [-> | [-> | ->]]; [left|right;left|right;right]; nia).
  clear Hq Dx Dl. clearbody a r.
  destruct (Z.ltb_spec (r + n) Q) as [L|L].
  - destruct (Z.leb_spec (r + 1) a), (Z.ltb_spec a (r + 1 + n)), (Z.leb_spec (l + 1) x), (Z.ltb_spec x (l + 1 + n)); cbn [andb]; try (exfalso; lia); try reflexivity.
    all: f_equal; lia.
  - cbv zeta. destruct (Z.leb_spec 0 a); [|lia]. cbn [andb].
    destruct (Z.ltb_spec a (0 + (1 + n - (Q - r)))), (Z.leb_spec (r + 1) a), (Z.ltb_spec a (r + 1 + (Q - r - 1))), (Z.leb_spec (l + 1) x), (Z.ltb_spec x (l + 1 + n)); cbn [andb]; try (exfalso; lia); try reflexivity.
    all: f_equal; lia.
Qed.

Lemma put_body_loc : forall m E l d x, E <= l -> l + tot d <= E + Q -> E <= x < E + Q ->
  put_body Q m l d (x mod Q) = if (l + 1 <=? x) && (x <? l + tot d) then at_i d (x - l - 1) else m (x mod Q).
Proof using Qpos.
  intros m E l d x H1 H2 H3. change (put_body Q m l d) with (ring m l (Z.of_nat (length d)) (at_i d)).
  unfold tot in *. rewrite (ring_loc _ E) by lia. rewrite !Z.add_assoc. reflexivity.
Qed.

Lemma wipe_loc : forall m E l n x, 1 <= n -> E <= l -> l + n <= E + Q -> E <= x < E + Q ->
  wipe Q m l n (x mod Q) = if (l + 1 <=? x) && (x <? l + n) then 0 else m (x mod Q).
Proof using Qpos.
  intros m E l n x Hn H1 H2 H3.
  assert (W : wipe Q m l n = ring m l (n - 1) (fun _ => 0)).
  { unfold wipe, ring. replace (l + (1 + (n - 1)) - 1) with (l + n - 1) by lia. replace (1 + (n - 1)) with n by lia. reflexivity. }
  rewrite W, (ring_loc _ E) by lia. replace (l + 1 + (n - 1)) with (l + n) by lia. reflexivity.
Qed.

(* What a worker's copy does: it can change only the body of its own task, and
   if the task is in one piece it returns the body and changes nothing. *)
Lemma get_task_buf : forall m E l g x d, m (l mod Q) = tot d -> E <= l -> l + tot d <= E + Q -> E <= x < E + Q ->
  ~ (l + 1 <= x < l + tot d) -> fst (get_task Q m l g) (x mod Q) = m (x mod Q).
Proof using Qpos.
  intros m E l g x d Hd H1 H2 H3 N. unfold get_task. rewrite Hd.
  pose proof (Z.div_mod x Q ltac:(lia)) as Dx. pose proof (Z.mod_pos_bound x Q Qpos) as Bx.
  pose proof (Z.div_mod l Q ltac:(lia)) as Dl. pose proof (Z.mod_pos_bound l Q Qpos) as Bl.
  destruct (Z.eqb_spec (l / Q) ((l + tot d - 1) / Q)) as [e|e]; [reflexivity|].
  cbn [fst]. unfold blk. pose proof (tot_pos d) as TP.
  assert (L : Q <= l mod Q + tot d - 1).
  { destruct (Z_lt_le_dec (l mod Q + tot d - 1) Q) as [L|L]; [|exact L]. exfalso. apply e.
    apply (Z.div_unique_pos _ _ _ (l mod Q + tot d - 1)); lia. }
  set (a := x mod Q) in *. set (r := l mod Q) in *. set (qx := x / Q) in *. set (ql := l / Q) in *.
  assert (qx = ql - 1 \/ qx = ql \/ qx = ql + 1) as Hq by nia.
  assert (X : (x = a + l - r - Q \/ x = a + l - r \/ x = a + l - r + Q)) by (destruct Hq as [-> | [-> | ->]]; [left|right;left|right;right]; nia).
  clear Hq Dx Dl e. clearbody a r.
  destruct (Z.leb_spec (r + 1) a), (Z.ltb_spec a (r + 1 + (Q - r - 1))); cbn [andb]; try reflexivity. exfalso. lia.
Qed.

Lemma read_body : forall m a d, (forall i, 0 <= i < Z.of_nat (length d) -> m (a + i) = at_i d i) ->
  read m a (Z.of_nat (length d)) = d.
Proof using.
  intros m a d H. unfold read. rewrite Nat2Z.id.
  apply nth_ext with (d := 0) (d' := 0).
  - rewrite map_length, seq_length. reflexivity.
  - intros n Hn. rewrite map_length, seq_length in Hn.
    rewrite (nth_indep _ 0 (m (a + Z.of_nat 0))) by (rewrite map_length, seq_length; exact Hn).
    rewrite (map_nth (fun i => m (a + Z.of_nat i))). rewrite seq_nth by exact Hn. rewrite H by lia.
    unfold at_i. rewrite Nat2Z.id. reflexivity.
Qed.

Lemma get_task_whole : forall m l g d, 0 <= l -> m (l mod Q) = tot d -> in_one_piece Q l d -> 
  (forall i, 0 <= i < Z.of_nat (length d) -> m ((l + 1 + i) mod Q) = at_i d i) ->
  get_task Q m l g = (m, d).
Proof using Qpos.
  intros m l g d Hl Hd W B. unfold get_task. rewrite Hd. unfold in_one_piece in W.
  replace (l + tot d - 1) with (l + Z.of_nat (length d)) by (unfold tot; lia).
  rewrite W, Z.eqb_refl. replace (tot d - 1) with (Z.of_nat (length d)) by (unfold tot; lia).
  f_equal. apply read_body. intros i Hi. rewrite <- (B i Hi). f_equal.
  pose proof (Z.div_mod l Q ltac:(lia)) as Dl. pose proof (Z.mod_pos_bound l Q Qpos) as Bl.
  pose proof (Z.div_mod (l + Z.of_nat (length d)) Q ltac:(lia)) as De. pose proof (Z.mod_pos_bound (l + Z.of_nat (length d)) Q Qpos) as Be.
  rewrite <- W in De. apply (Z.mod_unique_pos _ _ (l / Q)); lia.
Qed.

(** ** The invariant *)

Inductive stage := Free | Reserved | Copied | Published | Taken | Held | Wiped | Flagged | Passed.

Definition hdr (g : stage) (d : list Z) : Z :=
  match g with
  | Published | Taken | Held | Wiped => tot d
  | Flagged => tot d + LENGTH_ERASED_FLAG
  | _ => 0
  end.
Definition body_ok (g : stage) (v w : Z) : Prop :=
  match g with Copied | Published | Taken => v = w | Held => True | _ => v = 0 end.

Definition own (x : pos) : option Z :=
  match x with PWait l _ | PLen l _ | G l | W l _ | E0 l | E1 l _ => Some l | _ => None end.

Definition pok (s : st) (g : Z -> stage) (x : pos) : Prop :=
  match x with
  | Idle => True
  | PWait l d => task s l = Some d /\ g l = Reserved
  | PLen l d => task s l = Some d /\ g l = Copied
  | K1 pk => pk <= pick s
  | K2 pk i => pk <= pick s /\ i <= ins s
  | K3 pk i er => pk <= pick s /\ i <= ins s /\ er <= erased s
  | K4 pk n => pk <= pick s /\ (pick s = pk -> exists d, task s pk = Some d /\ g pk = Published /\ n = tot d)
  | G l => g l = Taken
  | W l _ => g l = Held
  | E0 l => g l = Held /\ In l (finished s)
  | E1 l n => g l = Wiped /\ exists d, task s l = Some d /\ n = tot d
  | E2 l n => l < erased s \/ (exists d, task s l = Some d /\ g l = Flagged /\ n = tot d)
  | E3 l n => l < l + n <= erased s
  | E4 l => l <= erased s
  end.

Definition bnd (s : st) (x : Z) : Prop := x = ins s \/ exists d, task s x = Some d.
Definition comes (s : st) (x : pos) : Prop :=
  match x with E2 l _ => l = erased s | E3 l n => l + n = erased s | E4 l => l = erased s | _ => False end.

Record Inv (s : st) (g : Z -> stage) : Prop := mkInv {
  i_order : 0 <= erased s <= pick s /\ pick s <= ins s;
  i_in : forall l d, task s l = Some d -> 0 <= l /\ l + tot d <= ins s;
  i_disj : forall l1 d1 l2 d2, task s l1 = Some d1 -> task s l2 = Some d2 -> l1 < l2 -> l1 + tot d1 <= l2;
  i_next : forall l d, task s l = Some d -> bnd s (l + tot d);
  i_pick : bnd s (pick s);
  i_er : bnd s (erased s);
  i_free : forall l, task s l = None -> g l = Free;
  i_old : forall l d, task s l = Some d -> l < pick s -> g l = Taken \/ g l = Held \/ g l = Wiped \/ g l = Flagged \/ g l = Passed;
  i_new : forall l d, task s l = Some d -> pick s <= l -> g l = Reserved \/ g l = Copied \/ g l = Published;
  i_pass : forall l d, task s l = Some d -> (g l = Passed <-> l < erased s);
  i_room : forall l d, task s l = Some d -> g l <> Reserved -> l + tot d <= erased s + Q;
  i_hdr : forall l d, task s l = Some d -> erased s <= l < erased s + Q -> buf s (l mod Q) = hdr (g l) d;
  i_body : forall l d i, task s l = Some d -> erased s <= l -> 0 <= i < Z.of_nat (length d) -> l + 1 + i < erased s + Q ->
             body_ok (g l) (buf s ((l + 1 + i) mod Q)) (at_i d i);
  i_zero : forall x, ins s <= x < erased s + Q -> (forall p n, at_ s p <> E3 (x - Q) n) -> buf s (x mod Q) = 0;
  i_pok : forall p, pok s g (at_ s p);
  i_own : forall p q l, own (at_ s p) = Some l -> own (at_ s q) = Some l -> p = q;
  i_picked : forall l, In l (picked s) <-> was_put s l /\ l < pick s;
  i_nodup : NoDup (picked s);
  i_got : forall l d', In (l, d') (got s) -> exists d, task s l = Some d /\ (in_one_piece Q l d -> d' = d) /\ l < pick s;
  i_fina : forall l, g l = Wiped \/ g l = Flagged \/ g l = Passed -> In l (finished s);
  i_finb : forall l, In l (finished s) -> was_put s l /\ l < pick s;
  i_finc : forall l, g l = Taken -> ~ In l (finished s);
  i_find : forall p l d, at_ s p = W l d -> ~ In l (finished s);
  i_fnd : NoDup (finished s);
  i_has : forall l, g l = Reserved \/ g l = Copied \/ g l = Taken \/ g l = Held \/ g l = Wiped -> exists p, own (at_ s p) = Some l;
  i_lead : g (erased s) = Flagged -> exists p, comes s (at_ s p)
}.

Lemma inv_init : Inv (init) (fun _ => Free).
Proof using Qpos Qsmall.
  constructor; cbn; try (intros; discriminate); try (intros; contradiction); try (intros; lia); auto.
  - left. reflexivity.
  - left. reflexivity.
  - intros l. split; [contradiction|]. intros [[d D] _]. discriminate D.
  - constructor.
  - intros l [X|[X|X]]; discriminate X.
  - constructor.
  - intros l X. exfalso. intuition discriminate.
Qed.

Lemma pok_frame : forall s s' g g' y, pok s g y ->
  (forall l d, task s l = Some d -> task s' l = Some d) ->
  pick s <= pick s' -> ins s <= ins s' -> erased s <= erased s' ->
  (forall l, own y = Some l -> g' l = g l) ->
  (pick s' = pick s -> forall l, g l = Published -> g' l = Published) ->
  (forall l, g l = Flagged -> g' l = Flagged \/ l < erased s') ->
  (forall l, In l (finished s) -> In l (finished s')) -> pok s' g' y.
Proof using.
  intros s s' g g' y P T P1 P2 P3 O K F N. destruct y; cbn [pok own] in *; try (rewrite (O _ eq_refl)); try tauto; try lia.
  - destruct P as [A B]. split; [auto|assumption].
  - destruct P as [A B]. split; [auto|assumption].
  - destruct P as [A B]. split; [lia|]. intro C. destruct B as [d [D1 [D2 D3]]]; [lia|]. exists d.
    split; [auto|]. split; [|assumption]. apply K; [lia|assumption].
  - destruct P as [A B]. split; auto.
  - destruct P as [A [d [D1 D2]]]. split; [assumption|]. exists d. auto.
  - destruct P as [A|[d [D1 [D2 D3]]]]; [left; lia|]. destruct (F _ D2) as [X|X]; [right; exists d; auto|left; exact X].
Qed.

Lemma upd_p : forall (s : st) (P : pos -> Prop) p x, P x -> (forall q, q <> p -> P (at_ s q)) -> forall q, P (upd (at_ s) p x q).
Proof using. intros s P p x Hx Hq q. unfold upd. destruct (Z.eqb_spec q p) as [->|N]; auto. Qed.

Lemma own_upd : forall (s : st) p x, (forall p0 q l, own (at_ s p0) = Some l -> own (at_ s q) = Some l -> p0 = q) ->
  (forall l, own x = Some l -> own (at_ s p) = Some l \/ forall q, own (at_ s q) <> Some l) ->
  forall p0 q l, own (upd (at_ s) p x p0) = Some l -> own (upd (at_ s) p x q) = Some l -> p0 = q.
Proof using.
  intros s p x H X p0 q l. unfold upd. destruct (Z.eqb_spec p0 p) as [->|N0], (Z.eqb_spec q p) as [->|N]; intros A B.
  - reflexivity.
  - destruct (X _ A) as [Y|Y]; [eapply H; eauto|]. exfalso. eapply Y; eauto.
  - destruct (X _ B) as [Y|Y]; [eapply H; eauto|]. exfalso. eapply Y; eauto.
  - eapply H; eauto.
Qed.

Lemma t_setp : forall s g p x, Inv s g -> pok s g x -> own x = None -> own (at_ s p) = None ->
  (forall l n, at_ s p <> E3 l n) -> (forall l d, x <> W l d) ->
  (g (erased s) = Flagged -> comes s (at_ s p) -> comes s x) -> Inv (setp s p x) g.
Proof using.
  intros s g p x I X O OP N3 NW C. destruct I. constructor; cbn [setp ins pick erased buf at_ task picked got finished]; auto.
  - intros y Hy Z0. apply i_zero0; [exact Hy|]. intros q n E. apply (Z0 q n). unfold upd.
    destruct (Z.eqb_spec q p) as [->|Nq]; [destruct (N3 _ _ E)|exact E].
  - intro q. change (pok (setp s p x) g (upd (at_ s) p x q)).
    apply (upd_p s (pok (setp s p x) g)).
    + exact X.
    + intros q0 _. exact (i_pok0 q0).
  - apply own_upd; [exact i_own0|]. rewrite O. discriminate.
  - intros q l d. unfold upd. destruct (Z.eqb_spec q p) as [->|Nq]; [|apply i_find0].
    intro E. destruct (NW _ _ E).
  - intros l H. destruct (i_has0 _ H) as [q Hq]. exists q. rewrite upd_other; [exact Hq|]. intro Y. subst q. congruence.
  - intro F. destruct (i_lead0 F) as [q Hq]. destruct (Z.eq_dec q p) as [->|Nq].
    + exists p. rewrite upd_same. exact (C F Hq).
    + exists q. rewrite upd_other by exact Nq. exact Hq.
Qed.

Lemma own_task : forall s g p l, Inv s g -> own (at_ s p) = Some l -> exists d, task s l = Some d.
Proof using.
  intros s g p l I O. destruct (task s l) as [d|] eqn:T; [exists d; reflexivity|]. exfalso.
  pose proof (i_free _ _ I l T) as F. pose proof (i_pok _ _ I p) as P.
  destruct (at_ s p); cbn [own pok] in *; inversion O; subst; try congruence; destruct P; try congruence.
Qed.

(* The tasks and free locations that a write to task [l] leaves alone. *)
Lemma cover_disj : forall s g l d l' d' x, Inv s g -> task s l = Some d -> task s l' = Some d' ->
  l <= x < l + tot d -> l' <= x < l' + tot d' -> l' = l.
Proof using.
  intros s g l d l' d' x I T T' A B. destruct (Z.lt_trichotomy l l') as [L|[L|L]]; [|auto|].
  - pose proof (i_disj _ _ I _ _ _ _ T T' L). lia.
  - pose proof (i_disj _ _ I _ _ _ _ T' T L). lia.
Qed.

Lemma t_put : forall s g p d, Inv s g -> at_ s p = Idle -> calm Q (step Q s (Put p d)) ->
  exists g', Inv (step Q s (Put p d)) g'.
Proof using Qpos.
  intros s g p d I A C. exists (upd g (ins s) Reserved). revert C. cbn [step]. rewrite A. intro C.
  pose proof (tot_pos d) as TP.
  assert (NT : task s (ins s) = None).
  { destruct (task s (ins s)) as [d'|] eqn:T; [|reflexivity]. pose proof (i_in _ _ I _ _ T). pose proof (tot_pos d'). lia. }
  assert (LT : forall l d', task s l = Some d' -> l < ins s).
  { intros l d' T. pose proof (i_in _ _ I _ _ T). pose proof (tot_pos d'). lia. }
  assert (TU : forall l d', upd (task s) (ins s) (Some d) l = Some d' -> (l = ins s /\ d' = d) \/ (l < ins s /\ task s l = Some d')).
  { intros l d'. unfold upd. destruct (Z.eqb_spec l (ins s)) as [->|N]; intro T; [left; split; congruence|right; split; [eapply LT|]; eauto]. }
  assert (TK : forall l d', task s l = Some d' -> upd (task s) (ins s) (Some d) l = Some d').
  { intros l d' T. rewrite upd_other; [exact T|]. pose proof (LT _ _ T). lia. }
  assert (GK : forall l, l <> ins s -> upd g (ins s) Reserved l = g l) by (intros; apply upd_other; assumption).
  assert (NP : forall q l n, at_ s q = E3 l n -> ins s + tot d < l + Q).
  { intros q l n E. apply (C q l n). cbn [at_]. rewrite upd_other; [exact E|]. intro X. subst q. congruence. }
  assert (BK : forall s', ins s' = ins s + tot d -> (forall l d', task s l = Some d' -> task s' l = Some d') -> task s' (ins s) = Some d -> forall x, bnd s x -> bnd s' x).
  { intros s' E1' E2' E3' x [->|[d' T]]; right; eexists; eauto. }
  pose proof (i_order _ _ I) as OR.
  destruct I. constructor; cbn [ins pick erased buf at_ task picked got finished].
  - lia.
  - intros l d' T. destruct (TU _ _ T) as [[-> ->]|[L T']]; [lia|]. pose proof (i_in0 _ _ T'). lia.
  - intros l1 d1 l2 d2 T1 T2 L. destruct (TU _ _ T1) as [[-> ->]|[L1 T1']], (TU _ _ T2) as [[-> ->]|[L2 T2']].
    + lia.
    + lia.
    + apply (i_in0 _ _ T1').
    + eapply i_disj0; eauto.
  - intros l d' T. destruct (TU _ _ T) as [[-> ->]|[L T']]; [left; reflexivity|].
    eapply BK; [reflexivity| |apply upd_same|apply i_next0; exact T']. exact TK.
  - eapply BK; [reflexivity| |apply upd_same|exact i_pick0]. exact TK.
  - eapply BK; [reflexivity| |apply upd_same|exact i_er0]. exact TK.
  - intros l T. destruct (Z.eq_dec l (ins s)) as [->|N]; [rewrite upd_same in T; discriminate T|].
    rewrite GK by exact N. rewrite upd_other in T by exact N. auto.
  - intros l d' T L. destruct (TU _ _ T) as [[-> ->]|[L' T']]; [lia|]. rewrite GK by lia. eauto.
  - intros l d' T L. destruct (TU _ _ T) as [[-> ->]|[L' T']]; [rewrite upd_same; auto|]. rewrite GK by lia. eauto.
  - intros l d' T. destruct (TU _ _ T) as [[-> ->]|[L' T']]; [rewrite upd_same; split; [discriminate|lia]|]. rewrite GK by lia. eauto.
  - intros l d' T N. destruct (TU _ _ T) as [[-> ->]|[L' T']]; [rewrite upd_same in N; congruence|]. rewrite GK in N by lia. eauto.
  - intros l d' T L. destruct (TU _ _ T) as [[-> ->]|[L' T']].
    + rewrite upd_same. cbn [hdr]. apply i_zero0; [lia|]. intros q n E. pose proof (NP _ _ _ E). lia.
    + rewrite GK by lia. eauto.
  - intros l d' i T L Hi W. destruct (TU _ _ T) as [[-> ->]|[L' T']].
    + rewrite upd_same. cbn [body_ok]. apply i_zero0; [lia|]. intros q n E. pose proof (NP _ _ _ E). unfold tot in *. lia.
    + rewrite GK by lia. eauto.
  - intros x Hx Z0. apply i_zero0; [lia|]. intros q n E. apply (Z0 q n). rewrite upd_other; [exact E|]. intro X. subst q. congruence.
  - intro q. match goal with |- pok ?s' _ _ => apply (upd_p s (pok s' (upd g (ins s) Reserved))) end.
    + cbn [pok task]. rewrite !upd_same. auto.
    + intros q0 Nq. apply (pok_frame s) with (g := g); cbn [task pick ins erased finished]; auto; try lia.
      * intros l O. apply GK. intro X. subst l. specialize (i_pok0 q0). destruct (at_ s q0); cbn [own pok] in *; inversion O; subst; try (destruct i_pok0; congruence).
        -- rewrite (i_free0 _ NT) in i_pok0. discriminate.
        -- rewrite (i_free0 _ NT) in i_pok0. discriminate.
        -- rewrite (i_free0 _ NT) in i_pok0. destruct i_pok0. discriminate.
        -- rewrite (i_free0 _ NT) in i_pok0. destruct i_pok0. discriminate.
      * intros _ l F. rewrite GK; [exact F|]. intro X. subst l. rewrite (i_free0 _ NT) in F. discriminate F.
      * intros l F. left. rewrite GK; [exact F|]. intro X. subst l. rewrite (i_free0 _ NT) in F. discriminate F.
  - apply own_upd; [exact i_own0|]. intros l O. cbn [own] in O. injection O as <-. right. intros q O.
    specialize (i_pok0 q). destruct (at_ s q); cbn [own pok] in *; inversion O; subst; rewrite ?(i_free0 _ NT) in i_pok0; try (destruct i_pok0; congruence); discriminate.
  - intro l. rewrite i_picked0. unfold was_put. cbn [task]. split; intros [[d' T] L]; (split; [|exact L]).
    + exists d'. apply TK. exact T.
    + destruct (TU _ _ T) as [[-> ->]|[L' T']]; [lia|eauto].
  - exact i_nodup0.
  - intros l d' H. destruct (i_got0 _ _ H) as [d0 [T X]]. exists d0. split; [apply TK; exact T|exact X].
  - intros l. destruct (Z.eq_dec l (ins s)) as [->|N]; [rewrite upd_same; intros [X|[X|X]]; discriminate X|]. rewrite GK by exact N. auto.
  - intros l H. destruct (i_finb0 _ H) as [[d' T] L]. split; [exists d'; cbn [task]; apply TK; exact T|exact L].
  - intros l H. destruct (Z.eq_dec l (ins s)) as [->|N]; [rewrite upd_same in H; discriminate H|]. rewrite GK in H by exact N. auto.
  - intros q l d'. unfold upd. destruct (q =? p); [discriminate|]. apply i_find0.
  - exact i_fnd0.
  - intros l H. destruct (Z.eq_dec l (ins s)) as [->|N]; [exists p; rewrite upd_same; reflexivity|]. rewrite GK in H by exact N.
    destruct (i_has0 _ H) as [q Hq]. exists q. rewrite upd_other; [exact Hq|]. intro X. subst q. rewrite A in Hq. discriminate Hq.
  - intro F. assert (NE : erased s <> ins s) by (intro X; rewrite X, upd_same in F; discriminate F).
    rewrite GK in F by exact NE. destruct (i_lead0 F) as [q Hq]. exists q. rewrite upd_other; [exact Hq|].
    intro X. subst q. rewrite A in Hq. exact Hq.
Qed.

(* The owner of a task changes its words and its stage. *)
Lemma t_own : forall s g p l d v m x gt fn, Inv s g -> own (at_ s p) = Some l -> task s l = Some d ->
  (g l = Reserved \/ g l = Copied \/ g l = Taken \/ g l = Held \/ g l = Wiped) ->
  (l < pick s -> v = Held \/ v = Wiped \/ v = Flagged) ->
  (pick s <= l -> v = Copied \/ v = Published) ->
  l + tot d <= erased s + Q ->
  (forall y, erased s <= y < erased s + Q -> ~ (l <= y < l + tot d) -> m (y mod Q) = buf s (y mod Q)) ->
  m (l mod Q) = hdr v d ->
  (forall i, 0 <= i < Z.of_nat (length d) -> body_ok v (m ((l + 1 + i) mod Q)) (at_i d i)) ->
  pok (mkSt (ins s) (pick s) (erased s) m (upd (at_ s) p x) (task s) (picked s) gt fn) (upd g l v) x ->
  (own x = None \/ own x = Some l) ->
  (forall l0 d0, In (l0, d0) gt -> In (l0, d0) (got s) \/ (l0 = l /\ (in_one_piece Q l d -> d0 = d) /\ l < pick s)) ->
  (fn = finished s \/ (fn = l :: finished s /\ ~ In l (finished s) /\ l < pick s)) ->
  (v = Wiped \/ v = Flagged -> In l fn) ->
  (forall l0 d0, x = W l0 d0 -> l0 = l /\ ~ In l fn) ->
  (v = Flagged -> l = erased s -> exists n, x = E2 l n) ->
  (v = Flagged \/ v = Published \/ own x = Some l) ->
  Inv (mkSt (ins s) (pick s) (erased s) m (upd (at_ s) p x) (task s) (picked s) gt fn) (upd g l v).
Proof using Qpos.
  intros s g p l d v m x gt fn I O T G0 VO VN RM MF MH MB PX OX HG HF HFl HW HL HO.
  assert (NP : g l <> Passed) by (intuition congruence).
  assert (EL : erased s <= l) by (destruct (Z_lt_le_dec l (erased s)) as [L|L]; [destruct NP; apply (i_pass _ _ I _ _ T); exact L|exact L]).
  assert (VP : v <> Passed) by (destruct (Z_lt_le_dec l (pick s)) as [L|L]; [destruct (VO L) as [->|[->| ->]]|destruct (VN L) as [->| ->]]; discriminate).
  assert (VT : v <> Taken) by (destruct (Z_lt_le_dec l (pick s)) as [L|L]; [destruct (VO L) as [->|[->| ->]]|destruct (VN L) as [->| ->]]; discriminate).
  assert (GK : forall l', l' <> l -> upd g l v l' = g l') by (intros; apply upd_other; assumption).
  pose proof (tot_pos d) as TP.
  assert (CD : forall l' d' y, l' <> l -> task s l' = Some d' -> l' <= y < l' + tot d' -> ~ (l <= y < l + tot d)).
  { intros l' d' y N T' Y C. apply N. eapply cover_disj; eauto. }
  assert (INL : forall l0, In l0 fn -> In l0 (finished s) \/ (l0 = l /\ l < pick s)).
  { intros l0 H. destruct HF as [->|[-> [_ LP]]]; [auto|]. destruct H as [<-|H]; auto. }
  assert (INK : forall l0, In l0 (finished s) -> In l0 fn) by (intros l0 H; destruct HF as [->|[-> _]]; [auto|right; auto]).
  assert (QO : forall q, q <> p -> own (at_ s q) <> Some l) by (intros q N C; apply N; eapply (i_own _ _ I); eauto).
  pose proof (i_in _ _ I _ _ T) as TI.
  destruct I. constructor; cbn [ins pick erased buf at_ task picked got finished]; auto.
  - intros l0 T0. rewrite GK; [auto|]. intro X. subst. congruence.
  - intros l0 d0 T0 L. destruct (Z.eq_dec l0 l) as [->|N]; [rewrite upd_same; destruct (VO L) as [->|[->| ->]]; auto|rewrite GK by exact N; eauto].
  - intros l0 d0 T0 L. destruct (Z.eq_dec l0 l) as [->|N]; [rewrite upd_same; destruct (VN L) as [->| ->]; auto|rewrite GK by exact N; eauto].
  - intros l0 d0 T0. destruct (Z.eq_dec l0 l) as [->|N]; [rewrite upd_same; split; [congruence|lia]|rewrite GK by exact N; eauto].
  - intros l0 d0 T0. destruct (Z.eq_dec l0 l) as [->|N]; [intros _; congruence|rewrite GK by exact N; eauto].
  - intros l0 d0 T0 L. destruct (Z.eq_dec l0 l) as [->|N]; [rewrite upd_same; congruence|rewrite GK by exact N].
    rewrite MF; [eauto|exact L|]. eapply CD; eauto. pose proof (tot_pos d0). lia.
  - intros l0 d0 i T0 L Hi W. destruct (Z.eq_dec l0 l) as [->|N].
    + rewrite upd_same. assert (d0 = d) by congruence. subst d0. auto.
    + rewrite GK by exact N. rewrite MF; [eauto|lia|]. eapply CD; eauto. unfold tot. lia.
  - intros y Hy Z0. rewrite MF by lia. apply i_zero0; [exact Hy|]. intros q n E. apply (Z0 q n). rewrite upd_other; [exact E|].
    intro X. subst q. rewrite E in O. discriminate O.
  - intro q. match goal with |- pok ?s' ?g' _ => apply (upd_p s (pok s' g')) end; [exact PX|].
    intros q0 Nq. apply (pok_frame s) with (g := g); cbn [task pick ins erased finished]; auto; try lia.
    + intros l0 O0. apply GK. intro X. subst l0. exact (QO _ Nq O0).
    + intros _ l0 F. rewrite GK; [exact F|]. intro X. subst. intuition congruence.
    + intros l0 F. left. rewrite GK; [exact F|]. intro X. subst. intuition congruence.
  - apply own_upd; [exact i_own0|]. intros l0 O0. left. destruct OX as [X|X]; congruence.
  - intros l0 d0 H. destruct (HG _ _ H) as [H'|[-> [X Y]]]; [exact (i_got0 _ _ H')|exists d; auto].
  - intros l0. destruct (Z.eq_dec l0 l) as [->|N]; [rewrite upd_same|rewrite GK by exact N; auto].
    intros [X|[X|X]]; [apply HFl; auto|apply HFl; auto|congruence].
  - intros l0 H. destruct (INL _ H) as [H'|[-> H']]; [exact (i_finb0 _ H')|]. split; [exists d; exact T|exact H'].
  - intros l0 H. destruct (Z.eq_dec l0 l) as [->|N]; [rewrite upd_same in H; congruence|]. rewrite GK in H by exact N.
    intro C. destruct (INL _ C) as [C'|[C' _]]; [exact (i_finc0 _ H C')|congruence].
  - intros q l0 d0. unfold upd. destruct (Z.eqb_spec q p) as [->|Nq]; intro E.
    + destruct (HW _ _ E) as [-> X]. exact X.
    + intro C. destruct (INL _ C) as [C'|[-> _]]; [exact (i_find0 _ _ _ E C')|]. apply (QO q Nq). rewrite E. reflexivity.
  - destruct HF as [->|[-> [X _]]]; [assumption|constructor; assumption].
  - intros l0 H. destruct (Z.eq_dec l0 l) as [->|N].
    + rewrite upd_same in H. exists p. rewrite upd_same. destruct HO as [Y|[Y|Y]]; [exfalso; rewrite Y in H; intuition discriminate|exfalso; rewrite Y in H; intuition discriminate|exact Y].
    + rewrite GK in H by exact N. destruct (i_has0 _ H) as [q Hq]. exists q. rewrite upd_other; [exact Hq|]. intro Y. subst q. congruence.
  - intro F. destruct (Z.eq_dec (erased s) l) as [E|N].
    + rewrite E, upd_same in F. destruct (HL F (eq_sym E)) as [n X]. exists p. rewrite upd_same. rewrite X. cbn [comes erased]. symmetry. exact E.
    + rewrite GK in F by exact N. destruct (i_lead0 F) as [q Hq]. exists q. rewrite upd_other; [exact Hq|].
      intro X. subst q. destruct (at_ s p); cbn [own comes] in *; try discriminate O; contradiction.
Qed.

Lemma old_of : forall s g l d, Inv s g -> task s l = Some d -> g l = Taken \/ g l = Held \/ g l = Wiped -> l < pick s /\ erased s <= l /\ l + tot d <= erased s + Q.
Proof using.
  intros s g l d I T G. split; [|split].
  - destruct (Z_lt_le_dec l (pick s)) as [L|L]; [exact L|]. destruct (i_new _ _ I _ _ T L) as [X|[X|X]]; intuition congruence.
  - destruct (Z_lt_le_dec l (erased s)) as [L|L]; [|exact L]. apply (i_pass _ _ I _ _ T) in L. intuition congruence.
  - apply (i_room _ _ I _ _ T). intuition congruence.
Qed.
Lemma new_of : forall s g l d, Inv s g -> task s l = Some d -> g l = Reserved \/ g l = Copied \/ g l = Published -> pick s <= l /\ erased s <= l.
Proof using.
  intros s g l d I T G. assert (pick s <= l).
  - destruct (Z_lt_le_dec l (pick s)) as [L|L]; [|exact L]. destruct (i_old _ _ I _ _ T L) as [X|[X|[X|[X|X]]]]; intuition congruence.
  - pose proof (i_order _ _ I). lia.
Qed.

Ltac rng := match goal with |- context [(?a <=? ?b) && (?c <? ?e)] => destruct (Z.leb_spec a b), (Z.ltb_spec c e); cbn [andb] end.

Lemma t_copy : forall s g p l d, Inv s g -> at_ s p = PWait l d -> l + tot d <= erased s + Q ->
  Inv (setb s p (put_body Q (buf s) l d) (PLen l d)) (upd g l Copied).
Proof using Qpos.
  intros s g p l d I A L. pose proof (i_pok _ _ I p) as P. rewrite A in P. destruct P as [T G].
  destruct (new_of _ _ _ _ I T ltac:(auto)) as [N1 N2]. pose proof (tot_pos d) as TP.
  apply (t_own s g p l d); auto; try (intro; exfalso; lia).
  - rewrite A. reflexivity.
  - intros y Hy N. rewrite (put_body_loc _ (erased s)) by lia. rng; try reflexivity. exfalso; lia.
  - rewrite (put_body_loc _ (erased s)) by lia. rng; try (exfalso; lia). rewrite (i_hdr _ _ I _ _ T) by lia. rewrite G. reflexivity.
  - intros i Hi. cbn [body_ok]. rewrite (put_body_loc _ (erased s)) by (unfold tot in *; lia).
    assert (tot d = 1 + Z.of_nat (length d)) by reflexivity. rng; try (exfalso; lia). f_equal. lia.
  - cbn [pok task]. rewrite upd_same. auto.
  - intros [X|X]; discriminate X.
  - discriminate.
  - discriminate.
Qed.

Lemma t_publish : forall s g p l d, Inv s g -> at_ s p = PLen l d ->
  Inv (setb s p (upd (buf s) (l mod Q) (tot d)) Idle) (upd g l Published).
Proof using Qpos.
  intros s g p l d I A. pose proof (i_pok _ _ I p) as P. rewrite A in P. destruct P as [T G].
  destruct (new_of _ _ _ _ I T ltac:(auto)) as [N1 N2]. pose proof (tot_pos d) as TP.
  pose proof (i_room _ _ I _ _ T ltac:(congruence)) as RM.
  apply (t_own s g p l d); auto; try (intro; exfalso; lia).
  - rewrite A. reflexivity.
  - intros y Hy N. rewrite (upd_loc _ (erased s)) by lia. destruct (Z.eqb_spec y l); [exfalso; lia|reflexivity].
  - rewrite upd_same. reflexivity.
  - intros i Hi. assert (tot d = 1 + Z.of_nat (length d)) by reflexivity. rewrite (upd_loc _ (erased s)) by lia.
    destruct (Z.eqb_spec (l + 1 + i) l); [exfalso; lia|]. pose proof (i_body _ _ I _ _ i T N2 Hi ltac:(lia)) as B. rewrite G in B. exact B.
  - exact Logic.I.
  - intros [X|X]; discriminate X.
  - discriminate.
  - discriminate.
Qed.

Lemma t_get : forall s g p l u, Inv s g -> at_ s p = G l ->
  Inv (step Q s (Go p u)) (upd g l Held).
Proof using Qpos.
  intros s g p l u I A. pose proof (i_pok _ _ I p) as P. rewrite A in P. cbn [pok] in P.
  destruct (own_task _ _ p l I) as [d T]; [rewrite A; reflexivity|].
  destruct (old_of _ _ _ _ I T ltac:(auto)) as [N1 [N2 N3]]. pose proof (tot_pos d) as TP.
  assert (HD : buf s (l mod Q) = tot d) by (rewrite (i_hdr _ _ I _ _ T) by lia; rewrite P; reflexivity).
  pose proof (i_in _ _ I _ _ T) as TI.
  unfold step, go. rewrite A. destruct (get_task Q (buf s) l u) as [m d'] eqn:GT.
  assert (M : forall y, erased s <= y < erased s + Q -> ~ (l + 1 <= y < l + tot d) -> m (y mod Q) = buf s (y mod Q)).
  { intros y Hy N. pose proof (get_task_buf (buf s) (erased s) l u y d HD N2 N3 Hy N) as X. rewrite GT in X. exact X. }
  apply (t_own s g p l d); auto; try (intro; exfalso; lia).
  - rewrite A. reflexivity.
  - intros y Hy N. apply M; [exact Hy|lia].
  - rewrite M by lia. exact HD.
  - intros i Hi. exact Logic.I.
  - cbn [pok]. apply upd_same.
  - intros l0 d0 [E|H]; [|left; exact H]. injection E as <- <-. right. split; [reflexivity|]. split; [|exact N1].
    intro W. rewrite (get_task_whole (buf s) l u d) in GT; [congruence| lia | exact HD | exact W |].
    intros i Hi. assert (tot d = 1 + Z.of_nat (length d)) by reflexivity.
    pose proof (i_body _ _ I _ _ i T N2 Hi ltac:(lia)) as B. rewrite P in B. exact B.
  - intros [X|X]; discriminate X.
  - intros l0 d0 E. injection E as <- _. split; [reflexivity|]. apply (i_finc _ _ I). exact P.
  - discriminate.
Qed.

Lemma upd_id : forall A (f : Z -> A) k v, f k = v -> forall x, upd f k v x = f x.
Proof using. intros A f k v E x. unfold upd. destruct (Z.eqb_spec x k) as [->|N]; congruence. Qed.

Lemma t_done : forall s g p l d' u, Inv s g -> at_ s p = W l d' ->
  Inv (step Q s (Go p u)) (upd g l Held).
Proof using Qpos.
  intros s g p l d' u I A. pose proof (i_pok _ _ I p) as P. rewrite A in P. cbn [pok] in P.
  destruct (own_task _ _ p l I) as [d T]; [rewrite A; reflexivity|].
  destruct (old_of _ _ _ _ I T ltac:(auto)) as [N1 [N2 N3]]. pose proof (tot_pos d) as TP.
  unfold step, go. rewrite A.
  apply (t_own s g p l d); auto; try (intro; exfalso; lia).
  - rewrite A. reflexivity.
  - rewrite (i_hdr _ _ I _ _ T) by lia. rewrite P. reflexivity.
  - intros i Hi. exact Logic.I.
  - cbn [pok finished]. rewrite upd_same. split; [reflexivity|left; reflexivity].
  - right. split; [reflexivity|]. split; [|exact N1]. eapply (i_find _ _ I); eauto.
  - intros [X|X]; discriminate X.
  - discriminate.
  - discriminate.
Qed.

Lemma t_wipe : forall s g p l u, Inv s g -> at_ s p = E0 l ->
  Inv (step Q s (Go p u)) (upd g l Wiped).
Proof using Qpos.
  intros s g p l u I A. pose proof (i_pok _ _ I p) as P. rewrite A in P. destruct P as [P F].
  destruct (own_task _ _ p l I) as [d T]; [rewrite A; reflexivity|].
  destruct (old_of _ _ _ _ I T ltac:(auto)) as [N1 [N2 N3]]. pose proof (tot_pos d) as TP.
  assert (HD : buf s (l mod Q) = tot d) by (rewrite (i_hdr _ _ I _ _ T) by lia; rewrite P; reflexivity).
  unfold step, go. rewrite A, HD. cbv zeta.
  apply (t_own s g p l d); auto; try (intro; exfalso; lia).
  - rewrite A. reflexivity.
  - intros y Hy N. rewrite (wipe_loc _ (erased s)) by lia. rng; try reflexivity. exfalso; lia.
  - rewrite (wipe_loc _ (erased s)) by lia. rng; try (exfalso; lia). exact HD.
  - intros i Hi. assert (tot d = 1 + Z.of_nat (length d)) by reflexivity. rewrite (wipe_loc _ (erased s)) by lia.
    rng; try (exfalso; lia). reflexivity.
  - cbn [pok finished task]. rewrite upd_same. split; [reflexivity|eauto].
  - discriminate.
  - discriminate.
Qed.

Lemma t_flag : forall s g p l n u, Inv s g -> at_ s p = E1 l n ->
  Inv (step Q s (Go p u)) (upd g l Flagged).
Proof using Qpos.
  intros s g p l n u I A. pose proof (i_pok _ _ I p) as P. rewrite A in P. destruct P as [P [d [T ->]]].
  destruct (old_of _ _ _ _ I T ltac:(auto)) as [N1 [N2 N3]]. pose proof (tot_pos d) as TP.
  unfold step, go. rewrite A.
  apply (t_own s g p l d); auto; try (intro; exfalso; lia).
  - rewrite A. reflexivity.
  - intros y Hy N. rewrite (upd_loc _ (erased s)) by lia. destruct (Z.eqb_spec y l); [exfalso; lia|reflexivity].
  - rewrite upd_same. reflexivity.
  - intros i Hi. assert (tot d = 1 + Z.of_nat (length d)) by reflexivity. rewrite (upd_loc _ (erased s)) by lia.
    destruct (Z.eqb_spec (l + 1 + i) l); [exfalso; lia|]. pose proof (i_body _ _ I _ _ i T N2 Hi ltac:(lia)) as B. rewrite P in B. exact B.
  - cbn [pok finished task]. right. rewrite upd_same. eauto.
  - intros _. apply (i_fina _ _ I). auto.
  - discriminate.
  - eauto.
Qed.

Lemma t_pick : forall s g p pk n u, Inv s g -> at_ s p = K4 pk n -> pick s = pk ->
  Inv (step Q s (Go p u)) (upd g pk Taken).
Proof using Qpos.
  intros s g p pk n u I A E. pose proof (i_pok _ _ I p) as P. rewrite A in P. destruct P as [_ P].
  destruct (P E) as [d [T [G ->]]]. clear P.
  unfold step, go. rewrite A. rewrite (proj2 (Z.eqb_eq _ _) E).
  pose proof (tot_pos d) as TP. pose proof (i_in _ _ I _ _ T) as TI.
  pose proof (i_room _ _ I _ _ T ltac:(congruence)) as RM.
  assert (GK : forall l', l' <> pk -> upd g pk Taken l' = g l') by (intros; apply upd_other; assumption).
  pose proof (i_order _ _ I) as OR.
  assert (NI : ~ In pk (picked s)) by (rewrite (i_picked _ _ I); lia).
  assert (NF : forall l, In l (finished s) -> l <> pk) by (intros l H; apply (i_finb _ _ I) in H; lia).
  assert (PU : forall l d', task s l = Some d' -> l < pk + tot d -> l < pk \/ l = pk).
  { intros l d' T' L. destruct (Z_lt_le_dec pk l) as [X|X]; [|lia]. pose proof (i_disj _ _ I _ _ _ _ T T' X). lia. }
  destruct I. constructor; cbn [ins pick erased buf at_ task picked got finished]; auto.
  - lia.
  - exact (i_next0 _ _ T).
  - intros l T'. rewrite GK; [auto|]. intro X. subst. congruence.
  - intros l d' T' L. destruct (PU _ _ T' L) as [X|X]; [rewrite GK by lia; apply (i_old0 _ _ T'); lia|subst l; rewrite upd_same; auto].
  - intros l d' T' L. rewrite GK by lia. apply (i_new0 _ _ T'). lia.
  - intros l d' T'. destruct (Z.eq_dec l pk) as [->|N]; [rewrite upd_same; split; [discriminate|lia]|rewrite GK by exact N; eauto].
  - intros l d' T'. destruct (Z.eq_dec l pk) as [->|N]; [|rewrite GK by exact N; eauto]. intros _. congruence.
  - intros l d' T' L. destruct (Z.eq_dec l pk) as [->|N]; [|rewrite GK by exact N; eauto]. rewrite upd_same, (i_hdr0 _ _ T' L), G. reflexivity.
  - intros l d' i T' L Hi W. destruct (Z.eq_dec l pk) as [->|N]; [|rewrite GK by exact N; eauto]. rewrite upd_same.
    pose proof (i_body0 _ _ i T' L Hi W) as B. rewrite G in B. exact B.
  - intros y Hy Z0. apply i_zero0; [exact Hy|]. intros q n E'. apply (Z0 q n). rewrite upd_other; [exact E'|].
    intro X. subst q. congruence.
  - intro q. match goal with |- pok ?s' ?g' _ => apply (upd_p s (pok s' g')) end; [cbn [pok]; apply upd_same|].
    intros q0 Nq. apply (pok_frame s) with (g := g); cbn [task pick ins erased finished]; auto; try lia.
    + intros l0 O0. apply GK. intro X. subst l0. specialize (i_pok0 q0). destruct (at_ s q0); cbn [own pok] in *; inversion O0; subst; try congruence; destruct i_pok0; congruence.
    + intros l0 F. left. rewrite GK; [exact F|]. intro X. subst. congruence.
  - apply own_upd; [exact i_own0|]. intros l0 O0. cbn [own] in O0. injection O0 as <-. right. intros q O0.
    specialize (i_pok0 q). destruct (at_ s q); cbn [own pok] in *; inversion O0; subst; try congruence; destruct i_pok0; congruence.
  - intro l. cbn [In]. rewrite i_picked0. unfold was_put. cbn [task]. split.
    + intros [<-|[[d' T'] L]]; [split; [eauto|lia]|split; [eauto|lia]].
    + intros [[d' T'] L]. destruct (PU _ _ T' L) as [X|X]; [right; split; [eauto|lia]|left; auto].
  - constructor; assumption.
  - intros l d' H. destruct (i_got0 _ _ H) as [d0 [T0 [X Y]]]. exists d0. split; [exact T0|]. split; [exact X|lia].
  - intros l. destruct (Z.eq_dec l pk) as [->|N]; [rewrite upd_same; intros [X|[X|X]]; discriminate X|]. rewrite GK by exact N. auto.
  - intros l H. destruct (i_finb0 _ H) as [[d' T'] L]. split; [exists d'; exact T'|lia].
  - intros l H. destruct (Z.eq_dec l pk) as [->|N]; [intro C; exact (NF _ C eq_refl)|]. rewrite GK in H by exact N. auto.
  - intros q l d'. unfold upd. destruct (q =? p); [discriminate|]. apply i_find0.
  - intros l H. destruct (Z.eq_dec l pk) as [->|N]; [exists p; rewrite upd_same; reflexivity|]. rewrite GK in H by exact N.
    destruct (i_has0 _ H) as [q Hq]. exists q. rewrite upd_other; [exact Hq|]. intro X. subst q. rewrite A in Hq. discriminate Hq.
  - intro F. destruct (Z.eq_dec (erased s) pk) as [X|N]; [rewrite X, upd_same in F; discriminate F|].
    rewrite GK in F by exact N. destruct (i_lead0 F) as [q Hq]. exists q. rewrite upd_other; [exact Hq|].
    intro X. subst q. rewrite A in Hq. exact Hq.
Qed.

Lemma t_adv : forall s g p l n u, Inv s g -> calm Q (step Q s (Go p u)) -> at_ s p = E2 l n -> erased s = l ->
  Inv (step Q s (Go p u)) (upd g l Passed).
Proof using Qpos.
  intros s g p l n u I C A E. pose proof (i_pok _ _ I p) as P. rewrite A in P. cbn [pok] in P.
  destruct P as [P|[d [T [G ->]]]]; [lia|].
  revert C. unfold step, go. rewrite A. rewrite (proj2 (Z.eqb_eq _ _) E). intro C.
  assert (CL : ins s < l + Q).
  { apply (C p l (tot d)). cbn [at_]. apply upd_same. }
  pose proof (tot_pos d) as TP. pose proof (i_in _ _ I _ _ T) as TI.
  pose proof (i_room _ _ I _ _ T ltac:(congruence)) as RM.
  assert (GK : forall l', l' <> l -> upd g l Passed l' = g l') by (intros; apply upd_other; assumption).
  pose proof (i_order _ _ I) as OR.
  assert (LP : l < pick s).
  { destruct (Z_lt_le_dec l (pick s)) as [X|X]; [exact X|]. destruct (i_new _ _ I _ _ T X) as [Y|[Y|Y]]; congruence. }
  assert (LP' : l + tot d <= pick s).
  { destruct (i_pick _ _ I) as [X|[d' X]]; [lia|]. apply (i_disj _ _ I _ _ _ _ T X LP). }
  assert (PU : forall l' d', task s l' = Some d' -> l' < l + tot d -> l' < l \/ l' = l).
  { intros l' d' T' L. destruct (Z_lt_le_dec l l') as [X|X]; [|lia]. pose proof (i_disj _ _ I _ _ _ _ T T' X). lia. }
  (* A location that enters the window is a word of the erased task. *)
  assert (NW : forall y, erased s + Q <= y < l + tot d + Q -> y <> l + Q -> buf s (y mod Q) = 0).
  { intros y Hy N. pose proof (i_body _ _ I _ _ (y - Q - l - 1) T ltac:(lia) ltac:(unfold tot in *; lia) ltac:(lia)) as B.
    rewrite G in B. cbn [body_ok] in B. rewrite <- B. f_equal. replace y with (y - Q + 1 * Q) at 1 by lia. rewrite Z_mod_plus_full. f_equal. lia. }
  destruct I. constructor; cbn [ins pick erased buf at_ task picked got finished]; auto.
  - lia.
  - exact (i_next0 _ _ T).
  - intros l' T'. rewrite GK; [auto|]. intro X. subst. congruence.
  - intros l' d' T' L. destruct (Z.eq_dec l' l) as [->|N]; [rewrite upd_same; tauto|rewrite GK by exact N; eauto].
  - intros l' d' T' L. rewrite GK by lia. eauto.
  - intros l' d' T'. destruct (Z.eq_dec l' l) as [->|N]; [rewrite upd_same; split; [lia|auto]|rewrite GK by exact N].
    rewrite (i_pass0 _ _ T'). split; intro L; [lia|]. destruct (PU _ _ T' L); [lia|contradiction].
  - intros l' d' T'. destruct (Z.eq_dec l' l) as [->|N].
    + intros _. assert (d' = d) by congruence. subst d'. lia.
    + rewrite GK by exact N. intro X. pose proof (i_room0 _ _ T' X). lia.
  - intros l' d' T' L. rewrite GK by lia. pose proof (i_in0 _ _ T'). pose proof (tot_pos d').
    apply (i_hdr0 _ _ T'). lia.
  - intros l' d' i T' L Hi W. rewrite GK by lia. pose proof (i_in0 _ _ T'). apply (i_body0 _ _ _ T'); try lia. unfold tot in *. lia.
  - intros y Hy Z0. destruct (Z_lt_le_dec y (erased s + Q)) as [L|L].
    + apply i_zero0; [lia|]. intros q n E'. apply (Z0 q n). rewrite upd_other; [exact E'|]. intro X. subst q. congruence.
    + apply NW; [lia|]. intro X. apply (Z0 p (tot d)). rewrite upd_same. f_equal. lia.
  - intro q. match goal with |- pok ?s' ?g' _ => apply (upd_p s (pok s' g')) end; [cbn [pok erased]; lia|].
    intros q0 Nq. apply (pok_frame s) with (g := g); cbn [task pick ins erased finished]; auto; try lia.
    + intros l0 O0. apply GK. intro X. subst l0. specialize (i_pok0 q0). destruct (at_ s q0); cbn [own pok] in *; inversion O0; subst; try congruence; destruct i_pok0; congruence.
    + intros _ l0 F. rewrite GK; [exact F|]. intro X. subst. congruence.
    + intros l0 F. destruct (Z.eq_dec l0 l) as [->|N]; [right; lia|left; rewrite GK by exact N; exact F].
  - apply own_upd; [exact i_own0|]. discriminate.
  - intros l'. destruct (Z.eq_dec l' l) as [->|N]; [|rewrite GK by exact N; auto]. intros _. auto.
  - intros l' H. destruct (Z.eq_dec l' l) as [->|N]; [rewrite upd_same in H; discriminate H|]. rewrite GK in H by exact N. auto.
  - intros q l' d'. unfold upd. destruct (q =? p); [discriminate|]. apply i_find0.
  - intros l' H. destruct (Z.eq_dec l' l) as [->|N]; [rewrite upd_same in H; exfalso; intuition discriminate|]. rewrite GK in H by exact N.
    destruct (i_has0 _ H) as [q Hq]. exists q. rewrite upd_other; [exact Hq|]. intro X. subst q. rewrite A in Hq. discriminate Hq.
  - intros _. exists p. rewrite upd_same. reflexivity.
Qed.

Lemma t_clear : forall s g p l n u, Inv s g -> calm Q s -> at_ s p = E3 l n ->
  Inv (step Q s (Go p u)) g.
Proof using Qpos.
  intros s g p l n u I C A. pose proof (C _ _ _ A) as CL. pose proof (i_pok _ _ I p) as P. rewrite A in P. cbn [pok] in P.
  unfold step, go. rewrite A.
  assert (AD : forall y, erased s <= y < erased s + Q -> y <> l + Q -> upd (buf s) (l mod Q) 0 (y mod Q) = buf s (y mod Q)).
  { intros y Hy N. apply upd_other. intro X. apply N. pose proof (i_order _ _ I).
    eapply (mod_inj (erased s)); [lia|lia|]. rewrite X. replace (l + Q) with (l + 1 * Q) by lia. rewrite Z_mod_plus_full. reflexivity. }
  destruct I. constructor; cbn [setb ins pick erased buf at_ task picked got finished]; auto.
  - intros l' d' T' L. rewrite AD; [auto|exact L|]. pose proof (i_in0 _ _ T'). pose proof (tot_pos d'). lia.
  - intros l' d' i T' L Hi W. pose proof (i_in0 _ _ T'). rewrite AD; [auto|lia|]. unfold tot in *. lia.
  - intros y Hy Z0. destruct (Z.eq_dec y (l + Q)) as [->|N].
    + replace (l + Q) with (l + 1 * Q) by lia. rewrite Z_mod_plus_full. apply upd_same.
    + rewrite AD by (try assumption; lia). apply i_zero0; [exact Hy|]. intros q k E'. apply (Z0 q k). rewrite upd_other; [exact E'|].
      intro X. subst q. rewrite A in E'. inversion E'. lia.
  - intro q. match goal with |- pok ?s' ?g' _ => apply (upd_p s (pok s' g')) end; [cbn [pok setb erased]; lia|].
    intros q0 Nq. apply (pok_frame s) with (g := g); cbn [setb task pick ins erased finished]; auto; try lia.
  - apply own_upd; [exact i_own0|]. discriminate.
  - intros q l' d'. unfold upd. destruct (q =? p); [discriminate|]. apply i_find0.
  - intros l' H. destruct (i_has0 _ H) as [q Hq]. exists q. rewrite upd_other; [exact Hq|]. intro X. subst q. rewrite A in Hq. discriminate Hq.
  - intro F. destruct (i_lead0 F) as [q Hq]. destruct (Z.eq_dec q p) as [->|Nq].
    + exists p. rewrite upd_same. rewrite A in Hq. exact Hq.
    + exists q. rewrite upd_other by exact Nq. exact Hq.
Qed.

Lemma inv_step : forall s g o, Inv s g -> calm Q s -> calm Q (step Q s o) -> exists g', Inv (step Q s o) g'.
Proof using Qpos Qsmall.
  intros s g o I C C'. pose proof (i_order _ _ I) as OR. destruct o as [p d|p|p u].
  - destruct (at_ s p) eqn:A; try (exists g; cbn [step]; rewrite A; exact I). eapply t_put; eauto.
  - exists g. cbn [step]. destruct (at_ s p) eqn:A; try exact I.
    apply t_setp; try (rewrite A); try discriminate; try exact I; try reflexivity. { cbn [pok]. lia. } intros _ [].
  - pose proof (i_pok _ _ I p) as P. destruct (at_ s p) eqn:A.
    + exists g. unfold step, go. rewrite A. exact I.
    + unfold step, go. rewrite A. destruct (Z.gtb_spec (l + tot d) (erased s + Q)) as [L|L]; [exists g; exact I|].
      eexists. apply t_copy; eauto.
    + unfold step, go. rewrite A. eexists. apply t_publish; eauto.
    + exists g. unfold step, go. rewrite A. cbn [pok] in P. apply t_setp; try (rewrite A); try discriminate; try exact I; try reflexivity.
      { cbn [pok]. lia. } intros _ [].
    + exists g. unfold step, go. rewrite A. cbn [pok] in P. apply t_setp; try (rewrite A); try discriminate; try exact I; try reflexivity.
      { cbn [pok]. lia. } intros _ [].
    + exists g. unfold step, go. rewrite A. destruct P as [P1 [P2 P3]].
      assert (X : Inv (setp s p Idle) g).
      { apply t_setp; try (rewrite A); try discriminate; try exact I; try reflexivity; try (intros _ []); exact Logic.I. }
      destruct (Z.geb_spec pk i); [exact X|]. destruct (Z.geb_spec (pk + 1) (er + Q)); [exact X|].
      destruct (Z.eqb_spec (buf s (pk mod Q)) 0) as [Z0|N0]; [exact X|]. clear X.
      apply t_setp; try (rewrite A); try discriminate; try exact I; try reflexivity; try (intros _ []).
      cbn [pok]. split; [exact P1|]. intro E. destruct (i_pick _ _ I) as [Y|[d T]]; [lia|]. rewrite E in T.
      exists d. split; [exact T|]. pose proof (i_hdr _ _ I _ _ T ltac:(lia)) as HD.
      destruct (i_new _ _ I _ _ T ltac:(lia)) as [G|[G|G]]; rewrite G in HD; cbn [hdr] in HD; [contradiction|contradiction|auto].
    + destruct (Z.eq_dec (pick s) pk) as [E|N]; [eexists; eapply t_pick; eauto|].
      exists g. unfold step, go. rewrite A. rewrite (proj2 (Z.eqb_neq _ _) N).
      apply t_setp; try (rewrite A); try discriminate; try exact I; try reflexivity; try (intros _ []). cbn [pok]. lia.
    + eexists. eapply t_get; eauto.
    + eexists. eapply t_done; eauto.
    + eexists. eapply t_wipe; eauto.
    + eexists. eapply t_flag; eauto.
    + destruct (Z.eq_dec (erased s) l) as [E|N]; [eexists; eapply t_adv; eauto|].
      exists g. unfold step, go. rewrite A. rewrite (proj2 (Z.eqb_neq _ _) N).
      apply t_setp; try (rewrite A); try discriminate; try exact I; try reflexivity; try exact Logic.I.
      intros _ X. cbn [comes] in X. congruence.
    + eexists. eapply t_clear; eauto.
    + exists g. unfold step, go. rewrite A. cbn [pok] in P.
      assert (HD : erased s = l -> (g l = Flagged -> is_erased (buf s (l mod Q)) = true) /\
                (is_erased (buf s (l mod Q)) = true -> exists d, task s l = Some d /\ g l = Flagged /\ buf s (l mod Q) = tot d + LENGTH_ERASED_FLAG)).
      { intro E. destruct (i_er _ _ I) as [Y|[d T]].
        - split.
          + intro G. rewrite i_free with (s := s) in G; [discriminate G|exact I|]. destruct (task s l) as [d|] eqn:T; [|reflexivity].
            pose proof (i_in _ _ I _ _ T). pose proof (tot_pos d). lia.
          + rewrite (i_zero _ _ I l); [discriminate|lia|]. intros q n E'. pose proof (C _ _ _ E'). lia.
        - rewrite E in T. rewrite (i_hdr _ _ I _ _ T) by lia.
          assert (SM : g l <> Reserved -> tot d < LENGTH_ERASED_FLAG) by (intro Y; pose proof (i_room _ _ I _ _ T Y); lia).
          pose proof (tot_pos d) as TP. unfold is_erased. split.
          + intros ->. cbn [hdr]. lia.
          + intro Y. destruct (g l) eqn:G; cbn [hdr] in Y; try discriminate Y; try (assert (tot d < LENGTH_ERASED_FLAG) by (apply SM; discriminate); lia).
            exists d. auto. }
      destruct (is_erased (buf s (l mod Q))) eqn:F.
      * apply t_setp; try (rewrite A); try discriminate; try exact I; try reflexivity.
        -- cbn [pok]. destruct (Z.eq_dec (erased s) l) as [E|N]; [|left; lia]. right.
           destruct (proj2 (HD E) eq_refl) as [d [T [G B]]]. exists d. split; [exact T|]. split; [exact G|]. rewrite B. lia.
        -- intros _ X. exact X.
      * apply t_setp; try (rewrite A); try discriminate; try exact I; try reflexivity; try exact Logic.I.
        intros G X. cbn [comes] in X. subst l. destruct (HD eq_refl) as [Y _]. discriminate (Y G).
Qed.

Lemma inv_run : forall ops, always (calm Q) (step Q) init ops -> exists g, Inv (run (step Q) init ops) g.
Proof using Qpos Qsmall.
  intros ops H.
  assert (X : forall ops s g, Inv s g -> always (calm Q) (step Q) s ops -> exists g', Inv (run (step Q) s ops) g').
  { clear ops H. induction ops as [|o ops IH]; intros s g I H; [exists g; exact I|].
    destruct H as [C H]. assert (C' : calm Q (step Q s o)) by (destruct ops; apply H).
    destruct (inv_step s g o I C C') as [g' I']. exact (IH _ g' I' H). }
  exact (X ops init _ inv_init H).
Qed.
End QueueProofs.
