(** Proof of C34: an abstract run of a log (who wrote what and is not settled yet)
    and the simulation by the replaying process. *)
From Coq Require Import ZArith List Bool Lia.
From Coq Require Import ZifyBool ZifyNat.
From Verif Require Import Base RecSpec RecModel.
Import ListNotations.
Open Scope Z_scope.

Arguments serial : simpl never.

Inductive witem := WMod (k : key) (v : option Z) | WSub (p : Z).

Record ast := mkAst {
  a_w : oxid -> list witem;
  a_fin : oxid -> bool;
  a_done : list (oxid * list write);
  a_joint : list (oxid * Z);
  a_hd : Z -> bool
}.

Definition ainit : ast := mkAst (fun _ => []) (fun _ => false) [] [] (fun _ => false).

Fixpoint mods (w : list witem) : list write :=
  match w with
  | [] => []
  | WMod k v :: r => (k, v) :: mods r
  | WSub _ :: r => mods r
  end.

Fixpoint wk (ws : list write) (k : key) : list (option Z) :=
  match ws with
  | [] => []
  | (k', v) :: r => if k' =? k then v :: wk r k else wk r k
  end.

Fixpoint drop_sub (w : list witem) : list witem :=
  match w with
  | [] => []
  | WSub _ :: r => r
  | _ :: r => drop_sub r
  end.

Fixpoint first_sub (w : list witem) : option Z :=
  match w with
  | [] => None
  | WSub p :: _ => Some p
  | _ :: r => first_sub r
  end.

Definition erase (i : witem) : uitem := match i with WMod k _ => UMod k | WSub p => USub p end.

Definition afinish (a : ast) (x : oxid) (c : bool) : ast :=
  mkAst (upd (a_w a) x []) (upd (a_fin a) x true)
        (if c then a_done a ++ [(x, mods (a_w a x))] else a_done a)
        (filter (fun e => negb (fst e =? x)) (a_joint a)) (a_hd a).

Definition set_w (a : ast) x w := mkAst (upd (a_w a) x w) (a_fin a) (a_done a) (a_joint a) (a_hd a).

Definition astep (a : ast) (r : lrec) : ast :=
  match r with
  | LMod x k v => set_w a x (WMod k v :: a_w a x)
  | LSave x p => set_w a x (WSub p :: a_w a x)
  | LRb x p => set_w a x (if p =? 0 then [] else drop_sub (a_w a x))
  | LCommit x => if a_fin a x then a else afinish a x true
  | LRollback x => if a_fin a x then a else afinish a x false
  | LJoint x h => mkAst (a_w a) (a_fin a) (a_done a) (a_joint a ++ [(x, h)]) (a_hd a)
  | LHeap h c =>
      let b := fold_left (fun a e => if snd e =? h then afinish a (fst e) c else a) (a_joint a) a in
      mkAst (a_w b) (a_fin b) (a_done b) (a_joint b) (upd (a_hd b) h true)
  end.

Definition arun (a : ast) (l : list lrec) : ast := fold_left astep l a.

Definition aok (a : ast) (r : lrec) : Prop :=
  match r with
  | LMod x k v => a_fin a x = false /\ forall y, y <> x -> wk (mods (a_w a y)) k = []
  | LSave x p => a_fin a x = false
  | LRb x p => a_fin a x = false /\ (p = 0 \/ first_sub (a_w a x) = Some p)
  | LJoint x h => a_fin a x = false /\ a_hd a h = false /\ forall e, In e (a_joint a) -> fst e <> x
  | _ => True
  end.

Fixpoint wfl (a : ast) (l : list lrec) : Prop :=
  match l with [] => True | r :: t => aok a r /\ wfl (astep a r) t end.

Lemma wfl_app : forall l1 l2 a, wfl a (l1 ++ l2) <-> wfl a l1 /\ wfl (arun a l1) l2.
Proof.
  induction l1 as [|r l1 IH]; intros; cbn; [tauto|].
  rewrite IH. tauto.
Qed.

Lemma arun_app : forall l1 l2 a, arun a (l1 ++ l2) = arun (arun a l1) l2.
Proof. intros. apply fold_left_app. Qed.

(** ** The simulation *)
Definition tl_ok (st : oxid -> Z) (tl : row) : Prop :=
  forall e y, In e tl -> fst e = Some y -> st y = 2.

Definition row_ok (db0 : key -> option Z) (a : ast) (st : oxid -> Z) (k : key) (r : row) : Prop :=
  exists x tl,
    r = map (fun v => (Some x, v)) (wk (mods (a_w a x)) k) ++ tl /\
    (forall y, y <> x -> wk (mods (a_w a y)) k = []) /\
    row_value tl = serial (fun _ => true) (a_done a) db0 k /\
    tl_ok st tl.

Record sim (db0 : key -> option Z) (a : ast) (s : rst) : Prop := {
  sim_stuck : r_stuck s = false;
  sim_undo : forall x, r_undo s x = map erase (a_w a x);
  sim_ck : forall x, r_ck s x = [];
  sim_st : forall x, r_st s x = 0 \/ r_st s x = 1 \/ r_st s x = 2;
  sim_fin : forall x, r_st s x = 2 <-> a_fin a x = true;
  sim_w : forall x, a_w a x <> [] -> r_st s x = 1;
  sim_known : forall x, r_st s x = 1 -> In x (r_known s);
  sim_joint : r_joint s = a_joint a;
  sim_row : forall k, row_ok db0 a (r_st s) k (r_rows s k)
}.

Lemma serial_app : forall d a b db, serial d (a ++ b) db = serial d b (serial d a db).
Proof. intros. apply fold_left_app. Qed.

Lemma sim_init : forall db0, sim db0 ainit (rinit db0).
Proof.
  intros. constructor; cbn; auto; try (intros; split; discriminate).
  - intros. contradiction.
  - intros; discriminate.
  - intros k. exists 0, (base_row (db0 k)). split; [|split; [|split]]; cbn; auto.
    + unfold base_row, serial. cbn. destruct (db0 k); reflexivity.
    + unfold tl_ok, base_row. destruct (db0 k); cbn; intros e y Hin He; [|contradiction].
      destruct Hin as [<-|[]]. discriminate.
Qed.

Lemma sim_touch : forall db0 a s x, sim db0 a s ->
  sim db0 a (touch s x) /\ (r_st (touch s x) x = 1 \/ r_st (touch s x) x = 2) /\
  (a_fin a x = false -> r_st (touch s x) x = 1).
Proof.
  intros db0 a s x H. unfold touch. destruct (Z.eqb_spec (r_st s x) 0) as [E|E].
  - split; [|cbn; rewrite upd_same; auto].
    constructor; cbn; try (apply H).
    + intros y. unfold upd. destruct (Z.eqb_spec y x); auto. apply H.
    + intros y. unfold upd. destruct (Z.eqb_spec y x) as [->|]; [|apply H].
      split; intros Q; [discriminate|]. apply (sim_fin _ _ _ H) in Q. congruence.
    + intros y Hy. unfold upd. destruct (Z.eqb_spec y x); auto. apply H; auto.
    + intros y. unfold upd. destruct (Z.eqb_spec y x) as [->|]; auto. intros. right. apply H; auto.
    + intros k. destruct (sim_row _ _ _ H k) as (z & tl & A & B & C & D).
      exists z, tl. repeat split; auto. intros e y He Hy. specialize (D e y He Hy).
      unfold upd. destruct (Z.eqb_spec y x) as [->|]; auto. congruence.
  - split; auto. split; [destruct (sim_st _ _ _ H x) as [?|[?|?]]; auto; contradiction|].
    intros F. destruct (sim_st _ _ _ H x) as [?|[?|?]]; auto; [contradiction|].
    apply (sim_fin _ _ _ H) in H0. congruence.
Qed.

(** Popping. *)
Fixpoint cnt (us : list uitem) (k : key) : nat :=
  match us with
  | [] => O
  | UMod k' :: r => if k' =? k then S (cnt r k) else cnt r k
  | USub _ :: r => cnt r k
  end.

Fixpoint popn (x : oxid) (n : nat) (r : row) : row :=
  match n with O => r | S m => popn x m (pop_row x r) end.

Lemma pop_items_at : forall x us rows k, pop_items x us rows k = popn x (cnt us k) (rows k).
Proof.
  intros x us. induction us as [|u us IH]; intros; cbn; auto.
  unfold pop_items in *. cbn. rewrite IH. destruct u as [k'|p]; cbn; auto.
  unfold upd. destruct (Z.eqb_spec k k') as [->|N].
  - rewrite Z.eqb_refl. reflexivity.
  - destruct (Z.eqb_spec k' k); [congruence|reflexivity].
Qed.

Lemma cnt_erase : forall w k, cnt (map erase w) k = length (wk (mods w) k).
Proof.
  induction w as [|i w IH]; intros; cbn; auto. destruct i; cbn; auto.
  destruct (k0 =? k); cbn; auto.
Qed.

Lemma popn_block : forall x vs ws tl,
  popn x (length vs) (map (fun v => (Some x, v)) (vs ++ ws) ++ tl) = map (fun v => (Some x, v)) ws ++ tl.
Proof. induction vs as [|v vs IH]; intros; cbn; auto. rewrite Z.eqb_refl. apply IH. Qed.

Lemma pop_w : forall db0 a st x k r w1 w2, row_ok db0 a st k r ->
  mods (a_w a x) = mods w1 ++ mods w2 ->
  forall a', a_done a' = a_done a -> (forall y, y <> x -> a_w a' y = a_w a y) ->
  mods (a_w a' x) = mods w2 ->
  row_ok db0 a' st k (popn x (length (wk (mods w1) k)) r).
Proof.
  intros db0 a st x k r w1 w2 (z & tl & A & B & C & D) E a' Hd Ho Hx.
  assert (wkapp : forall u v, wk (u ++ v) k = wk u k ++ wk v k).
  { induction u as [|[k' v'] u IHu]; intros; cbn; auto. destruct (k' =? k); cbn; rewrite IHu; auto. }
  destruct (Z.eq_dec z x) as [->|N].
  - exists x, tl. rewrite A, E, wkapp, popn_block, Hx, Hd. repeat split; auto.
    intros y Hy. rewrite Ho; auto.
  - specialize (B x (not_eq_sym N)) as Bx. rewrite E, wkapp in Bx.
    apply app_eq_nil in Bx as [B1 B2]. rewrite B1. cbn.
    exists z, tl. rewrite Hd, Ho by auto. repeat split; auto.
    intros y Hy. destruct (Z.eq_dec y x) as [->|M]; [rewrite Hx; auto|rewrite Ho; auto].
Qed.

Lemma wk_last : forall ws k db, apply_writes ws db k = match wk ws k with [] => db k | v :: _ => v end.
Proof.
  intros. unfold apply_writes. induction ws as [|[k' v] ws IH]; cbn; auto.
  destruct (k' =? k); auto.
Qed.

(** Settling a transaction keeps the simulation. *)
Lemma sim_finish : forall db0 a s x c, sim db0 a s -> sim db0 (afinish a x c) (finish_oxid s x c).
Proof.
  intros db0 a s x c H. constructor; cbn.
  - apply H.
  - intros y. unfold upd. destruct (y =? x); auto. apply H.
  - intros y. unfold upd. destruct (y =? x); auto. apply H.
  - intros y. unfold upd. destruct (y =? x); auto. apply H.
  - intros y. unfold upd. destruct (y =? x); [tauto|]. apply H.
  - intros y. unfold upd. destruct (y =? x); [contradiction|]. apply H.
  - intros y. unfold upd. destruct (y =? x); [discriminate|]. apply H.
  - rewrite (sim_joint _ _ _ H). reflexivity.
  - intros k. rewrite (sim_ck _ _ _ H). cbn.
    destruct c.
    + destruct (sim_row _ _ _ H k) as (z & tl & A & B & C & D). rewrite A.
      destruct (Z.eq_dec z x) as [->|N].
      * exists x, (map (fun v => (Some x, v)) (wk (mods (a_w a x)) k) ++ tl).
        cbn. rewrite upd_same. cbn. split; [reflexivity|]. split; [|split].
        -- intros y Hy. rewrite upd_other by auto. apply B; auto.
        -- rewrite serial_app. unfold serial at 1. cbn [fold_left fst snd]; cbv beta iota. rewrite wk_last.
           destruct (wk (mods (a_w a x)) k); cbn; auto.
        -- intros e y He Hy. apply in_app_or in He as [He|He].
           ++ apply in_map_iff in He as (v & <- & _). cbn in Hy. injection Hy as <-. apply upd_same.
           ++ unfold upd. destruct (y =? x); auto. eapply D; eauto.
      * exists z, tl. cbn. rewrite upd_other by auto. split; [reflexivity|]. split; [|split].
        -- intros y Hy. unfold upd. destruct (y =? x); auto.
        -- rewrite serial_app. unfold serial at 1. cbn [fold_left fst snd]; cbv beta iota. rewrite wk_last.
           rewrite (B x) by auto. auto.
        -- intros e y He Hy. unfold upd. destruct (y =? x); auto. eapply D; eauto.
    + rewrite pop_items_at, (sim_undo _ _ _ H), cnt_erase.
      assert (R : row_ok db0 (afinish a x false) (r_st s) k
                (popn x (length (wk (mods (a_w a x)) k)) (r_rows s k))).
      { eapply (pop_w _ a _ x _ _ (a_w a x) []); [apply H|cbn; rewrite app_nil_r; auto|reflexivity| |].
        - intros y Hy. cbn. apply upd_other; auto.
        - cbn. rewrite upd_same. reflexivity. }
      destruct R as (z & tl & A & B & C & D). exists z, tl. repeat split; auto.
      intros e y He Hy. unfold upd. destruct (y =? x); auto. eapply D; eauto.
Qed.

Lemma sim_heap : forall db0 h c js a s, sim db0 a s ->
  sim db0 (fold_left (fun a e => if snd e =? h then afinish a (fst e) c else a) js a)
          (fold_left (fun s e => if snd e =? h then finish_oxid s (fst e) c else s) js s).
Proof.
  induction js as [|e js IH]; intros; cbn; auto.
  apply IH. destruct (snd e =? h); auto. apply sim_finish; auto.
Qed.

Lemma sim_hd : forall db0 a s f, sim db0 a s ->
  sim db0 (mkAst (a_w a) (a_fin a) (a_done a) (a_joint a) f) s.
Proof. intros db0 a s f H. constructor; cbn; try apply H. Qed.

Lemma split_tail_ok : forall w p, first_sub w = Some p ->
  exists w1, split_tail (map erase w) p = (map erase (w1 ++ [WSub p]), map erase (drop_sub w)) /\
             mods w = mods w1 ++ mods (drop_sub w).
Proof.
  induction w as [|i w IH]; cbn; intros p E; [discriminate|]. destruct i as [k v|q]; cbn.
  - destruct (IH p E) as (w1 & A & B). exists (WMod k v :: w1). rewrite A. cbn. rewrite B. auto.
  - injection E as ->. rewrite Z.eqb_refl. exists []. auto.
Qed.

Lemma mods_app : forall a b, mods (a ++ b) = mods a ++ mods b.
Proof. induction a as [|[k v|p] a IH]; intros; cbn; auto. rewrite IH; auto. Qed.

Lemma ck_rollback_nil : forall s x p, (forall y, r_ck s y = []) ->
  let t := ck_rollback s x p in
  r_rows t = r_rows s /\ r_undo t = r_undo s /\ (forall y, r_ck t y = []) /\ r_st t = r_st s /\
  r_known t = r_known s /\ r_joint t = r_joint s /\ r_stuck t = r_stuck s.
Proof.
  intros s x p H. cbv zeta. unfold ck_rollback. rewrite H. cbn.
  destruct (p =? 0); cbn; repeat split; auto; intros y; unfold upd; destruct (y =? x); auto.
Qed.

Lemma sim_setw : forall db0 a s x w rows undo s', sim db0 a s -> r_st s x = 1 ->
  r_rows s' = rows -> r_undo s' = undo -> (forall y, r_ck s' y = []) ->
  r_st s' = r_st s -> r_known s' = r_known s -> r_joint s' = r_joint s -> r_stuck s' = r_stuck s ->
  (forall y, undo y = upd (r_undo s) x (map erase w) y) ->
  (forall k, row_ok db0 (set_w a x w) (r_st s) k (rows k)) ->
  sim db0 (set_w a x w) s'.
Proof.
  intros db0 a s x w rows undo s' H Hst E1 E2 E3 E4 E5 E6 E7 HU HR.
  constructor; cbn; rewrite ?E1, ?E2, ?E4, ?E5, ?E6, ?E7; try (apply H); auto.
  - intros y. rewrite HU. unfold upd. destruct (y =? x); auto. apply H.
  - intros y. unfold upd. destruct (Z.eqb_spec y x) as [->|]; auto. apply H.
Qed.

Lemma sim_step : forall db0 a s r, sim db0 a s -> aok a r -> sim db0 (astep a r) (rstep s r).
Proof.
  intros db0 a s r H Hok. unfold rstep. rewrite (sim_stuck _ _ _ H).
  destruct r as [x k v|x p|x p|x|x|x h|h c]; cbn [astep]; cbv zeta.
  - destruct Hok as [Hf Ho]. destruct (sim_touch db0 a s x H) as (H1 & _ & H2).
    specialize (H2 Hf). set (t := touch s x) in *. rewrite H2. cbn [Z.eqb].
    replace (conflicts t x (r_rows t k)) with false.
    + apply (sim_setw db0 a t x _ (upd (r_rows t) k ((Some x, v) :: r_rows t k))
               (upd (r_undo t) x (UMod k :: r_undo t x))); auto.
      * apply H1.
      * intros y. unfold upd. destruct (y =? x); auto. cbn. rewrite (sim_undo _ _ _ H1). auto.
      * intros k'. destruct (Z.eq_dec k' k) as [->|N].
        -- rewrite upd_same. destruct (sim_row _ _ _ H1 k) as (z & tl & A & B & C & D).
           assert (A' : r_rows t k = map (fun v => (Some x, v)) (wk (mods (a_w a x)) k) ++ tl).
           { destruct (Z.eq_dec z x) as [->|N]; auto.
             rewrite A, (B x), (Ho z) by auto. reflexivity. }
           exists x, tl. cbn. rewrite upd_same. cbn. rewrite Z.eqb_refl, A'. repeat split; auto.
           intros y Hy. rewrite upd_other by auto. auto.
        -- rewrite upd_other by auto. destruct (sim_row _ _ _ H1 k') as (z & tl & A & B & C & D).
           assert (W : forall y, wk (mods (a_w (set_w a x (WMod k v :: a_w a x)) y)) k' = wk (mods (a_w a y)) k').
           { intros y. cbn. unfold upd. destruct (Z.eqb_spec y x) as [->|]; auto. cbn.
             destruct (Z.eqb_spec k k'); [congruence|auto]. }
           exists z, tl. rewrite W. repeat split; auto. intros y Hy. rewrite W; auto.
    + symmetry. destruct (sim_row _ _ _ H1 k) as (z & tl & A & B & C & D). rewrite A.
      destruct (wk (mods (a_w a z)) k) eqn:E; cbn.
      * destruct tl as [|[o w] tl]; cbn; auto. destruct o as [y|]; cbn; auto.
        rewrite (D (Some y, w) y) by (cbn; auto). reflexivity.
      * destruct (Z.eq_dec z x) as [->|N]; [rewrite Z.eqb_refl; cbn; apply andb_false_r|].
        rewrite Ho in E by auto. discriminate.
  - destruct (sim_touch db0 a s x H) as (H1 & _ & H2).
    specialize (H2 Hok). set (t := touch s x) in *. rewrite H2. cbn [Z.eqb].
    destruct (ck_rollback_nil t x p (sim_ck _ _ _ H1)) as (E1 & E2 & E3 & E4 & E5 & E6 & E7).
    apply (sim_setw db0 a t x _ (r_rows t) (upd (r_undo t) x (USub p :: r_undo t x))); auto;
      cbn; rewrite ?E1, ?E2, ?E4, ?E5, ?E6, ?E7; auto.
    + intros y. unfold upd. destruct (y =? x); auto. cbn. rewrite (sim_undo _ _ _ H1). auto.
    + intros k'. destruct (sim_row _ _ _ H1 k') as (z & tl & A & B & C & D).
      assert (W : forall y, wk (mods (a_w (set_w a x (WSub p :: a_w a x)) y)) k' = wk (mods (a_w a y)) k').
      { intros y. cbn. unfold upd. destruct (Z.eqb_spec y x) as [->|]; auto. }
      exists z, tl. rewrite W. repeat split; auto. intros y Hy. rewrite W; auto.
  - destruct Hok as [Hf Ho]. destruct (sim_touch db0 a s x H) as (H1 & _ & H2).
    specialize (H2 Hf). set (t := touch s x) in *. rewrite H2. cbn [Z.eqb].
    rewrite (sim_undo _ _ _ H1).
    set (w' := if p =? 0 then [] else drop_sub (a_w a x)).
    assert (Q : exists w1 : list witem,
              (if p =? 0 then (map erase (a_w a x), []) else split_tail (map erase (a_w a x)) p) =
              (map erase w1, map erase w') /\
              mods (a_w a x) = mods w1 ++ mods w').
    { unfold w'. destruct (Z.eqb_spec p 0) as [->|N].
      - exists (a_w a x). cbn. rewrite app_nil_r. auto.
      - destruct Ho as [?|Ho]; [contradiction|].
        destruct (split_tail_ok _ _ Ho) as (w1 & A & B). exists (w1 ++ [WSub p]).
        rewrite A, mods_app. cbn. rewrite app_nil_r. auto. }
    destruct Q as (w1 & -> & Q).
    set (u := set_undo (set_rows t (pop_items x (map erase w1) (r_rows t))) (upd (r_undo t) x (map erase w'))).
    destruct (ck_rollback_nil u x p (sim_ck _ _ _ H1)) as (E1 & E2 & E3 & E4 & E5 & E6 & E7).
    apply (sim_setw db0 a t x _ (r_rows u) (r_undo u)); auto.
    intros k'. cbn [r_rows u set_undo set_rows].
    rewrite pop_items_at, cnt_erase.
    eapply (pop_w _ a _ x _ _ w1 w'); [apply H1|auto|reflexivity| |].
    + intros y Hy. cbn. apply upd_other; auto.
    + cbn. rewrite upd_same. reflexivity.
  - destruct (sim_touch db0 a s x H) as (H1 & H2 & H3). destruct (a_fin a x) eqn:F.
    + apply (sim_fin _ _ _ H1) in F. rewrite F. cbn. auto.
    + rewrite H3 by auto. cbn [Z.eqb]. apply sim_finish; auto.
  - destruct (sim_touch db0 a s x H) as (H1 & H2 & H3). destruct (a_fin a x) eqn:F.
    + apply (sim_fin _ _ _ H1) in F. rewrite F. cbn. auto.
    + rewrite H3 by auto. cbn [Z.eqb]. apply sim_finish; auto.
  - destruct Hok as (Hf & Hh & Hj). destruct (sim_touch db0 a s x H) as (H1 & H2 & H3).
    rewrite H3 by auto. cbn [Z.eqb].
    replace (existsb _ _) with false.
    + constructor; cbn; try apply H1. rewrite (sim_joint _ _ _ H1). reflexivity.
    + symmetry. apply Bool.not_true_is_false. intros Q. apply existsb_exists in Q as (e & He & Q).
      rewrite (sim_joint _ _ _ H1) in He. specialize (Hj e He). apply Z.eqb_eq in Q. contradiction.
  - apply sim_hd. rewrite (sim_joint _ _ _ H). apply sim_heap; auto.
Qed.

Lemma sim_run : forall db0 l a s, sim db0 a s -> wfl a l -> sim db0 (arun a l) (replay s l).
Proof.
  intros db0 l. induction l as [|r l IH]; intros a s H W; cbn; auto.
  destruct W. apply IH; auto. apply sim_step; auto.
Qed.

(** The end of recovery. *)
Lemma sim_recovery_finish : forall db0 ord a s, sim db0 a s ->
  exists b, sim db0 b (recovery_finish s ord) /\ a_done b = a_done a /\
    (forall x, In x ord -> r_st (recovery_finish s ord) x <> 1) /\
    (forall x, r_st s x <> 1 -> r_st (recovery_finish s ord) x <> 1).
Proof.
  intros db0 ord. induction ord as [|x ord IH]; intros a s H; cbn.
  - exists a. split; [exact H|]. split; [reflexivity|]. split; [intros x []|auto].
  - destruct (Z.eqb_spec (r_st s x) 1) as [E|E].
    + destruct (IH _ _ (sim_finish _ _ _ x false H)) as (b & B1 & B2 & B3 & B4).
      exists b. split; [exact B1|]. split; [exact B2|]. split.
      * intros y [<-|Hy]; [apply B4; cbn; rewrite upd_same; lia|apply B3; auto].
      * intros y Hy. apply B4. cbn. unfold upd. destruct (y =? x); [lia|auto].
    + destruct (IH _ _ H) as (b & B1 & B2 & B3 & B4).
      exists b. split; [exact B1|]. split; [exact B2|]. split; auto.
      intros y [<-|Hy]; auto.
Qed.

Lemma sim_contents : forall db0 a s ord k, sim db0 a s -> incl (r_known s) ord ->
  contents (recovery_finish s ord) k = serial (fun _ => true) (a_done a) db0 k.
Proof.
  intros db0 a s ord k H Hi.
  destruct (sim_recovery_finish _ ord _ _ H) as (b & B1 & B2 & B3 & B4).
  assert (Z0 : forall x, a_w b x = []).
  { intros x. destruct (a_w b x) eqn:E; auto. exfalso.
    assert (Q : r_st (recovery_finish s ord) x = 1) by (apply B1; rewrite E; discriminate).
    destruct (Z.eq_dec (r_st s x) 1) as [F|F].
    - apply (B3 x); auto. apply Hi, H; auto.
    - apply (B4 x); auto. }
  unfold contents. destruct (sim_row _ _ _ B1 k) as (z & tl & A & B & C & D).
  rewrite A, Z0. cbn. rewrite C, B2. reflexivity.
Qed.

(** ** Which transactions are settled as committed by a prefix *)
Record apref (l : list lrec) (a : ast) : Prop := {
  ap_commit : forall x, In (LCommit x) l -> a_fin a x = true;
  ap_joint : forall x h, In (LJoint x h) l -> a_fin a x = true \/ (In (x, h) (a_joint a) /\ a_hd a h = false);
  ap_jfin : forall e, In e (a_joint a) -> a_fin a (fst e) = false;
  ap_jlog : forall x h, In (x, h) (a_joint a) -> In (LJoint x h) l;
  ap_hd : forall h c, In (LHeap h c) l -> a_hd a h = true;
  ap_done : forall t, In t (a_done a) -> durable l (fst t) = true
}.

Lemma durable_app : forall l l' x, durable l x = true -> durable (l ++ l') x = true.
Proof.
  intros l l' x H. apply existsb_exists in H as (r & Hr & E). apply existsb_exists. exists r.
  split; [apply in_or_app; auto|]. destruct r; auto.
  apply andb_true_iff in E as [E1 E2]. rewrite E1. cbn. rewrite existsb_app, E2. reflexivity.
Qed.

Lemma durable_commit : forall l x, In (LCommit x) l -> durable l x = true.
Proof. intros. apply existsb_exists. eexists. split; eauto. cbn. apply Z.eqb_refl. Qed.

Lemma durable_joint : forall l x h, In (LJoint x h) l -> In (LHeap h true) l -> durable l x = true.
Proof.
  intros. apply existsb_exists. exists (LJoint x h). split; auto. rewrite Z.eqb_refl. cbn.
  apply existsb_exists. exists (LHeap h true). split; auto. apply Z.eqb_refl.
Qed.

Lemma durable_inv : forall l x, durable l x = true ->
  In (LCommit x) l \/ exists h, In (LJoint x h) l /\ In (LHeap h true) l.
Proof.
  intros l x H. apply existsb_exists in H as (r & Hr & E). destruct r; try discriminate.
  - left. apply Z.eqb_eq in E as ->. auto.
  - right. apply andb_true_iff in E as [E1 E2]. apply Z.eqb_eq in E1 as ->.
    apply existsb_exists in E2 as (r & Hr' & E2). destruct r; try discriminate.
    destruct c; [|discriminate]. apply Z.eqb_eq in E2 as ->. eauto.
Qed.

Lemma filter_filter : forall A (f g : A -> bool) l,
  filter f (filter g l) = filter (fun e => g e && f e) l.
Proof.
  intros A f g l. induction l as [|e l IH]; cbn; auto.
  destruct (g e); cbn; auto. destruct (f e); rewrite IH; auto.
Qed.

Lemma fold_fin : forall h c js a,
  let b := fold_left (fun a e => if snd e =? h then afinish a (fst e) c else a) js a in
  (forall x, a_fin a x = true -> a_fin b x = true) /\
  (forall x, In (x, h) js -> a_fin b x = true) /\
  (forall x, a_fin a x = false -> a_fin b x = true -> In (x, h) js) /\
  (exists d, a_done b = a_done a ++ d /\ forall t, In t d -> In (fst t, h) js /\ c = true) /\
  (exists f, a_joint b = filter f (a_joint a) /\ forall e, In e (a_joint a) -> (f e = true <-> ~ In (fst e, h) js)) /\
  a_hd b = a_hd a.
Proof.
  intros h c js. induction js as [|e js IH]; intros a; cbn.
  - repeat split; auto; try contradiction.
    + congruence.
    + exists []. rewrite app_nil_r. split; [auto|intros t []].
    + exists (fun _ => true). split; [|tauto].
      induction (a_joint a); cbn; congruence.
  - destruct e as [y g]. cbn. destruct (Z.eqb_spec g h) as [->|N].
    + destruct (IH (afinish a y c)) as (A & B & C & (d & D1 & D2) & (f & E1 & E2) & F).
      split; [|split; [|split; [|split; [|split]]]].
      * intros x Hx. apply A. cbn. unfold upd. destruct (x =? y); auto.
      * intros x [E|Hx]; [|apply B; auto]. injection E as ->. apply A. cbn. apply upd_same.
      * intros x Hx Hb. destruct (Z.eq_dec y x) as [->|M]; auto. right. apply C; auto.
        cbn. rewrite upd_other by auto. auto.
      * rewrite D1. cbn. destruct c.
        -- exists ((y, mods (a_w a y)) :: d). rewrite <- app_assoc. split; auto.
           intros t [<-|Ht]; cbn; auto. apply D2 in Ht as [? ?]. auto.
        -- exists d. split; auto. intros t Ht. apply D2 in Ht as [? ?]. discriminate.
      * rewrite E1. cbn. exists (fun e => negb (fst e =? y) && f e). split.
        -- apply filter_filter.
        -- intros [z g] He. cbn [fst]. destruct (Z.eqb_spec z y) as [->|M]; cbn.
           ++ split; [discriminate|]. intros Q. exfalso. apply Q. auto.
           ++ rewrite (E2 (z, g)).
              ** cbn. split; intros Q.
                 --- intros [R|R]; [|auto]. injection R as ->. congruence.
                 --- intros R. apply Q. auto.
              ** cbn. apply filter_In. split; auto. cbn. lia.
      * rewrite F. reflexivity.
    + destruct (IH a) as (A & B & C & (d & D1 & D2) & (f & E1 & E2) & F).
      split; [|split; [|split; [|split; [|split]]]]; auto.
      * intros x [E|Hx]; auto. injection E as -> ->. contradiction.
      * exists d. split; auto. intros t Ht. apply D2 in Ht as [? ?]. auto.
      * exists f. split; auto. intros e He. rewrite (E2 e He). split; intros Q.
        -- intros [R|R]; [injection R as -> ->; contradiction|auto].
        -- intros R. apply Q. auto.
Qed.

Lemma apref_step : forall l a r, apref l a -> aok a r -> apref (l ++ [r]) (astep a r).
Proof.
  intros l a r H Hok.
  assert (INJ : forall q, In q (l ++ [r]) -> In q l \/ q = r).
  { intros q Hq. apply in_app_or in Hq as [?|[?|[]]]; auto. }
  destruct r as [x k v|x p|x p|x|x|x h|h c]; cbn [astep].
  1-3: constructor; cbn;
    [ intros y Hy; apply INJ in Hy as [Hy|Hy]; [apply H; auto|discriminate]
    | intros y g Hy; apply INJ in Hy as [Hy|Hy]; [apply H; auto|discriminate]
    | apply H
    | intros y g Hy; apply in_or_app; left; apply H; auto
    | intros y g Hy; apply INJ in Hy as [Hy|Hy]; [eapply H; eauto|discriminate]
    | intros t Ht; apply durable_app, H; auto ].
  - assert (G : forall b, (b = a /\ a_fin a x = true) \/ b = afinish a x true ->
                apref (l ++ [LCommit x]) b).
    { intros b [[-> F]| ->].
      - constructor.
        + intros y Hy. apply INJ in Hy as [Hy|Hy]; [apply H; auto|injection Hy as ->; auto].
        + intros y g Hy. apply INJ in Hy as [Hy|Hy]; [apply H; auto|discriminate].
        + apply H.
        + intros y g Hy. apply in_or_app. left. apply H; auto.
        + intros y g Hy. apply INJ in Hy as [Hy|Hy]; [eapply H; eauto|discriminate].
        + intros t Ht. apply durable_app, H; auto.
      - constructor; cbn.
        + intros y Hy. unfold upd. destruct (Z.eqb_spec y x); auto.
          apply INJ in Hy as [Hy|Hy]; [apply H; auto|injection Hy as ->; contradiction].
        + intros y g Hy. unfold upd. destruct (Z.eqb_spec y x) as [->|N]; auto.
          apply INJ in Hy as [Hy|Hy]; [|discriminate].
          destruct (ap_joint _ _ H _ _ Hy) as [?|[? ?]]; auto. right. split; auto.
          apply filter_In. split; auto. cbn. lia.
        + intros e He. apply filter_In in He as [He N]. apply negb_true_iff, Z.eqb_neq in N.
          rewrite upd_other by exact N. apply H; auto.
        + intros y g He. apply filter_In in He as [He N]. apply in_or_app. left. apply H; auto.
        + intros y g Hy. apply INJ in Hy as [Hy|Hy]; [eapply H; eauto|discriminate].
        + intros t Ht. apply in_app_or in Ht as [Ht|[<-|[]]].
          * apply durable_app, H; auto.
          * cbn. apply durable_commit. apply in_or_app. cbn. auto. }
    destruct (a_fin a x) eqn:F; apply G; auto.
  - assert (G : forall b, (b = a) \/ b = afinish a x false ->
                apref (l ++ [LRollback x]) b).
    { intros b [->| ->].
      - constructor.
        + intros y Hy. apply INJ in Hy as [Hy|Hy]; [apply H; auto|discriminate].
        + intros y g Hy. apply INJ in Hy as [Hy|Hy]; [apply H; auto|discriminate].
        + apply H.
        + intros y g Hy. apply in_or_app. left. apply H; auto.
        + intros y g Hy. apply INJ in Hy as [Hy|Hy]; [eapply H; eauto|discriminate].
        + intros t Ht. apply durable_app, H; auto.
      - constructor; cbn.
        + intros y Hy. unfold upd. destruct (Z.eqb_spec y x); auto.
          apply INJ in Hy as [Hy|Hy]; [apply H; auto|discriminate].
        + intros y g Hy. unfold upd. destruct (Z.eqb_spec y x) as [->|N]; auto.
          apply INJ in Hy as [Hy|Hy]; [|discriminate].
          destruct (ap_joint _ _ H _ _ Hy) as [?|[? ?]]; auto. right. split; auto.
          apply filter_In. split; auto. cbn. lia.
        + intros e He. apply filter_In in He as [He N]. apply negb_true_iff, Z.eqb_neq in N.
          rewrite upd_other by exact N. apply H; auto.
        + intros y g He. apply filter_In in He as [He N]. apply in_or_app. left. apply H; auto.
        + intros y g Hy. apply INJ in Hy as [Hy|Hy]; [eapply H; eauto|discriminate].
        + intros t Ht. apply durable_app, H; auto. }
    destruct (a_fin a x) eqn:F; apply G; auto.
  - destruct Hok as (Hf & Hh & Hj). constructor; cbn.
    + intros y Hy; apply INJ in Hy as [Hy|Hy]; [apply H; auto|discriminate].
    + intros y g Hy; apply INJ in Hy as [Hy|Hy].
      * destruct (ap_joint _ _ H _ _ Hy) as [?|[? ?]]; auto. right. split; auto.
        apply in_or_app. auto.
      * injection Hy as -> ->. right. split; auto. apply in_or_app. cbn. auto.
    + intros e He. apply in_app_or in He as [He|[<-|[]]]; auto. apply H; auto.
    + intros y g He. apply in_app_or in He as [He|[E|[]]].
      * apply in_or_app. left. apply H; auto.
      * injection E as -> ->. apply in_or_app. cbn. auto.
    + intros y g Hy; apply INJ in Hy as [Hy|Hy]; [eapply H; eauto|discriminate].
    + intros t Ht; apply durable_app, H; auto.
  - destruct (fold_fin h c (a_joint a) a) as (A & B & C & (d & D1 & D2) & (f & E1 & E2) & F).
    constructor; cbn.
    + intros y Hy; apply INJ in Hy as [Hy|Hy]; [apply A, H; auto|discriminate].
    + intros y g Hy; apply INJ in Hy as [Hy|Hy]; [|discriminate].
      destruct (ap_joint _ _ H _ _ Hy) as [?|[J ?]]; auto.
      destruct (Z.eq_dec g h) as [->|N]; [left; apply B; auto|].
      destruct (a_fin (fold_left (fun a e => if snd e =? h then afinish a (fst e) c else a) (a_joint a) a) y) eqn:Q; auto.
      right. split.
      * rewrite E1. apply filter_In. split; auto. apply E2; auto. cbn. intros R.
        rewrite B in Q; auto. discriminate.
      * rewrite upd_other by auto. rewrite F; auto.
    + intros e He. rewrite E1 in He. apply filter_In in He as [He Q]. apply E2 in Q; auto.
      destruct (a_fin _ (fst e)) eqn:R; auto. exfalso. apply Q. apply C; auto. apply H; auto.
    + intros y g He. rewrite E1 in He. apply filter_In in He as [He Q]. apply in_or_app. left. apply H; auto.
    + intros y g Hy. apply INJ in Hy as [Hy|Hy].
      * unfold upd. destruct (y =? h); auto. rewrite F. eapply H; eauto.
      * injection Hy as -> ->. apply upd_same.
    + intros t Ht. rewrite D1 in Ht. apply in_app_or in Ht as [Ht|Ht].
      * apply durable_app, H; auto.
      * apply D2 in Ht as [Ht ->]. eapply durable_joint.
        -- apply in_or_app. left. apply H; eauto.
        -- apply in_or_app. right. cbn. auto.
Qed.

Lemma apref_run : forall l2 l1 a, apref l1 a -> wfl a l2 -> apref (l1 ++ l2) (arun a l2).
Proof.
  induction l2 as [|r l2 IH]; intros l1 a H W; cbn.
  - rewrite app_nil_r. auto.
  - destruct W as [W1 W2]. change (r :: l2) with ([r] ++ l2). rewrite app_assoc. apply IH; auto.
    apply apref_step; auto.
Qed.

Lemma apref_init : apref [] ainit.
Proof. constructor; cbn; intros; try contradiction. Qed.

(** Whoever is not settled after [a] is added later, never before. *)
Lemma done_extends : forall l l1 a, apref l1 a -> wfl a l ->
  exists d, a_done (arun a l) = a_done a ++ d /\ (forall t, In t d -> a_fin a (fst t) = false) /\
            (forall x, a_fin a x = true -> a_fin (arun a l) x = true).
Proof.
  induction l as [|r l IH]; intros l1 a H W; cbn.
  - exists []. rewrite app_nil_r. repeat split; auto. intros t [].
  - destruct W as [W1 W2].
    destruct (IH _ _ (apref_step _ _ _ H W1) W2) as (d & D1 & D2 & D3).
    assert (S1 : exists d0, a_done (astep a r) = a_done a ++ d0 /\
                  (forall t, In t d0 -> a_fin a (fst t) = false) /\
                  (forall x, a_fin a x = true -> a_fin (astep a r) x = true)).
    { destruct r as [x k v|x p|x p|x|x|x h|h c]; cbn [astep].
      1-3,6: exists []; cbn; rewrite app_nil_r; repeat split; auto; intros t [].
      - destruct (a_fin a x) eqn:F; cbn.
        + exists []. rewrite app_nil_r. repeat split; auto. intros t [].
        + exists [(x, mods (a_w a x))]. repeat split.
          * intros t [<-|[]]; auto.
          * intros y Hy. unfold upd. destruct (y =? x); auto.
      - destruct (a_fin a x) eqn:F; cbn; exists []; rewrite app_nil_r;
          (split; [reflexivity|split; [intros t []|]]); auto.
        intros y Hy. unfold upd. destruct (y =? x); auto.
      - destruct (fold_fin h c (a_joint a) a) as (A & B & C & (d0 & E1 & E2) & _).
        exists d0. cbn. split; auto. split; auto. intros t Ht. apply E2 in Ht as [Ht _].
        apply (ap_jfin _ _ H) in Ht. auto. }
    destruct S1 as (d0 & G1 & G2 & G3).
    change (fold_left astep l (astep a r)) with (arun (astep a r) l).
    exists (d0 ++ d). rewrite D1, G1, app_assoc. split; auto. split; [|auto].
    intros t Ht. apply in_app_or in Ht as [Ht|Ht]; auto.
    specialize (D2 t Ht). destruct (a_fin a (fst t)) eqn:Q; auto. apply G3 in Q. congruence.
Qed.

Lemma done_prefix : forall p q, wfl ainit (p ++ q) ->
  filter (fun t => durable p (fst t)) (a_done (arun ainit (p ++ q))) = a_done (arun ainit p).
Proof.
  intros p q W. apply wfl_app in W as [W1 W2]. rewrite arun_app.
  assert (H := apref_run p [] ainit apref_init W1). cbn in H.
  destruct (done_extends q p _ H W2) as (d & D1 & D2 & _). rewrite D1, filter_app.
  assert (F : forall f (l : list (oxid * list write)), (forall t, In t l -> f t = true) -> filter f l = l).
  { intros f l. induction l as [|t l IHl]; cbn; intros Q; auto. rewrite Q by auto. rewrite IHl; auto. }
  assert (G : forall f (l : list (oxid * list write)), (forall t, In t l -> f t = false) -> filter f l = []).
  { intros f l. induction l as [|t l IHl]; cbn; intros Q; auto. rewrite Q by auto. rewrite IHl; auto. }
  rewrite F, G, app_nil_r; auto.
  - intros t Ht. specialize (D2 t Ht). apply Bool.not_true_is_false. intros Q.
    apply durable_inv in Q as [Q|(h & Q1 & Q2)].
    + apply (ap_commit _ _ H) in Q. congruence.
    + apply (ap_hd _ _ H) in Q2. apply (ap_joint _ _ H) in Q1 as [Q1|[_ Q1]]; congruence.
  - intros t Ht. apply (ap_done _ _ H); auto.
Qed.
