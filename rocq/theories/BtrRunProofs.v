(** Searches and scans on a tree that changes under them. *)
From Coq Require Import ZArith List Bool Lia.
From Coq Require Import ZifyBool.
From Verif Require Import Base BtrModel BtrSpec BtrProofs.
Import ListNotations.
Open Scope Z_scope.

(** * The content of the leaves *)
Definition cont (pg : Z -> page) (log : list ev) : Prop := forall p k,
  pg_live (pg p) = true -> pg_level (pg p) = 0 -> covers (KAt k) (pg p) = true ->
  forall v, In (k, v) (pg_items (pg p)) <-> value log k = Some v.

Lemma cont_same : forall pg pg' log, same pg pg' -> cont pg log -> cont pg' log.
Proof.
  intros pg pg' log S C p k L V K v. destruct (S p k L V K) as (q & A1 & A2 & A3 & A4). rewrite A4. apply C; auto.
Qed.

(** * Page structure changes *)
Definition moved (t t' : tree) : Prop :=
  t_rt t' = t_rt t /\ t_ss t' = t_ss t /\ t_log t' = t_log t /\
  PI (t_pg t') (t_rt t) /\ keeps (t_rt t) (t_pg t) (t_pg t') /\ same (t_pg t) (t_pg t') /\
  pg_gen (t_pg t' (t_rt t)) = pg_gen (t_pg t (t_rt t)).
Lemma moved_refl : forall t, PI (t_pg t) (t_rt t) -> moved t t.
Proof. intros t H. unfold moved. split; auto. split; auto. split; auto. split; auto. split; [apply keeps_refl|]. split; [apply same_refl|reflexivity]. Qed.
Lemma moved_set : forall t pg', PI pg' (t_rt t) /\ keeps (t_rt t) (t_pg t) pg' /\ same (t_pg t) pg' ->
  pg_gen (pg' (t_rt t)) = pg_gen (t_pg t (t_rt t)) -> moved t (set_pg t pg').
Proof. intros t pg' H G. unfold moved. cbn. tauto. Qed.
Ltac root_gen := unfold upd; repeat match goal with |- context [?a =? ?b] => destruct (Z.eqb_spec a b) end; subst; try congruence; try reflexivity.

Lemma moved_split : forall t b c m, PI (t_pg t) (t_rt t) -> moved t (split t b c m).
Proof.
  intros t b c m H. unfold split. destruct (_ && _ && _ && _) eqn:E; [|apply moved_refl; auto].
  apply andb_true_iff in E. destruct E as [E E4]. apply andb_true_iff in E. destruct E as [E E3].
  apply andb_true_iff in E. destruct E as [E1 E2]. 
  pose proof (r_live _ _ H) as LR. assert (Lc : pg_live (t_pg t c) = false) by (destruct (pg_live (t_pg t c)); auto).
  apply moved_set; [apply PI_split; auto; lia|]. assert (b <> t_rt t) by lia. root_gen.
Qed.
Lemma moved_down : forall t a b, PI (t_pg t) (t_rt t) -> moved t (down t a b).
Proof.
  intros t a b H. unfold down. destruct (pg_right (t_pg t b)) as [c|] eqn:R; [|apply moved_refl; auto].
  destruct (pg_hi (t_pg t b)) as [m|] eqn:HI; [|apply moved_refl; auto].
  destruct (_ && _ && _ && _ && _) eqn:E; [|apply moved_refl; auto].
  apply andb_true_iff in E. destruct E as [E E5]. apply andb_true_iff in E. destruct E as [E E4].
  apply andb_true_iff in E. destruct E as [E E3]. apply andb_true_iff in E. destruct E as [E1 E2].
  apply moved_set; [apply (PI_down (t_pg t) (t_rt t) a b m c); auto; [lia|]; destruct (knows (t_pg t a) m); auto|]. root_gen.
Qed.
Lemma moved_clear : forall t a b, PI (t_pg t) (t_rt t) -> moved t (clear t a b).
Proof.
  intros t a b H. unfold clear. destruct (pg_right (t_pg t b)) as [c|] eqn:R; [|apply moved_refl; auto].
  destruct (pg_hi (t_pg t b)) as [m|] eqn:HI; [|apply moved_refl; auto].
  destruct (_ && _ && _ && _) eqn:E; [|apply moved_refl; auto].
  apply andb_true_iff in E. destruct E as [E E4]. apply andb_true_iff in E. destruct E as [E E3].
  apply andb_true_iff in E. destruct E as [E1 E2]. destruct (has_down (pg_downs (t_pg t a)) m) as [c'|] eqn:HD; [|discriminate].
  assert (c' = c) by (destruct c, c'; cbn in E4; f_equal; lia). subst c'.
  rewrite <- HI. apply moved_set; [apply (PI_clear (t_pg t) (t_rt t) a b m c); auto; [lia|]; apply has_down_some; auto|]. root_gen.
Qed.
Lemma moved_root : forall t l c m, PI (t_pg t) (t_rt t) -> moved t (root_split t l c m).
Proof.
  intros t l c m H. unfold root_split. destruct (_ && _ && _ && _) eqn:E; [|apply moved_refl; auto].
  apply andb_true_iff in E. destruct E as [E E4]. apply andb_true_iff in E. destruct E as [E E3].
  apply andb_true_iff in E. destruct E as [E1 E2]. apply moved_set; [apply PI_root; auto; lia|root_gen].
Qed.
Lemma moved_merge : forall t a l r, PI (t_pg t) (t_rt t) -> moved t (merge t a l r).
Proof.
  intros t a l r H. unfold merge. destruct (_ && _) eqn:E; [|apply moved_refl; auto].
  apply andb_true_iff in E. destruct E as [E1 E2]. destruct (adjacent (t_pg t a) l r) as [k|] eqn:A; [|apply moved_refl; auto].
  destruct (pg_right (t_pg t l)) eqn:R1; [apply moved_refl; auto|]. destruct (pg_right (t_pg t r)) eqn:R2; [apply moved_refl; auto|].
  destruct (neighbours _ _ a l r k H E1 ltac:(lia) A R1) as (_ & _ & Vl & Vr & _). pose proof (lv _ _ H a E1).
  apply moved_set; [apply PI_merge; auto; lia|]. root_gen; lia.
Qed.

(** * Sessions *)
Definition fresh (pg : Z -> page) (c : link) : Prop := pg_gen (pg (fst c)) = snd c.
Definition vl (pg : Z -> page) (key : skey) (c : link) : Prop :=
  snd c <= pg_gen (pg (fst c)) /\
  (fresh pg c -> pg_live (pg (fst c)) = true /\ at_left key (pg_lo (pg (fst c))) = true).

(** Backward scans know the low key of the page they are at. *)
Record BI (pg : Z -> page) (rt : Z) (x : sess) : Prop := mkBI {
  b1 : x_ph x = PDesc -> fresh pg (x_cur x) -> 0 < pg_level (pg (fst (x_cur x))) ->
       pg_lo (pg (fst (x_cur x))) = x_lk x /\ x_sib x = false;
  b2 : x_ph x = PDesc -> fresh pg (x_cur x) -> pg_level (pg (fst (x_cur x))) = 0 ->
       pg_lo (pg (fst (x_cur x))) = ctx_lokey x /\
       (x_sib x = false -> x_stk x <> [] -> fresh pg (x_pfst x) -> pg_lo (pg (fst (x_pfst x))) = x_lk x);
  b3 : x_ph x = PDesc -> fst (x_cur x) = rt -> x_lk x = None /\ x_sib x = false;
  b4 : x_ph x = PDesc -> x_lk x = None -> forall e, In e (x_stk x) -> fresh pg e -> pg_lo (pg (fst e)) = None;
  b5 : x_ph x = PNext -> x_sib x = false -> x_stk x <> [] -> fresh pg (x_pfst x) -> pg_lo (pg (fst (x_pfst x))) = x_lk x }.

Record SI (pg : Z -> page) (rt : Z) (x : sess) : Prop := mkSI {
  si_cur : x_ph x = PDesc -> vl pg (x_key x) (x_cur x);
  si_stk : x_ph x = PDesc -> forall e, In e (x_stk x) -> vl pg (x_key x) e /\ (fresh pg e -> 0 < pg_level (pg (fst e)));
  si_root : x_ph x = PDesc -> fst (last (x_stk x) (x_cur x)) = rt;
  si_rg : x_ph x = PDesc -> forall e, In e (x_cur x :: x_stk x) -> fst e = rt -> fresh pg e;
  si_goal : match x_goal x with GFind k | GPut k _ | GDel k => x_ph x <> PIdle -> x_key x = KAt k /\ x_ph x = PDesc | GScan => True end;
  si_img : forall k c, In (k, c) (x_pimg x) -> snd c <= pg_gen (pg (fst c)) /\
       (fresh pg c -> pg_live (pg (fst c)) = true /\ pg_lo (pg (fst c)) = Some k);
  si_fst : x_stk x <> [] -> snd (x_pfst x) <= pg_gen (pg (fst (x_pfst x))) /\
       (fresh pg (x_pfst x) -> pg_live (pg (fst (x_pfst x))) = true);
  si_top : x_ph x = PDesc -> fst (x_cur x) = rt -> pg_level (pg rt) = 0 -> x_pkey x = None;
  si_b : x_fwd x = false -> x_haz x = false -> BI pg rt x }.

Lemma fresh_back : forall rt pg pg' c, keeps rt pg pg' -> snd c <= pg_gen (pg (fst c)) -> fresh pg' c -> fresh pg c.
Proof. intros rt pg pg' c K L F. destruct (K (fst c)) as [K1 _]. unfold fresh in *. lia. Qed.

Lemma keeps_at : forall rt pg pg' c, keeps rt pg pg' -> snd c <= pg_gen (pg (fst c)) -> fresh pg' c ->
  pg_live (pg (fst c)) = true -> fresh pg c /\ pg_live (pg' (fst c)) = true /\ pg_lo (pg' (fst c)) = pg_lo (pg (fst c)) /\
  (pg_level (pg' (fst c)) = pg_level (pg (fst c)) \/ (fst c = rt /\ pg_level (pg (fst c)) < pg_level (pg' (fst c)))).
Proof.
  intros rt pg pg' c K L F LV. pose proof (fresh_back rt pg pg' c K L F) as F'. split; auto.
  destruct (K (fst c)) as [_ K2]. unfold fresh in *. apply K2; auto. congruence.
Qed.
Lemma keeps_up : forall rt pg pg' c, keeps rt pg pg' -> snd c <= pg_gen (pg (fst c)) -> snd c <= pg_gen (pg' (fst c)).
Proof. intros rt pg pg' c K L. destruct (K (fst c)). lia. Qed.


Lemma SI_keeps : forall pg pg' rt x, PI pg rt -> PI pg' rt -> keeps rt pg pg' -> pg_gen (pg' rt) = pg_gen (pg rt) ->
  SI pg rt x -> SI pg' rt x.
Proof.
  intros pg pg' rt x H H' K G S. destruct (K rt) as [Kr1 Kr2].
  constructor.
  - intros P. destruct (si_cur _ _ _ S P) as [A B]. split; [eapply keeps_up; eauto|]. intros F.
    pose proof (fresh_back _ _ _ _ K A F) as F0. destruct (B F0) as [B1 B2]. destruct (keeps_at _ _ _ _ K A F B1) as (_ & C1 & C2 & _). rewrite C2. auto.
  - intros P e I. destruct (si_stk _ _ _ S P e I) as [[A B] D]. split; [split|].
    + eapply keeps_up; eauto.
    + intros F. pose proof (fresh_back _ _ _ _ K A F) as F0. destruct (B F0) as [B1 B2].
      destruct (keeps_at _ _ _ _ K A F B1) as (_ & C1 & C2 & _). rewrite C2. auto.
    + intros F. pose proof (fresh_back _ _ _ _ K A F) as F0. destruct (B F0) as [B1 B2].
      destruct (keeps_at _ _ _ _ K A F B1) as (_ & C1 & C2 & C3). specialize (D F0). lia.
  - apply S.
  - intros P e I E. pose proof (si_rg _ _ _ S P e I E) as F. unfold fresh in *. rewrite E in *. lia.
  - apply S.
  - intros k c I. destruct (si_img _ _ _ S k c I) as [A B]. split; [eapply keeps_up; eauto|]. intros F.
    pose proof (fresh_back _ _ _ _ K A F) as F0. destruct (B F0) as [B1 B2]. destruct (keeps_at _ _ _ _ K A F B1) as (_ & C1 & C2 & _). rewrite C2. auto.
  - intros N. destruct (si_fst _ _ _ S N) as [A B]. split; [eapply keeps_up; eauto|]. intros F.
    pose proof (fresh_back _ _ _ _ K A F) as F0. apply (keeps_at _ _ _ _ K A F (B F0)).
  - intros P E V. apply (si_top _ _ _ S P E). pose proof (lv _ _ H rt (r_live _ _ H)).
    destruct (Kr2 G (r_live _ _ H)) as (_ & _ & Q). lia.
  - intros FW HZ. pose proof (si_b _ _ _ S FW HZ) as B. constructor.
    + intros P F V. destruct (si_cur _ _ _ S P) as [A C]. destruct (C (fresh_back _ _ _ _ K A F)) as [C1 C2].
      destruct (keeps_at _ _ _ _ K A F C1) as (F0 & D1 & D2 & D3). rewrite D2. destruct D3 as [D3|[D3 D4]].
      * apply (b1 _ _ _ B P F0). lia.
      * destruct (b3 _ _ _ B P D3) as [E1 E2]. rewrite E1, E2, D3. split; auto. apply H.
    + intros P F V. destruct (si_cur _ _ _ S P) as [A C]. destruct (C (fresh_back _ _ _ _ K A F)) as [C1 C2].
      destruct (keeps_at _ _ _ _ K A F C1) as (F0 & D1 & D2 & D3). rewrite D2. pose proof (lv _ _ H _ C1).
      destruct (b2 _ _ _ B P F0) as [E1 E2]; [lia|]. split; auto. intros X1 X2 X3. destruct (si_fst _ _ _ S X2) as [A' C'].
      pose proof (fresh_back _ _ _ _ K A' X3) as F0'. destruct (keeps_at _ _ _ _ K A' X3 (C' F0')) as (_ & _ & D2' & _). rewrite D2'. auto.
    + apply B.
    + intros P N e I F. destruct (si_stk _ _ _ S P e I) as [[A C] _]. destruct (C (fresh_back _ _ _ _ K A F)) as [C1 C2].
      destruct (keeps_at _ _ _ _ K A F C1) as (F0 & D1 & D2 & D3). rewrite D2. apply (b4 _ _ _ B P N e I F0).
    + intros P X1 X2 X3. destruct (si_fst _ _ _ S X2) as [A' C'].
      pose proof (fresh_back _ _ _ _ K A' X3) as F0'. destruct (keeps_at _ _ _ _ K A' X3 (C' F0')) as (_ & _ & D2' & _). rewrite D2'.
      apply (b5 _ _ _ B P); auto.
Qed.

(** * The turns of a search *)
Lemma last_cons : forall (A : Type) (l : list A) e d, last (e :: l) d = last l e.
Proof. induction l as [|a l IH]; intros e d; [reflexivity|]. change (last (a :: l) d = last (a :: l) e). rewrite !IH. reflexivity. Qed.
Section Turns.
Variable t : tree.
Hypothesis H : PI (t_pg t) (t_rt t).
Local Notation pg := (t_pg t).
Local Notation rt := (t_rt t).

Lemma pick_ok : forall key ds cur, (at_left key (fst cur) = true) ->
  let '(k, c) := pick key cur ds in at_left key k = true /\ ((k, c) = cur \/ exists k', k = Some k' /\ In (k', c) ds).
Proof.
  induction ds as [|[k0 c0] ds IH]; cbn; intros [k c] A; [auto|].
  destruct (match key with KNone => false | KAt k1 => k0 <=? k1 | KHi k1 => k0 <? k1 | KMax => true end) eqn:E; [|cbn in *; auto].
  specialize (IH (Some k0, c0) E). destruct (pick key (Some k0, c0) ds) as [k1 c1]. destruct IH as [I1 I2]. split; auto. right.
  destruct I2 as [I2|(k' & I2 & I3)]; [injection I2 as -> ->; exists k0; auto|exists k'; auto].
Qed.

Lemma SI_root_link : forall x, x_ph x = PDesc -> x_cur x = root_link t -> x_stk x = [] -> x_pimg x = [] -> x_pkey x = None ->
  x_lk x = None -> x_sib x = false ->
  match x_goal x with GFind k | GPut k _ | GDel k => x_key x = KAt k | GScan => True end -> SI pg rt x.
Proof.
  intros x P C S IM PK LK SB GL. constructor; rewrite ?C, ?S, ?IM, ?PK, ?LK, ?SB, ?P; cbn; try discriminate; auto.
  - intros _. split; cbn; [lia|]. intros _. rewrite (r_live _ _ H), (r_lo _ _ H). auto.
  - intros _ e []. 
  - intros _ e [<-|[]] _. reflexivity.
  - destruct (x_goal x); auto.
  - intros k c [].
  - congruence.
  - intros _ _. constructor; rewrite ?C, ?S, ?PK, ?LK, ?SB, ?P; cbn; try discriminate; auto.
    + intros _ _ _. split; auto. apply (r_lo _ _ H).
    + intros _ _ _. unfold ctx_lokey. rewrite SB, PK, LK. split; [apply (r_lo _ _ H)|congruence].
    + intros _ _ e [].
Qed.

(** Retry from above. *)
Lemma SI_upward : forall x, SI pg rt x -> x_ph x = PDesc -> x_stk x <> [] -> SI pg rt (upward t x).
Proof.
  intros x S P N. unfold upward. destruct (x_stk x) as [|e stk] eqn:E; [congruence|].
  assert (IS : In e (x_stk x)) by (rewrite E; left; auto).
  destruct (si_stk _ _ _ S P e IS) as [V LV].
  constructor; cbn.
  - intros _. exact V.
  - intros _ e' I. apply (si_stk _ _ _ S P). rewrite E. right; auto.
  - intros _. pose proof (si_root _ _ _ S P) as R. rewrite E, last_cons in R. exact R.
  - intros _ e' I. apply (si_rg _ _ _ S P). rewrite E. destruct I as [<-|I]; right; [left|right]; auto.
  - pose proof (si_goal _ _ _ S) as G. rewrite P in G. destruct (x_goal x); auto; intros _; split; auto; apply G; discriminate.
  - apply S.
  - intros X. apply (si_fst _ _ _ S). rewrite E. discriminate.
  - intros _ X1 X2. exfalso. assert (F : fresh pg e) by (apply (si_rg _ _ _ S P); auto; right; auto). specialize (LV F). rewrite X1 in LV. lia.
  - intros FW HZ. apply orb_false_iff in HZ. destruct HZ as [HZ1 HZ2]. rewrite FW in HZ2. cbn in HZ2. apply orb_false_iff in HZ2.
    destruct HZ2 as [HZ2 HZ3]. assert (LK : x_lk x = None) by (destruct (x_lk x); congruence).
    pose proof (si_b _ _ _ S FW HZ1) as B. constructor; cbn; try discriminate.
    + intros _ F _. split; auto. rewrite LK. apply (b4 _ _ _ B P LK e IS F).
    + intros _ F V0. specialize (LV F). lia.
    + auto.
    + intros _ _ e' I. apply (b4 _ _ _ B P LK). rewrite E. right; auto.
Qed.

Lemma last_ne : forall (A : Type) (l : list A) a b, l <> [] -> last l a = last l b.
Proof. intros A [|e l] a b N; [congruence|]. rewrite !last_cons. reflexivity. Qed.

(** Follow the rightlink. *)
Lemma SI_rightward : forall x r, SI pg rt x -> x_ph x = PDesc -> fresh pg (x_cur x) ->
  go_right (x_key x) (pg_hi (pg (fst (x_cur x)))) = true -> pg_right (pg (fst (x_cur x))) = Some r ->
  SI pg rt (rightward x (pg (fst (x_cur x))) r).
Proof.
  intros x r S P F GR R. destruct (si_cur _ _ _ S P) as [A B]. destruct (B F) as [L AL].
  destruct (rl _ _ H _ _ L R) as (R1 & R2 & R3 & m & R4 & R5).
  assert (NR : fst r <> rt) by (intros E; rewrite E, (r_lo _ _ H) in R5; discriminate).
  assert (NS : x_stk x <> []).
  { intros E. pose proof (si_root _ _ _ S P) as Q. rewrite E in Q. cbn in Q. rewrite Q, (r_right _ _ H) in R. discriminate. }
  unfold rightward. constructor; cbn.
  - intros _. split; [unfold link in *; rewrite R2; lia|]. intros _. split; auto. rewrite R5. rewrite R4 in GR. cbn in *. destruct (x_key x); auto; lia.
  - intros _. apply (si_stk _ _ _ S P).
  - intros _. rewrite (last_ne _ _ r (x_cur x) NS). apply (si_root _ _ _ S P).
  - intros _ e [<-|I] E; [contradiction|]. apply (si_rg _ _ _ S P e); auto. right; auto.
  - pose proof (si_goal _ _ _ S) as G. rewrite P in G. destruct (x_goal x); auto; intros _; split; auto; apply G; discriminate.
  - apply S.
  - apply S.
  - intros _ E. contradiction.
  - intros FW HZ. constructor; cbn; try discriminate.
    + intros _ _ V. rewrite R5, R4. split; auto. lia.
    + intros _ _ V. unfold ctx_lokey. cbn. replace (pg_level (pg (fst (x_cur x))) =? 0) with true by lia. rewrite R5, R4. split; auto. discriminate.
    + intros _ E. contradiction.
    + rewrite R4. discriminate.
Qed.

(** Step down. *)
Lemma SI_downward : forall x, SI pg rt x -> x_ph x = PDesc -> fresh pg (x_cur x) ->
  0 < pg_level (pg (fst (x_cur x))) -> SI pg rt (downward x (pg (fst (x_cur x)))).
Proof.
  intros x S P F V. destruct (si_cur _ _ _ S P) as [A B]. destruct (B F) as [L AL]. set (p := pg (fst (x_cur x))) in *.
  unfold downward. pose proof (pick_ok (x_key x) (pg_downs p) (None, pg_first p) eq_refl) as PK.
  destruct (pick (x_key x) (None, pg_first p) (pg_downs p)) as [k c]. destruct PK as [K1 K2].
  pose proof (dn_fst _ _ H _ L V) as DF. fold p in DF. pose proof (lv _ _ H _ L) as LV. fold p in LV.
  assert (CH : child pg p c (match k with Some _ => k | None => pg_lo p end)).
  { destruct K2 as [K2|(k' & -> & K2)]; [injection K2 as -> ->; auto|]. apply (dn_in _ _ H _ k' c L K2). }
  assert (KF : k = None -> c = pg_first p) by (intros ->; destruct K2 as [K2|(k' & K2 & _)]; [congruence|discriminate]).
  destruct CH as (C1 & C2 & C3 & C4).
  assert (NR : fst c <> rt) by (intros E; rewrite E in C3; lia).
  constructor; cbn.
  - intros _. split; [rewrite C2; lia|]. intros _. split; auto. rewrite C4. destruct k; auto.
  - intros _ e [<-|I]; [|apply (si_stk _ _ _ S P); auto]. split; [split; auto|]. auto.
  - intros _. pose proof (si_root _ _ _ S P) as R. pose proof (last_cons _ (x_stk x) (x_cur x) c) as E. cbn in E. rewrite E. exact R.
  - intros _ e [<-|I] E; [contradiction|]. apply (si_rg _ _ _ S P e); auto.
  - pose proof (si_goal _ _ _ S) as G. rewrite P in G. destruct (x_goal x); auto; intros _; split; auto; apply G; discriminate.
  - intros k1 c1 I. destruct (dn_in _ _ H _ k1 c1 L I) as (_ & _ & _ & D1 & D2 & _ & D3). split; [rewrite D2; lia|auto].
  - intros _. destruct DF as (D1 & D2 & _). split; [rewrite D2; lia|auto].
  - intros _ E. contradiction.
  - intros FW HZ. pose proof (si_b _ _ _ S FW HZ) as BB. destruct (b1 _ _ _ BB P F V) as [E1 E2]. fold p in E1.
    destruct DF as (D1 & D2 & D3 & D4). constructor; cbn; try discriminate.
    + intros _ _ VC. replace (pg_level p =? 1) with false by lia. cbn. rewrite C4. destruct k; auto.
    + intros _ _ VC. unfold ctx_lokey. cbn. replace (pg_level p =? 1) with true by lia. cbn. rewrite E2, C4. split; [destruct k; auto|].
      intros _ _ _. rewrite D4. auto.
    + intros _ E. contradiction.
    + intros _ LK e IE FE.
      assert (LK0 : x_lk x = None) by (destruct (pg_level p =? 1), k; cbn in LK; congruence).
      destruct IE as [<-|IE]; [fold p; congruence|]. apply (b4 _ _ _ BB P LK0 e IE FE).
Qed.
End Turns.

(** * Scans *)
Section Scans.
Variables (fwd : bool) (from : option Z) (til : option (Z * bool)).

(** The rows so far answer for the keys [D]. *)
Definition prog (D : Z -> Prop) (out : list (Z * Z)) (mid pre : list ev) : Prop :=
  asc (if fwd then map fst out else rev (map fst out)) /\
  (forall k v, In (k, v) out -> wanted fwd from til k /\ D k) /\
  (forall k, wanted fwd from til k -> D k -> exists later earlier, mid = later ++ earlier /\
     forall v, In (k, v) out <-> value (earlier ++ pre) k = Some v).

Lemma prog_extend : forall (D D' : Z -> Prop) out got mid pre, prog D out mid pre ->
  asc (if fwd then map fst got else rev (map fst got)) ->
  (forall k v, In (k, v) got -> wanted fwd from til k /\ ~ D k /\ D' k) ->
  (forall k, D k -> D' k) -> (forall k, D k \/ ~ D k) ->
  (forall x y, D x -> ~ D y -> if fwd then x < y else y < x) ->
  (forall k, wanted fwd from til k -> D' k -> ~ D k -> forall v, In (k, v) got <-> value (mid ++ pre) k = Some v) ->
  prog D' (out ++ got) mid pre.
Proof.
  intros D D' out got mid pre (P1 & P2 & P3) G1 G2 DD DC OR NOW. split; [|split].
  - assert (X : forall x y, In x (map fst out) -> In y (map fst got) -> D x /\ ~ D y).
    { intros x y X Y. apply in_map_iff in X, Y. destruct X as ([x' vx] & <- & X), Y as ([y' vy] & <- & Y).
      split; [apply (P2 _ _ X)|apply (G2 _ _ Y)]. }
    rewrite map_app. destruct fwd.
    + apply asc_app; auto. intros x y Hx Hy. destruct (X x y Hx Hy). apply (OR x y); auto.
    + rewrite rev_app_distr. apply asc_app; auto. intros x y Hx Hy. apply in_rev in Hx, Hy. destruct (X y x Hy Hx). apply (OR y x); auto.
  - intros k v I. apply in_app_iff in I. destruct I as [I|I]; [destruct (P2 _ _ I); auto|destruct (G2 _ _ I) as (A & _ & B); auto].
  - intros k W Dk. destruct (DC k) as [Y|N].
    + destruct (P3 k W Y) as (later & earlier & E & V). exists later, earlier. split; auto. intros v. rewrite <- V. rewrite in_app_iff.
      split; auto. intros [I|I]; auto. destruct (G2 _ _ I) as (_ & NN & _). contradiction.
    + exists [], mid. split; auto. intros v. rewrite <- (NOW k W Dk N). rewrite in_app_iff. split; auto. intros [I|I]; auto.
      destruct (P2 _ _ I). contradiction.
Qed.
Lemma prog_done : forall (D : Z -> Prop) out mid pre, prog D out mid pre -> (forall k, wanted fwd from til k -> D k) ->
  answer fwd from til out mid pre.
Proof.
  intros D out mid pre (P1 & P2 & P3) A. split; auto. split.
  - intros k v I. apply (P2 _ _ I).
  - intros k W. apply P3; auto.
Qed.
Lemma prog_more : forall D out e mid pre, prog D out mid pre -> prog D out (e :: mid) pre.
Proof.
  intros D out e mid pre (P1 & P2 & P3). split; auto. split; auto. intros k W Dk. destruct (P3 k W Dk) as (l & r & E & V).
  exists (e :: l), r. split; auto. cbn. congruence.
Qed.
Lemma prog_same : forall (D D' : Z -> Prop) out mid pre, (forall k, D k <-> D' k) -> prog D out mid pre -> prog D' out mid pre.
Proof.
  intros D D' out mid pre E (P1 & P2 & P3). split; auto. split.
  - intros k v I. destruct (P2 _ _ I) as [A B]. split; auto. apply E; auto.
  - intros k W Dk. apply P3; auto. apply E; auto.
Qed.
End Scans.

Definition indone (fwd : bool) (key : skey) (k : Z) : Prop :=
  match key with KAt h => if fwd then k < h else False | KHi l => l <= k | _ => False end.
Definition key_ok (x : sess) : Prop :=
  match x_fwd x, x_key x with
  | true, KNone => x_from x = None
  | true, KAt h => forall f, x_from x = Some f -> f <= h
  | false, KMax => x_from x = None
  | false, KAt f => x_from x = Some f
  | false, KHi l => forall f, x_from x = Some f -> l <= f
  | _, _ => False
  end.
Definition scan_ok (log : list ev) (s : Z) (x : sess) : Prop :=
  x_ph x <> PIdle -> x_goal x = GScan -> exists mid pre, log = mid ++ EBegin s :: pre /\ ~ In (EBegin s) mid /\
    (x_fwd x = true \/ x_haz x = false -> key_ok x /\ prog (x_fwd x) (x_from x) (x_til x) (indone (x_fwd x) (x_key x)) (x_out x) mid pre).

Lemma value_begin : forall a s b k, value (a ++ EBegin s :: b) k = value (a ++ b) k.
Proof. induction a as [|e a IH]; intros s b k; [reflexivity|]. destruct e; cbn; rewrite ?IH; auto. Qed.
Lemma value_app : forall a b b' k, value b k = value b' k -> value (a ++ b) k = value (a ++ b') k.
Proof. induction a as [|e a IH]; intros b b' k E; auto. destruct e; cbn; rewrite ?(IH b b' k E); auto. Qed.

(** ** Reading a leaf forward *)
Lemma load_fwd : forall from til key out mid pre p,
  asc (map fst (pg_items p)) -> (forall k v, In (k, v) (pg_items p) -> covers (KAt k) p = true) ->
  (forall k, covers (KAt k) p = true -> forall v, In (k, v) (pg_items p) <-> value (mid ++ pre) k = Some v) ->
  covers key p = true -> match key with KNone => from = None | KAt h => forall f, from = Some f -> f <= h | _ => False end ->
  prog true from til (indone true key) out mid pre ->
  prog true from til (fun k => match pg_hi p with None => True | Some h => k < h end)
    (out ++ filter (fun e => (match key with KAt k => k <=? fst e | _ => true end) && before_til true til (fst e)) (pg_items p)) mid pre.
Proof.
  intros from til key out mid pre p AS IN NOW C KO P. eapply prog_extend; [exact P|..].
  - cbn. apply asc_filter. exact AS.
  - intros k v I. apply filter_In in I. destruct I as [I J]. cbn in J. apply andb_true_iff in J. destruct J as [J1 J2].
    pose proof (IN _ _ I) as CK. apply cov_at in CK. split; [|split].
    + split.
      * destruct from as [f|]; auto. destruct key as [|h| |]; try discriminate; try contradiction. specialize (KO f eq_refl). lia.
      * unfold before_til in J2. destruct til as [[e [|]]|]; auto; lia.
    + unfold indone. destruct key; cbn; try contradiction; auto. lia.
    + tauto.
  - intros k Dk. unfold indone in Dk. destruct key as [|h| |]; try contradiction. apply cov_at in C. destruct (pg_hi p); auto. lia.
  - intros k. unfold indone. destruct key; try tauto; lia.
  - intros x y. cbn. unfold indone. destruct key; try contradiction. lia.
  - intros k W Dk ND v.
    assert (CK : covers (KAt k) p = true).
    { apply cov_at. split; auto. destruct key as [|h| |]; try contradiction.
      - apply cov_none in C. rewrite C. auto.
      - apply cov_at in C. cbn in ND. destruct (pg_lo p); auto. lia. }
    rewrite <- (NOW k CK v). split; intros I; [apply filter_In in I; tauto|]. apply filter_In. split; auto. cbn.
    apply andb_true_iff. split.
    + destruct key; auto. cbn in ND. lia.
    + destruct W as [_ W]. unfold before_til. destruct til as [[e [|]]|]; auto; lia.
Qed.
Lemma end_fwd : forall from til hi, contains_end true til hi = true ->
  forall k, wanted true from til k -> match hi with None => True | Some h => k < h end.
Proof.
  intros from til [h|] E k [_ W]; auto. cbn in E. destruct til as [[e [|]]|]; [| |discriminate]; lia.
Qed.

(** ** Reading a leaf backward *)
Lemma load_bwd : forall from til key norm out mid pre p,
  asc (map fst (pg_items p)) -> (forall k v, In (k, v) (pg_items p) -> covers (KAt k) p = true) ->
  (forall k, covers (KAt k) p = true -> forall v, In (k, v) (pg_items p) <-> value (mid ++ pre) k = Some v) ->
  covers key p = true ->
  match key with KMax => from = None | KAt f => from = Some f | KHi l => forall f, from = Some f -> l <= f | _ => False end ->
  (match key with KHi k => norm && negb (match pg_hi p with Some h => h =? k | None => false end) | _ => false end = false) ->
  prog false from til (indone false key) out mid pre ->
  prog false from til (fun k => match pg_lo p with None => True | Some l => l <= k end)
    (out ++ rev (filter (fun e => match key with
                               | KAt k => fun e : Z * Z => fst e <=? k
                               | KHi k => fun e => match pg_hi p with
                                          | Some h => if (h =? k) || norm then true else fst e <? k
                                          | None => if norm then true else fst e <? k
                                          end
                               | _ => fun _ => true
                               end e && before_til false til (fst e)) (pg_items p))) mid pre.
Proof.
  intros from til key norm out mid pre p AS IN NOW C KO HZ P.
  assert (CUT : forall k v, covers (KAt k) p = true ->
     (match key with
      | KAt k => fun e : Z * Z => fst e <=? k
      | KHi k => fun e => match pg_hi p with
                 | Some h => if (h =? k) || norm then true else fst e <? k
                 | None => if norm then true else fst e <? k
                 end
      | _ => fun _ => true
      end (k, v) = true <-> match key with KAt f => k <= f | KHi l => k < l | _ => True end)).
  { intros k v CK. apply cov_at in CK. destruct CK as [_ CK]. destruct key as [|f|l|]; cbn [fst]; try tauto; [lia|].
    apply cov_hi in C. destruct C as [_ C]. destruct (pg_hi p) as [h|].
    - destruct norm; cbn in HZ.
      + rewrite orb_true_r. split; auto. lia.
      + rewrite orb_false_r. destruct (Z.eqb_spec h l); split; auto; lia.
    - destruct norm; [discriminate|]. lia. }
  eapply prog_extend; [exact P|..].
  - cbn. rewrite map_rev, rev_involutive. apply asc_filter. exact AS.
  - intros k v I. apply in_rev in I. apply filter_In in I. destruct I as [I J]. apply andb_true_iff in J. destruct J as [J1 J2].
    pose proof (IN _ _ I) as CK. apply (CUT k v CK) in J1. apply cov_at in CK. cbn [fst] in J2. split; [|split].
    + split.
      * destruct from as [f|]; auto. destruct key as [|g|l|]; try discriminate; try contradiction; [injection KO as ->; auto|].
        specialize (KO f eq_refl). lia.
      * unfold before_til in J2. destruct til as [[e [|]]|]; auto; lia.
    + unfold indone. destruct key; cbn; try contradiction; auto. lia.
    + tauto.
  - intros k Dk. unfold indone in Dk. destruct key as [| |l|]; try contradiction. apply cov_hi in C. destruct (pg_lo p); auto. lia.
  - intros k. unfold indone. destruct key; try tauto; lia.
  - intros x y. cbn. unfold indone. destruct key; try contradiction. lia.
  - intros k W Dk ND v.
    assert (CK : covers (KAt k) p = true).
    { apply cov_at. split; auto. destruct key as [|f|l|]; try contradiction.
      - apply cov_at in C. destruct W as [W _]. rewrite KO in W. destruct (pg_hi p); auto. lia.
      - apply cov_hi in C. cbn in ND. destruct (pg_hi p); auto. lia.
      - apply cov_max in C. rewrite C. auto. }
    rewrite <- (NOW k CK v). rewrite <- in_rev. split; intros I; [apply filter_In in I; tauto|]. apply filter_In. split; auto.
    apply andb_true_iff. split.
    + apply (CUT k v CK). destruct key as [|f|l|]; auto. destruct W as [W _]. rewrite KO in W. auto. cbn in ND. lia.
    + cbn [fst]. destruct W as [_ W]. unfold before_til. destruct til as [[e [|]]|]; auto; lia.
Qed.
Lemma end_bwd : forall from til lo, contains_end false til lo = true ->
  forall k, wanted false from til k -> match lo with None => True | Some l => l <= k end.
Proof.
  intros from til [l|] E k [_ W]; auto. cbn in E. destruct til as [[e [|]]|]; [| |discriminate]; lia.
Qed.

(** * The whole invariant *)
Fixpoint log_ok (log : list ev) : Prop :=
  match log with
  | [] => True
  | e :: r =>
      match e with
      | EFind k v => v = value r k
      | EEnd s fwd from til out haz => fwd = true \/ haz = false ->
          exists mid pre, r = mid ++ EBegin s :: pre /\ ~ In (EBegin s) mid /\ answer fwd from til out mid pre
      | _ => True
      end /\ log_ok r
  end.

Record TI (t : tree) : Prop := mkTI {
  ti_pi : PI (t_pg t) (t_rt t);
  ti_cont : cont (t_pg t) (t_log t);
  ti_si : forall s, SI (t_pg t) (t_rt t) (t_ss t s);
  ti_scan : forall s, scan_ok (t_log t) s (t_ss t s);
  ti_log : log_ok (t_log t) }.

Lemma SI_idle : forall pg rt, SI pg rt idle.
Proof.
  intros pg rt. constructor; cbn; try discriminate; auto; try contradiction; try congruence.
Qed.
Lemma scan_idle : forall log s, scan_ok log s idle.
Proof. intros log s N. cbn in N. congruence. Qed.
Lemma scan_more : forall log e s x, scan_ok log s x -> e <> EBegin s -> scan_ok (e :: log) s x.
Proof.
  intros log e s x H N P G. destruct (H P G) as (mid & pre & A & B & D). exists (e :: mid), pre. split; [cbn; congruence|].
  split; [intros [E|E]; congruence|]. intros Q. destruct (D Q). split; auto. apply prog_more. auto.
Qed.

(** One session changes, the pages do not. *)
Lemma TI_set : forall t s x, TI t -> SI (t_pg t) (t_rt t) x -> scan_ok (t_log t) s x -> TI (set_sess t s x).
Proof.
  intros t s x [H1 H2 H3 H4 H5] A B. constructor; cbn; auto; intros s'; unfold upd; destruct (Z.eqb_spec s' s); subst; auto.
Qed.
Lemma TI_moved : forall t t', TI t -> moved t t' -> TI t'.
Proof.
  intros t t' [H1 H2 H3 H4 H5] (M1 & M2 & M3 & M4 & M5 & M6 & M7).
  constructor; rewrite ?M1, ?M2, ?M3; auto.
  - eapply cont_same; eauto.
  - intros s. eapply SI_keeps; [exact H1|exact M4|exact M5|exact M7|apply H3].
Qed.
Lemma TI_end : forall t s x haz out, TI t ->
  (x_fwd x = true \/ haz = false -> exists mid pre, t_log t = mid ++ EBegin s :: pre /\ ~ In (EBegin s) mid /\
     answer (x_fwd x) (x_from x) (x_til x) out mid pre) ->
  TI (log_end t s x haz out).
Proof.
  intros t s x haz out [H1 H2 H3 H4 H5] A. unfold log_end. constructor; cbn [t_pg t_rt t_ss t_log]; auto.
  - intros s'. unfold upd. destruct (Z.eqb_spec s' s); auto. apply SI_idle.
  - intros s'. unfold upd. destruct (Z.eqb_spec s' s); [apply scan_idle|]. apply scan_more; auto. discriminate.
  - split; auto.
Qed.

Lemma TI_load : forall t s x b, TI t -> x_goal x = GScan -> x_ph x <> PIdle -> scan_ok (t_log t) s x ->
  pg_live (t_pg t b) = true -> pg_level (t_pg t b) = 0 -> covers (x_key x) (t_pg t b) = true ->
  (x_fwd x = false -> x_haz x = false -> pg_lo (t_pg t b) = ctx_lokey x) ->
  (forall k c, In (k, c) (x_pimg x) -> snd c <= pg_gen (t_pg t (fst c)) /\
       (fresh (t_pg t) c -> pg_live (t_pg t (fst c)) = true /\ pg_lo (t_pg t (fst c)) = Some k)) ->
  (x_stk x <> [] -> snd (x_pfst x) <= pg_gen (t_pg t (fst (x_pfst x))) /\
       (fresh (t_pg t) (x_pfst x) -> pg_live (t_pg t (fst (x_pfst x))) = true)) ->
  (x_fwd x = false -> x_haz x = false -> x_sib x = false -> x_stk x <> [] -> fresh (t_pg t) (x_pfst x) ->
     pg_lo (t_pg t (fst (x_pfst x))) = x_lk x) ->
  TI (load t s x (t_pg t b)).
Proof.
  intros t s x b T G NP SC L V C LO IM FS B5. set (p := t_pg t b) in *.
  destruct (SC NP G) as (mid & pre & E1 & E2 & E34).
  assert (IA : asc (map fst (pg_items p))) by (apply (it_asc _ _ (ti_pi _ T)); auto).
  assert (II : forall k v, In (k, v) (pg_items p) -> covers (KAt k) p = true) by (intros k v I; apply (it_in _ _ (ti_pi _ T) b k v L I)).
  assert (NOW : forall k, covers (KAt k) p = true -> forall v, In (k, v) (pg_items p) <-> value (mid ++ pre) k = Some v).
  { intros k CK v. pose proof (ti_cont _ T b k L V CK v) as Q. rewrite E1, value_begin in Q. exact Q. }
  assert (SW : forall key haz out, (x_haz x = true -> haz = true) -> SI (t_pg t) (t_rt t) (with_out x key haz out)).
  { intros key haz out HM. unfold with_out. constructor; cbn; try discriminate; auto.
    - rewrite G. auto.
    - intros FW HZ. assert (x_haz x = false) by (destruct (x_haz x); auto; rewrite HM in HZ; auto; discriminate).
      constructor; cbn; try discriminate. auto. }
  unfold load. destruct (x_fwd x) eqn:FW.
  - destruct (E34 (or_introl eq_refl)) as [E3 E4]. unfold key_ok in E3. rewrite FW in E3.
    pose proof (load_fwd (x_from x) (x_til x) (x_key x) (x_out x) mid pre p IA II NOW C) as LD.
    assert (KO : match x_key x with KNone => x_from x = None | KAt h => forall f, x_from x = Some f -> f <= h | _ => False end) by (destruct (x_key x); auto).
    specialize (LD KO E4).
    destruct (contains_end true (x_til x) (pg_hi p)) eqn:CE.
    + apply TI_end; auto. intros _. exists mid, pre. rewrite FW. split; auto. split; auto. eapply prog_done; [exact LD|].
      apply (end_fwd (x_from x)). exact CE.
    + apply TI_set; auto. intros _ _. exists mid, pre. split; auto. split; auto. unfold with_out, key_ok. cbn. rewrite FW.
      destruct (pg_hi p) as [h|] eqn:HI; [|discriminate]. intros _. split.
      * intros f Ef. destruct (x_key x) as [|h0| |]; try contradiction; [congruence|]. specialize (E3 f Ef). apply cov_at in C. rewrite HI in C. lia.
      * exact LD.
  - set (haz := x_haz x || match x_key x with
                          | KHi k => x_norm x && negb (match pg_hi p with Some h => h =? k | None => false end)
                          | _ => false
                          end).
    assert (HM : x_haz x = true -> haz = true) by (intros Q; unfold haz; rewrite Q; reflexivity).
    assert (LD : haz = false -> x_haz x = false /\ (forall f, x_from x = Some f -> match pg_lo p with None => True | Some l => l <= f end) /\ match pg_lo p with None => None | Some _ => ctx_lokey x end = pg_lo p /\
       prog false (x_from x) (x_til x) (fun k => match pg_lo p with None => True | Some l => l <= k end)
        (x_out x ++ rev (filter (fun e => match x_key x with
                               | KAt k => fun e : Z * Z => fst e <=? k
                               | KHi k => fun e => match pg_hi p with
                                          | Some h => if (h =? k) || x_norm x then true else fst e <? k
                                          | None => if x_norm x then true else fst e <? k
                                          end
                               | _ => fun _ => true
                               end e && before_til false (x_til x) (fst e)) (pg_items p))) mid pre).
    { intros HZ. unfold haz in HZ. apply orb_false_iff in HZ. destruct HZ as [HZ1 HZ2]. destruct (E34 (or_intror HZ1)) as [E3 E4].
      unfold key_ok in E3. rewrite FW in E3.
      assert (KO : match x_key x with KMax => x_from x = None | KAt f => x_from x = Some f | KHi l => forall f, x_from x = Some f -> l <= f | _ => False end) by (destruct (x_key x); auto).
      split; auto. split; [|split].
      - intros f Ef. destruct (x_key x) as [|f0|l0|]; try contradiction; [|specialize (KO f Ef)|congruence].
        + apply cov_at in C. assert (f0 = f) by congruence. destruct (pg_lo p); auto. lia.
        + apply cov_hi in C. destruct (pg_lo p); auto. lia.
      - rewrite <- LO; auto. destruct (pg_lo p); auto.
      - apply load_bwd; auto. }
    fold haz.
    destruct (contains_end false (x_til x) (match pg_lo p with None => None | Some _ => ctx_lokey x end)) eqn:CE.
    + apply TI_end; auto. rewrite FW. intros [Q|Q]; [discriminate|]. destruct (LD Q) as (D1 & D0 & D2 & D3). exists mid, pre. split; auto. split; auto.
      eapply prog_done; [exact D3|]. rewrite D2 in CE. apply (end_bwd (x_from x)). exact CE.
    + apply TI_set; auto. intros _ _. exists mid, pre. split; auto. split; auto. unfold with_out, key_ok. cbn. rewrite FW.
      destruct (match pg_lo p with None => None | Some _ => ctx_lokey x end) as [l|] eqn:EL; [|discriminate].
      intros [Q|Q]; [discriminate|]. destruct (LD Q) as (D1 & D0 & D2 & D3). rewrite <- D2 in D0, D3. split; [exact D0|exact D3].
Qed.

(** ** Reaching the leaf *)
Definition set_items (t : tree) (b : Z) (l : list (Z * Z)) : Z -> page :=
  let p := t_pg t b in
  upd (t_pg t) b (mkP (pg_gen p) (pg_live p) (pg_level p) (pg_lo p) (pg_hi p) l (pg_first p) (pg_downs p) (pg_right p)).

Lemma TI_write : forall t s b l e k (r : option Z), TI t -> pg_live (t_pg t b) = true -> pg_level (t_pg t b) = 0 ->
  covers (KAt k) (t_pg t b) = true ->
  asc (map fst l) -> (forall k' v', In (k', v') l <-> if k =? k' then r = Some v' else In (k', v') (pg_items (t_pg t b))) ->
  (forall log k', value (e :: log) k' = if k =? k' then r else value log k') ->
  (match e with EPut _ _ | EDel _ => True | _ => False end) ->
  TI (mkT (set_items t b l) (t_rt t) (upd (t_ss t) s idle) (e :: t_log t)).
Proof.
  intros t s b l e k r [H1 H2 H3 H4 H5] L V C AS IT VE EV.
  assert (PI' : PI (set_items t b l) (t_rt t)).
  { unfold set_items. apply PI_one; auto; cbn.
    - intros k' v' I. apply IT in I. destruct (Z.eqb_spec k k') as [<-|N]; auto. apply (it_in _ _ H1 b k' v' L I).
    - apply H1; auto. }
  assert (KP : keeps (t_rt t) (t_pg t) (set_items t b l)) by (unfold set_items; apply keeps_one; auto).
  assert (GR : pg_gen (set_items t b l (t_rt t)) = pg_gen (t_pg t (t_rt t))) by (unfold set_items; root_gen).
  constructor; cbn [t_pg t_rt t_ss t_log]; auto.
  - intros p k' Lp Vp Cp v. rewrite VE. unfold set_items, upd in *. destruct (Z.eqb_spec p b) as [->|N].
    + cbn [pg_items]. rewrite IT. destruct (k =? k') eqn:E; [tauto|]. apply (H2 b k'); auto.
    + destruct (Z.eqb_spec k k') as [<-|NK]; [|apply (H2 p k'); auto].
      exfalso. apply N. apply (uq _ _ H1 p b (KAt k)); auto. lia.
  - intros s'. unfold upd. destruct (Z.eqb_spec s' s); [apply SI_idle|]. eapply SI_keeps; [exact H1|exact PI'|exact KP|exact GR|apply H3].
  - intros s'. unfold upd. destruct (Z.eqb_spec s' s); [apply scan_idle|]. apply scan_more; auto. destruct e; try contradiction; discriminate.
  - cbn. split; auto. destruct e; try contradiction; auto.
Qed.

Lemma TI_arrive : forall t s x, TI t -> t_ss t s = x -> x_ph x = PDesc -> fresh (t_pg t) (x_cur x) ->
  go_right (x_key x) (pg_hi (t_pg t (fst (x_cur x)))) = false -> pg_level (t_pg t (fst (x_cur x))) = 0 ->
  TI (arrive t s x (fst (x_cur x))).
Proof.
  intros t s x T E P F GR V. pose proof (ti_si _ T s) as S. rewrite E in S. destruct (si_cur _ _ _ S P) as [A B].
  destruct (B F) as [L AL]. set (b := fst (x_cur x)) in *.
  assert (C : covers (x_key x) (t_pg t b) = true) by (unfold covers; rewrite AL, GR; reflexivity).
  pose proof (si_goal _ _ _ S) as G. pose proof (it_asc _ _ (ti_pi _ T) b L) as IA. unfold arrive.
  destruct (x_goal x) as [k|k v|k|] eqn:EG.
  - destruct G as [G _]; [rewrite P; discriminate|]. rewrite G in C. destruct T as [H1 H2 H3 H4 H5].
    constructor; cbn [t_pg t_rt t_ss t_log]; auto.
    + intros s'. unfold upd. destruct (Z.eqb_spec s' s); [apply SI_idle|]. auto.
    + intros s'. unfold upd. destruct (Z.eqb_spec s' s); [apply scan_idle|]. apply scan_more; auto. discriminate.
    + split; auto. pose proof (H2 b k L V C) as Q. destruct (value (t_log t) k) as [w|] eqn:EW.
      * apply lookup_in; auto. apply Q. reflexivity.
      * destruct (lookup (pg_items (t_pg t b)) k) as [w|] eqn:EL; auto. apply lookup_in in EL; auto. apply Q in EL. discriminate.
  - destruct G as [G _]; [rewrite P; discriminate|]. rewrite G in C.
    apply (TI_write t s b _ (EPut k v) k (Some v)); auto.
    + apply put_asc; auto.
    + intros k' v'. rewrite (lookup_in _ _ _ (put_asc _ k v IA)), lookup_put by auto. destruct (k =? k'); [tauto|]. rewrite lookup_in by auto. tauto.
  - destruct G as [G _]; [rewrite P; discriminate|]. rewrite G in C.
    apply (TI_write t s b _ (EDel k) k None); auto.
    + apply asc_filter; auto.
    + intros k' v'. unfold del. rewrite filter_In. cbn [fst]. destruct (Z.eqb_spec k k') as [->|N].
      * rewrite Z.eqb_refl. cbn. split; [intros [_ Q]|]; discriminate.
      * replace (k' =? k) with false by lia. cbn. tauto.
  - apply TI_load; auto.
    + rewrite P. discriminate.
    + rewrite <- E. apply T.
    + intros FW HZ. apply (b2 _ _ _ (si_b _ _ _ S FW HZ) P F V).
    + apply S.
    + apply S.
    + intros FW HZ X1 X2 X3. apply (b2 _ _ _ (si_b _ _ _ S FW HZ) P F V); auto.
Qed.

Lemma scan_upto : forall log s x x', scan_ok log s x -> x_ph x <> PIdle -> x_goal x' = x_goal x -> x_key x' = x_key x ->
  x_fwd x' = x_fwd x -> x_from x' = x_from x -> x_til x' = x_til x -> x_out x' = x_out x -> (x_haz x = true -> x_haz x' = true) ->
  scan_ok log s x'.
Proof.
  intros log s x x' H P E1 E2 E3 E4 E5 E6 E7 P' G. rewrite E1 in G. destruct (H P G) as (mid & pre & A & B & C).
  exists mid, pre. split; auto. split; auto. unfold key_ok. rewrite E2, E3, E4, E5, E6. intros Q. apply C.
  destruct Q as [Q|Q]; auto. right. destruct (x_haz x); auto. rewrite E7 in Q; auto.
Qed.

Lemma TI_read : forall t s x, TI t -> t_ss t s = x -> x_ph x = PDesc -> TI (read_page t s x).
Proof.
  intros t s x T E P. pose proof (ti_si _ T s) as S. rewrite E in S. pose proof (ti_scan _ T s) as SC. rewrite E in SC.
  pose proof (ti_pi _ T) as H. assert (NP : x_ph x <> PIdle) by (rewrite P; discriminate).
  unfold read_page. destruct (x_cur x) as [b g] eqn:EC.
  assert (UP : x_stk x <> [] -> TI (set_sess t s (upward t x))).
  { intros N. apply TI_set; auto; [apply SI_upward; auto|]. eapply scan_upto; [exact SC|exact NP|..]; unfold upward;
      destruct (x_stk x); cbn; auto; try congruence. intros ->. reflexivity. }
  assert (RTE : x_stk x = [] -> b = t_rt t /\ pg_gen (t_pg t b) = g).
  { intros N. pose proof (si_root _ _ _ S P) as R. rewrite N, EC in R. cbn in R. split; auto.
    pose proof (si_rg _ _ _ S P (x_cur x) (or_introl eq_refl)) as RG. rewrite EC in RG. apply RG. auto. }
  destruct (Z.eqb_spec (pg_gen (t_pg t b)) g) as [G|G]; cbn [negb].
  2:{ apply UP. intros N. destruct (RTE N). contradiction. }
  assert (F : fresh (t_pg t) (x_cur x)) by (rewrite EC; exact G).
  assert (EB : b = fst (x_cur x)) by (rewrite EC; reflexivity).
  destruct (go_right (x_key x) (pg_hi (t_pg t b))) eqn:GR.
  - destruct (pg_right (t_pg t b)) as [r|] eqn:R.
    + apply TI_set; auto.
      * rewrite EB. apply SI_rightward; auto; rewrite <- EB; auto.
      * eapply scan_upto; [exact SC|exact NP|..]; auto.
    + apply UP. intros N. destruct (RTE N) as [-> _]. rewrite (r_hi _ _ H) in GR. discriminate.
  - destruct (si_cur _ _ _ S P) as [A B]. destruct (B F) as [L _]. rewrite <- EB in L. pose proof (lv _ _ H b L) as LV.
    destruct (Z.eqb_spec (pg_level (t_pg t b)) 0) as [V|V].
    + rewrite EB. apply TI_arrive; auto; rewrite <- EB; auto.
    + apply TI_set; auto.
      * rewrite EB. apply SI_downward; auto. rewrite <- EB. lia.
      * eapply scan_upto; [exact SC|exact NP|..]; unfold downward; destruct (pick _ _ _); auto.
Qed.

Lemma prev_ok : forall pk ds cur, let '(k, c) := prev_of pk cur ds in (k, c) = cur \/ exists k', k = Some k' /\ In (k', c) ds.
Proof.
  induction ds as [|[k0 c0] ds IH]; cbn; intros [k c]; [auto|]. destruct (k0 <? pk); [|auto].
  specialize (IH (Some k0, c0)). destruct (prev_of pk (Some k0, c0) ds) as [k1 c1]. right.
  destruct IH as [I2|(k' & I2 & I3)]; [injection I2 as -> ->; exists k0; auto|exists k'; auto].
Qed.

Lemma TI_next : forall t s x, TI t -> t_ss t s = x -> x_ph x = PNext -> TI (next_page t s x).
Proof.
  intros t s x T E P. pose proof (ti_si _ T s) as S. rewrite E in S. pose proof (ti_scan _ T s) as SC. rewrite E in SC.
  pose proof (ti_pi _ T) as H. assert (NP : x_ph x <> PIdle) by (rewrite P; discriminate).
  assert (G : x_goal x = GScan).
  { pose proof (si_goal _ _ _ S) as G. destruct (x_goal x); auto; destruct (G NP) as [_ Q]; congruence. }
  assert (FB : TI (set_sess t s (descend t x (x_key x)))).
  { apply TI_set; auto.
    - apply SI_root_link; auto. unfold descend. cbn. rewrite G. auto.
    - eapply scan_upto; [exact SC|exact NP|..]; auto. }
  unfold next_page. destruct (x_stk x) as [|e0 stk0] eqn:ES; [exact FB|].
  assert (NS : x_stk x <> []) by (rewrite ES; discriminate). rewrite <- ES in *. clear ES e0 stk0.
  destruct (x_fwd x) eqn:FW.
  - destruct (next_down x) as [[k [b g]]|] eqn:ND; [|exact FB]. destruct (x_key x) as [|h|h|] eqn:EK; try exact FB.
    destruct ((k =? h) && (pg_gen (t_pg t b) =? g) && (pg_level (t_pg t b) =? 0)) eqn:Q; [|exact FB].
    apply andb_true_iff in Q. destruct Q as [Q Q3]. apply andb_true_iff in Q. destruct Q as [Q1 Q2].
    assert (k = h) by lia. subst k. apply find_some in ND. destruct ND as [ND _].
    destruct (si_img _ _ _ S h (b, g) ND) as [I1 I2]. destruct I2 as [I2 I3]; [unfold fresh; cbn; lia|]. cbn [fst snd] in *.
    apply TI_load; cbn; auto; try discriminate; try lia.
    + eapply scan_upto; [exact SC|exact NP|..]; cbn; auto.
    + apply cov_at. rewrite I3. split; [lia|]. pose proof (rng _ _ H b I2) as W. rewrite I3 in W. exact W.
    + apply S.
    + apply S.
  - destruct (x_sib x) eqn:SB; [exact FB|]. destruct (x_pkey x) as [pk|] eqn:PK; [|exact FB].
    destruct (x_key x) as [|h|l|] eqn:EK; try exact FB.
    pose proof (prev_ok pk (x_pimg x) (None, x_pfst x)) as PV. destruct (prev_of pk (None, x_pfst x) (x_pimg x)) as [k [b g]].
    destruct (_ && _ && _) eqn:Q; [|exact FB]. apply andb_true_iff in Q. destruct Q as [Q Q3]. apply andb_true_iff in Q. destruct Q as [Q1 Q2].
    destruct (pg_hi (t_pg t b)) as [h|] eqn:HI; [|discriminate]. assert (h = l) by lia. subst h.
    assert (FR : fresh (t_pg t) (b, g)) by (unfold fresh; cbn; lia).
    assert (LV : pg_live (t_pg t b) = true /\ (x_haz x = false -> pg_lo (t_pg t b) = match k with Some k => Some k | None => x_lk x end)).
    { destruct PV as [PV|(k' & -> & PV)].
      - injection PV as -> PF. destruct (si_fst _ _ _ S NS) as [_ F2]. rewrite <- PF in F2. split; [apply F2; auto|].
        intros HZ. pose proof (b5 _ _ _ (si_b _ _ _ S FW HZ) P SB NS) as Q5. rewrite <- PF in Q5. apply Q5; auto.
      - destruct (si_img _ _ _ S k' (b, g) PV) as [_ I2]. destruct (I2 FR) as [I3 I4]. split; auto. }
    destruct LV as [LV1 LV2].
    apply TI_load; cbn; auto; try discriminate; try lia.
    + eapply scan_upto; [exact SC|exact NP|..]; cbn; auto.
    + apply cov_hi. rewrite HI. split; [|lia]. pose proof (rng _ _ H b LV1) as W. rewrite HI in W. unfold lt_opt in W. exact W.
    + apply S.
    + apply S.
    + intros _ HZ _ _ F. apply (b5 _ _ _ (si_b _ _ _ S FW HZ) P SB NS F).
Qed.

Lemma TI_step : forall t o, TI t -> TI (step t o).
Proof.
  intros t o T. pose proof (ti_pi _ T) as H. destruct o; cbn [step];
    try (eapply TI_moved; [exact T|]; first [apply moved_split|apply moved_down|apply moved_clear|apply moved_root|apply moved_merge]; auto; fail).
  - destruct (idle_b t s); auto. apply TI_set; auto; [apply SI_root_link; cbn; auto|]. intros _ G. discriminate.
  - destruct (idle_b t s); auto. apply TI_set; auto; [apply SI_root_link; cbn; auto|]. intros _ G. discriminate.
  - destruct (idle_b t s); auto. apply TI_set; auto; [apply SI_root_link; cbn; auto|]. intros _ G. discriminate.
  - destruct (idle_b t s) eqn:ID; auto. destruct T as [H1 H2 H3 H4 H5]. constructor; cbn [t_pg t_rt t_ss t_log]; auto.
    + intros s'. unfold upd. destruct (Z.eqb_spec s' s); auto. apply SI_root_link; cbn; auto.
    + intros s'. unfold upd. destruct (Z.eqb_spec s' s) as [->|N].
      * intros _ _. exists [], (t_log t). split; auto. split; auto. cbn. intros _. split.
        -- unfold key_ok, begin_scan, start_key. cbn. destruct from, fwd; auto. intros f E. injection E as ->. lia.
        -- split; [destruct fwd; cbn; auto|]. split; [intros ? ? []|]. intros k [W _] D. exfalso.
           unfold start_key in D. destruct from, fwd; cbn in *; auto. lia.
      * apply scan_more; auto. congruence.
    + cbn. auto.
  - destruct (x_ph (t_ss t s)) eqn:P; auto; [apply TI_read; auto|apply TI_next; auto].
Qed.

Lemma TI_init : TI init.
Proof.
  assert (LR : pg_live (t_pg init 0) = true) by reflexivity.
  assert (L0 : forall p, pg_live (t_pg init p) = true -> p = 0).
  { intros p L. cbn in L. unfold upd in L. destruct (Z.eqb_spec p 0); auto. discriminate. }
  constructor.
  - constructor; try reflexivity.
    + intros p L. rewrite (L0 p L). cbn. lia.
    + intros p L. rewrite (L0 p L). cbn. auto.
    + intros p q key Lp Lq _ _ _. rewrite (L0 p Lp), (L0 q Lq). reflexivity.
    + intros n key N. cbn in N. exists 0. split; auto. split; [cbn; lia|]. destruct key; reflexivity.
    + intros p L. rewrite (L0 p L). cbn. auto.
    + intros p k v L. rewrite (L0 p L). intros [].
    + intros p L. rewrite (L0 p L). cbn. auto.
    + intros p k v L. rewrite (L0 p L). intros [].
    + intros p L. rewrite (L0 p L). cbn. lia.
    + intros p c L. rewrite (L0 p L). cbn. discriminate.
    + intros c L N. rewrite (L0 c L) in N. contradiction.
    + exists [0]. intros p L. left. symmetry. auto.
  - intros p k L V C v. rewrite (L0 p L). cbn. split; [intros []|discriminate].
  - intros s. apply SI_idle.
  - intros s. apply scan_idle.
  - exact Logic.I.
Qed.

Lemma TI_run : forall ops, TI (run step init ops).
Proof. intros ops. apply (run_inv _ _ step TI); [apply TI_step|apply TI_init]. Qed.
