From Coq Require Import ZArith List Bool Lia.
From Coq Require Import ZifyBool ZifyNat ZifyN.
From Verif Require Import Base SavepointModel SavepointSpec.
Import ListNotations.
Open Scope Z_scope.

Arguments get_item : simpl never.
Definition eqdb (a b : Z -> Z) : Prop := forall k, a k = b k.

Inductive Chain (mem : list item) : loc -> list nat -> Prop :=
| Ch_nil : Chain mem None []
| Ch_cons : forall x r, (x < length mem)%nat -> (forall y, In y r -> (y < x)%nat) ->
    Chain mem (item_prev (get_item mem x)) r -> Chain mem (Some x) (x :: r).

Definition isact (mem : list item) (x : nat) : bool :=
  match get_item mem x with IAct _ _ _ => true | _ => false end.
Definition act (mem : list item) (x : nat) : Z :=
  match get_item mem x with IAct a _ _ => a | _ => 0 end.

Inductive OC (mem : list item) : loc -> list nat -> Prop :=
| OC_nil : OC mem None []
| OC_cons : forall x a p o r, get_item mem x = IAct a p o -> OC mem o r -> OC mem (Some x) (x :: r).

Definition rev_list (mem : list item) (ls : list nat) (db : Z -> Z) : Z -> Z :=
  fold_left (fun d x => revert_item (get_item mem x) d) ls db.

Arguments isact : simpl never.
Arguments rev_list : simpl never.

Lemma rev_list_cons : forall mem x l db,
  rev_list mem (x :: l) db = rev_list mem l (revert_item (get_item mem x) db).
Proof. reflexivity. Qed.

Definition acts_of (mem : list item) (ls : list nat) : list Z := map (act mem) (filter (isact mem) ls).

Lemma get_item_app : forall mem m2 x, (x < length mem)%nat -> get_item (mem ++ m2) x = get_item mem x.
Proof. intros. unfold get_item. apply app_nth1. assumption. Qed.

Lemma get_item_new : forall mem i, get_item (mem ++ [i]) (length mem) = i.
Proof. intros. unfold get_item. rewrite app_nth2 by lia. rewrite Nat.sub_diag. reflexivity. Qed.

Lemma Chain_lt : forall mem l ls, Chain mem l ls -> forall x, In x ls -> (x < length mem)%nat.
Proof.
  induction 1 as [|x r Hx Hd Hc IH]; intros y Hy; [inversion Hy|].
  destruct Hy as [<-|Hy]; [assumption|]. apply Hd in Hy. lia.
Qed.

Lemma Chain_app : forall mem m2 l ls, Chain mem l ls -> Chain (mem ++ m2) l ls.
Proof.
  induction 1 as [|x r Hx Hd Hc IH]; constructor; auto.
  - rewrite app_length. lia.
  - rewrite get_item_app by assumption. exact IH.
Qed.

Lemma Chain_len : forall mem l ls, Chain mem l ls -> (length ls <= length mem)%nat.
Proof.
  intros mem l ls H.
  assert (G : forall n l ls, Chain mem l ls -> (forall x, In x ls -> (x < n)%nat) -> (length ls <= n)%nat).
  { clear. induction n as [|n IH]; intros l ls H Hlt.
    - destruct H as [|x r]; [cbn; lia|]. exfalso. specialize (Hlt x (or_introl eq_refl)). lia.
    - destruct H as [|x r Hx Hd Hc]; [cbn; lia|]. cbn [length].
      specialize (IH _ _ Hc). pose proof (Hlt x (or_introl eq_refl)) as Hxn.
      assert (length r <= n)%nat; [|lia]. apply IH. intros y Hy. apply Hd in Hy. lia. }
  eapply G; eauto. eapply Chain_lt; eauto.
Qed.

Lemma OC_app : forall mem m2 l ls, OC mem l ls -> (forall x, In x ls -> (x < length mem)%nat) ->
  OC (mem ++ m2) l ls.
Proof.
  induction 1 as [|x a p o r Hg Ho IH]; intros H; [constructor|].
  econstructor; [rewrite get_item_app; [exact Hg|apply H; left; reflexivity]|].
  apply IH. intros. apply H. right. assumption.
Qed.

Lemma isact_app : forall mem m2 ls, (forall x, In x ls -> (x < length mem)%nat) ->
  filter (isact (mem ++ m2)) ls = filter (isact mem) ls.
Proof.
  induction ls as [|h t IH]; intros H; [reflexivity|]. cbn [filter].
  replace (isact (mem ++ m2) h) with (isact mem h)
    by (unfold isact; rewrite get_item_app; [reflexivity|apply H; left; reflexivity]).
  rewrite IH; [reflexivity|]. intros. apply H. right. assumption.
Qed.

Lemma acts_app : forall mem m2 ls, (forall x, In x ls -> (x < length mem)%nat) ->
  acts_of (mem ++ m2) ls = acts_of mem ls.
Proof.
  intros. unfold acts_of. rewrite isact_app by assumption.
  apply map_ext_in. intros x Hx. apply filter_In in Hx. unfold act. rewrite get_item_app; [reflexivity|].
  apply H. tauto.
Qed.

Lemma rev_list_mem : forall mem m2 ls db, (forall x, In x ls -> (x < length mem)%nat) ->
  rev_list (mem ++ m2) ls db = rev_list mem ls db.
Proof.
  intros mem m2. unfold rev_list. induction ls as [|h t IH]; intros db H; [reflexivity|]. cbn [fold_left].
  rewrite get_item_app by (apply H; left; reflexivity). apply IH. intros. apply H. right. assumption.
Qed.

Lemma rev_list_ext : forall mem ls d1 d2, eqdb d1 d2 -> eqdb (rev_list mem ls d1) (rev_list mem ls d2).
Proof.
  intros mem. unfold rev_list. induction ls as [|h t IH]; intros d1 d2 H; [exact H|]. cbn [fold_left].
  apply IH. intros k. destruct (get_item mem h); cbn; try apply H.
  unfold upd. destruct (k =? k0); auto.
Qed.

Lemma rev_list_app : forall mem a b db, rev_list mem (a ++ b) db = rev_list mem b (rev_list mem a db).
Proof. intros. unfold rev_list. apply fold_left_app. Qed.

(** ** The walk *)
Lemma walk_abort_ok : forall mem to a b l db onc fuel,
  Chain mem l (a ++ b) -> (length a <= fuel)%nat ->
  (forall x, In x a -> match to with Some t => (t < x)%nat | None => True end) ->
  match to with Some t => exists r, b = t :: r | None => b = [] end ->
  OC mem onc (filter (isact mem) (a ++ b)) ->
  exists onc', walk_abort fuel mem l to db onc = (match b with [] => None | t :: _ => Some t end,
                  rev_list mem a db, onc') /\
     OC mem onc' (filter (isact mem) b).
Proof.
  intros mem to. induction a as [|x a IH]; intros b l db onc fuel HC Hf Ha Hb HO.
  - cbn [app] in *. exists onc. split; [|exact HO].
    destruct fuel as [|f].
    + cbn. destruct b as [|t r]; inv HC; reflexivity.
    + destruct b as [|t r]; inv HC; cbn [walk_abort]; [reflexivity|].
      destruct to as [t'|]; [|discriminate]. destruct Hb as [r' Hb]. injection Hb as <- <-.
      rewrite Nat.ltb_irrefl. reflexivity.
  - cbn [app] in HC, HO. inversion HC as [|x' r' Hx Hd HC' E1 E2]; subst.
    destruct fuel as [|f]; [cbn in Hf; lia|].
    cbn [walk_abort].
    replace (match to with Some t => Nat.ltb t x | None => true end) with true.
    2:{ destruct to as [t|]; [|reflexivity]. specialize (Ha x (or_introl eq_refl)). cbn in Ha.
        symmetry. apply Nat.ltb_lt. exact Ha. }
    rewrite rev_list_cons.
    assert (HO' : OC mem (if loc_eqb onc (Some x) then match get_item mem x with IAct _ _ o => o | _ => onc end
                          else onc) (filter (isact mem) (a ++ b))).
    { cbn [filter] in HO. destruct (isact mem x) eqn:Ei.
      - inversion HO as [|x' aa p o r Hg Ho]; subst. cbn. rewrite Nat.eqb_refl, Hg. exact Ho.
      - destruct onc as [y|].
        + inversion HO as [|x' aa p o r Hg Ho E1 E2]; subst. cbn.
          assert (Hy : In y (a ++ b)).
          { assert (In y (filter (isact mem) (a ++ b))) by (rewrite <- E2; left; reflexivity).
            apply filter_In in H. tauto. }
          apply Hd in Hy. replace (Nat.eqb y x) with false by (symmetry; apply Nat.eqb_neq; lia).
          rewrite E2; exact HO.
        + cbn. exact HO. }
    destruct (IH b _ (revert_item (get_item mem x) db) _ f HC' ltac:(cbn in Hf; lia)
                (fun y Hy => Ha y (or_intror Hy)) Hb HO') as [onc' [Hw Ho']].
    exists onc'. split; [exact Hw|exact Ho'].
Qed.

Lemma walk_commit_ok : forall mem ls l fuel, OC mem l ls -> (length ls <= fuel)%nat ->
  walk_commit fuel mem l = map (act mem) ls.
Proof.
  induction ls as [|x r IH]; intros l fuel H Hf.
  - inv H. destruct fuel; reflexivity.
  - inversion H as [|x' a p o r' Hg Ho]; subst. destruct fuel as [|f]; [cbn in Hf; lia|].
    cbn [walk_commit map]. rewrite Hg. unfold act at 1. rewrite Hg. f_equal. apply IH; [exact Ho|cbn in Hf; lia].
Qed.

Lemma filter_len : forall A (f : A -> bool) l, (length (filter f l) <= length l)%nat.
Proof. induction l as [|h t IH]; cbn; [lia|]. destruct (f h); cbn; lia. Qed.

(** ** Invariant of every execution *)
Fixpoint desc (stk : list Z) : Prop :=
  match stk with [] => True | x :: r => cur_id r < x /\ desc r end.

Definition good (m : option Z) (p : Z) : bool :=
  match m with Some m => m <=? p | None => false end.

(** The recorded subtransaction items of the open levels, innermost first. *)
Fixpoint LevF (mem : list item) (m : option Z) (stk : list Z) (sub : loc) (ch : list nat) : Prop :=
  match stk with
  | [] => True
  | id :: r =>
      good m (cur_id r) = true ->
      exists a x b ps pv, ch = a ++ x :: b /\ sub = Some x /\
        get_item mem x = ISub (cur_id r) ps pv /\ LevF mem m r ps (x :: b)
  end.

Record UI (db0 : Z -> Z) (s : ust) (ch : list nat) : Prop := mkUI {
  ui_ch : Chain (u_mem s) (u_loc s) ch;
  ui_oc : OC (u_mem s) (u_onc s) (filter (isact (u_mem s)) ch);
  ui_db : eqdb (rev_list (u_mem s) ch (u_db s)) db0;
  ui_desc : desc (u_stk s);
  ui_next : cur_id (u_stk s) < u_nextid s;
  ui_ret : u_ret s = false -> ch = [] /\ u_min s = None /\ u_onc s = None /\ eqdb (u_db s) db0;
  ui_lev : LevF (u_mem s) (u_min s) (u_stk s) (u_sub s) ch;
  ui_fatal : u_fatal s = false
}.

Lemma LevF_app : forall mem m2 m stk sub ch, (forall x, In x ch -> (x < length mem)%nat) ->
  LevF mem m stk sub ch -> LevF (mem ++ m2) m stk sub ch.
Proof.
  induction stk as [|id r IH]; intros sub ch Hlt H; cbn [LevF] in *; [exact I|].
  intros Hg. destruct (H Hg) as [a [x [b [ps [pv [Hc [Hs [Hi HL]]]]]]]].
  exists a, x, b, ps, pv. repeat split; auto.
  - rewrite get_item_app; [exact Hi|]. apply Hlt. rewrite Hc. apply in_or_app. right. left. reflexivity.
  - apply IH; [|exact HL]. intros y Hy. apply Hlt. rewrite Hc. apply in_or_app. right. exact Hy.
Qed.

Lemma LevF_prepend : forall mem m stk sub p ch, LevF mem m stk sub ch -> LevF mem m stk sub (p ++ ch).
Proof.
  intros mem m [|id r] sub p ch H; cbn [LevF] in *; [exact I|].
  intros Hg. destruct (H Hg) as [a [x [b [ps [pv [Hc [Hs [Hi HL]]]]]]]].
  exists (p ++ a), x, b, ps, pv. repeat split; auto. rewrite Hc, app_assoc. reflexivity.
Qed.

(** Levels below a level that is not recorded are not recorded either. *)
Lemma LevF_bad : forall mem m stk sub ch, desc stk -> good m (cur_id stk) = false -> LevF mem m stk sub ch.
Proof.
  intros mem m [|id r] sub ch Hd Hg; cbn [LevF]; [exact I|]. intros Hg'. exfalso.
  cbn in Hd, Hg. destruct Hd as [Hd _]. unfold good in *. destruct m as [m|]; [|discriminate]. lia.
Qed.

Lemma UI_init : forall db0, UI db0 (uinit db0) [].
Proof.
  intros. constructor; cbn; auto; try constructor; try lia; try reflexivity.
  repeat split; reflexivity.
Qed.

(** Rolling back to a suffix of the chain. *)
Lemma walk_stack_abort_ok : forall db0 s ch a b to,
  UI db0 s ch -> ch = a ++ b ->
  match to with Some t => exists r, b = t :: r | None => b = [] end ->
  let s' := walk_stack_abort s (Some to) in
  let n := length (u_mem s) in
  u_db s' = rev_list (u_mem s) a (u_db s) /\
  u_mem s' = u_mem s ++ [IBranch (u_loc s) (u_branch s) to] /\
  u_loc s' = Some n /\ u_branch s' = Some n /\ u_sub s' = u_sub s /\
  u_min s' = u_min s /\ u_ret s' = u_ret s /\ u_stk s' = u_stk s /\ u_nextid s' = u_nextid s /\
  u_done s' = u_done s /\ u_fatal s' = u_fatal s /\
  Chain (u_mem s') (u_loc s') (n :: b) /\
  OC (u_mem s') (u_onc s') (filter (isact (u_mem s')) (n :: b)) /\
  eqdb (rev_list (u_mem s') (n :: b) (u_db s')) db0 /\
  (forall x, In x b -> (x < n)%nat).
Proof.
  intros db0 s ch a b to HU Hch Hto. destruct HU as [Hc Ho Hd _ _ _ _ _]. subst ch.
  assert (Hlt := Chain_lt _ _ _ Hc).
  assert (Hfuel : (length a <= length (u_mem s))%nat).
  { pose proof (Chain_len _ _ _ Hc). rewrite app_length in H. lia. }
  assert (Ha : forall x, In x a -> match to with Some t => (t < x)%nat | None => True end).
  { intros x Hx. destruct to as [t|]; [|exact I]. destruct Hto as [r ->].
    clear - Hc Hx. revert Hc. generalize (u_loc s). induction a as [|h a IH]; intros l Hc; [inversion Hx|].
    cbn in Hc. inversion Hc as [|x' r' Hx' Hd' HC' E1 E2]; subst. destruct Hx as [->|Hx].
    - apply Hd'. apply in_or_app. right. left. reflexivity.
    - eapply IH; eauto. }
  destruct (walk_abort_ok (u_mem s) to a b (u_loc s) (u_db s) (u_onc s) (length (u_mem s))
              Hc Hfuel Ha Hto Ho) as [onc' [Hw Ho']].
  unfold walk_stack_abort. rewrite Hw. cbn.
  assert (Hb : match b with [] => None | t :: _ => Some t end = to).
  { destruct to as [t|]; [destruct Hto as [r ->]; reflexivity|subst b; reflexivity]. }
  rewrite Hb.
  assert (Hblt : forall x, In x b -> (x < length (u_mem s))%nat)
    by (intros; apply Hlt; apply in_or_app; auto).
  assert (HCb : Chain (u_mem s) to b).
  { clear - Hc Hb. revert Hc. generalize (u_loc s). induction a as [|h a IH]; intros l Hc.
    - cbn in Hc. destruct Hc; subst; [constructor|]. constructor; auto.
    - inversion Hc; subst. eapply IH; eauto. }
  repeat split; auto.
  - constructor; [rewrite app_length; cbn; lia|exact Hblt|].
    rewrite get_item_new. cbn. apply Chain_app. exact HCb.
  - replace (isact (u_mem s ++ [IBranch (u_loc s) (u_branch s) to]) (length (u_mem s))) with false
      by (unfold isact; rewrite get_item_new; reflexivity).
    rewrite isact_app by exact Hblt. apply OC_app; [exact Ho'|].
    intros x Hx. apply filter_In in Hx. apply Hblt. tauto.
  - rewrite rev_list_cons, get_item_new. cbn [revert_item].
    rewrite rev_list_mem by exact Hblt. rewrite <- rev_list_app. exact Hd.
Qed.

Lemma upd_self : forall f k v, eqdb (upd (upd f k v) k (f k)) f.
Proof. intros f k v x. unfold upd. destruct (Z.eqb_spec x k); subst; auto. Qed.

(** Pushing an item written by this transaction. *)
Lemma push_ok : forall db0 s ch it db' sub' onc' m' stk' n',
  UI db0 s ch -> item_prev it = u_loc s ->
  eqdb (revert_item it db') (u_db s) ->
  (match it with IAct _ _ o => o = u_onc s /\ onc' = Some (length (u_mem s)) | _ => onc' = u_onc s end) ->
  desc stk' -> cur_id stk' < n' ->
  LevF (u_mem s ++ [it]) m' stk' sub' (length (u_mem s) :: ch) ->
  UI db0 (mkUst (u_mem s ++ [it]) (Some (length (u_mem s))) (u_branch s) sub' onc' m' true db'
            stk' n' (u_done s) false) (length (u_mem s) :: ch).
Proof.
  intros db0 s ch it db' sub' onc' m' stk' n' [Hc Ho Hd Hde Hn Hr Hl Hf] Hp Hrev Honc Hds Hns HL.
  assert (Hlt := Chain_lt _ _ _ Hc).
  constructor; cbn; auto.
  - constructor; [rewrite app_length; cbn; lia|exact Hlt|]. rewrite get_item_new, Hp.
    apply Chain_app. exact Hc.
  - assert (HO' : OC (u_mem s ++ [it]) (u_onc s) (filter (isact (u_mem s ++ [it])) ch)).
    { rewrite isact_app by exact Hlt. apply OC_app; [exact Ho|].
      intros x Hx. apply filter_In in Hx. apply Hlt. tauto. }
    assert (Hx : isact (u_mem s ++ [it]) (length (u_mem s)) = match it with IAct _ _ _ => true | _ => false end)
      by (unfold isact; rewrite get_item_new; reflexivity).
    rewrite Hx. destruct it; try (subst onc'; exact HO').
    destruct Honc as [-> ->]. econstructor; [apply get_item_new|exact HO'].
  - rewrite rev_list_cons, get_item_new. rewrite rev_list_mem by exact Hlt.
    intros k. rewrite (rev_list_ext _ _ _ _ Hrev k). apply Hd.
  - discriminate.
Qed.

Lemma ISub_not_act : forall mem x p ps pv, get_item mem x = ISub p ps pv -> isact mem x = false.
Proof. intros. unfold isact. rewrite H. reflexivity. Qed.

Lemma start_lev : forall db0 s ch, UI db0 s ch -> u_ret s = true ->
  let it := ISub (cur_id (u_stk s)) (u_sub s) (u_loc s) in
  let m' := match u_min s with None => Some (cur_id (u_stk s)) | m => m end in
  let n := length (u_mem s) in
  LevF (u_mem s ++ [it]) m' (u_nextid s :: u_stk s) (Some n) (n :: ch).
Proof.
  intros db0 s ch HU Er it m' n. pose proof HU as [Hc Ho Hd Hde Hn Hr Hl Hf].
  assert (Hlt := Chain_lt _ _ _ Hc).
  cbn [LevF]. intros Hg. exists [], n, ch, (u_sub s), (u_loc s). repeat split; auto.
  - apply get_item_new.
  - unfold m'. destruct (u_min s) eqn:Em.
    + apply (LevF_prepend _ _ _ _ [n]). apply LevF_app; assumption.
    + destruct (u_stk s) as [|id r]; cbn [LevF]; [exact I|].
      cbn in Hde. cbn [good cur_id]. lia.
Qed.

(** Rolling back the innermost level. *)
Lemma abort_sub_ok : forall db0 s ch id r, UI db0 s ch -> u_stk s = id :: r -> u_ret s = true ->
  let s' := set_stk (abort_sub_undo s (cur_id r)) r (u_nextid s) in
  exists a b, ch = a ++ b /\ UI db0 s' (length (u_mem s) :: b) /\
    u_done s' = u_done s /\ u_min s' = u_min s /\ u_ret s' = true /\
    u_db s' = rev_list (u_mem s) a (u_db s) /\
    (exists it, u_mem s' = u_mem s ++ [it] /\ isact (u_mem s') (length (u_mem s)) = false /\
       it = IBranch (u_loc s) (u_branch s) (match b with [] => None | x :: _ => Some x end)) /\
    u_branch s' = Some (length (u_mem s)) /\
    (if good (u_min s) (cur_id r)
     then exists x b' ps pv, b = x :: b' /\ u_sub s = Some x /\
            get_item (u_mem s) x = ISub (cur_id r) ps pv /\
            u_sub s' = ps /\ LevF (u_mem s) (u_min s) r ps b
     else b = []).
Proof.
  intros db0 s ch id r HU Es Er s'. pose proof HU as [Hc Ho Hd Hde Hn Hr Hl Hf].
  assert (Hlt := Chain_lt _ _ _ Hc).
  rewrite Es in *. cbn in Hde. destruct Hde as [Hid Hde]. cbn [cur_id] in Hn.
  unfold s'.
  cbn [LevF] in Hl.
  destruct (good (u_min s) (cur_id r)) eqn:Eg.
  - destruct (Hl eq_refl) as [a [x [b [ps [pv [Hch [Hs [Hi HL]]]]]]]].
    exists a, (x :: b). split; [exact Hch|].
    assert (Ep : match u_min s with Some m => if cur_id r <? m then None else Some (cur_id r) | None => None end
                 = Some (cur_id r)).
    { unfold good in Eg. destruct (u_min s) as [m|]; [|discriminate].
      destruct (cur_id r <? m) eqn:E; [lia|reflexivity]. }
    assert (Eab : abort_sub_undo s (cur_id r) = set_sub (walk_stack_abort s (Some (Some x))) ps).
    { unfold abort_sub_undo. rewrite Er, Ep. unfold rollback_to. rewrite Hs. unfold search_sub.
      rewrite Hi, Z.eqb_refl. reflexivity. }
    rewrite Eab.
    destruct (walk_stack_abort_ok db0 s ch a (x :: b) (Some x) HU Hch ltac:(eexists; reflexivity))
      as [W1 [W2 [W3 [W4 [W5 [W6 [W7 [W8 [W9 [W10 [W11 [W12 [W13 [W14 W15]]]]]]]]]]]]]].
    set (w := walk_stack_abort s (Some (Some x))) in *. clearbody w.
    set (n := length (u_mem s)) in *.
    split; [|cbn; repeat split; auto; try congruence].
    + constructor; cbn.
      * exact W12.
      * exact W13.
      * exact W14.
      * exact Hde.
      * lia.
      * rewrite W7, Er. discriminate.
      * rewrite W2, W6. apply (LevF_prepend _ _ _ _ [n]). apply LevF_app; [exact W15|exact HL].
      * congruence.
    + exists (IBranch (u_loc s) (u_branch s) (Some x)). repeat split; [exact W2|].
      rewrite W2. unfold isact, n. rewrite get_item_new. reflexivity.
    + exists x, b, ps, pv. repeat split; auto.
  - exists ch, []. split; [rewrite app_nil_r; reflexivity|].
    assert (Ep : match u_min s with Some m => if cur_id r <? m then None else Some (cur_id r) | None => None end
                 = None).
    { unfold good in Eg. destruct (u_min s) as [m|]; [|reflexivity].
      destruct (cur_id r <? m) eqn:E; [reflexivity|lia]. }
    assert (Eab : abort_sub_undo s (cur_id r) = set_sub (walk_stack_abort s (Some None)) None).
    { unfold abort_sub_undo. rewrite Er, Ep. reflexivity. }
    rewrite Eab.
    destruct (walk_stack_abort_ok db0 s ch ch [] None HU ltac:(rewrite app_nil_r; reflexivity) eq_refl)
      as [W1 [W2 [W3 [W4 [W5 [W6 [W7 [W8 [W9 [W10 [W11 [W12 [W13 [W14 W15]]]]]]]]]]]]]].
    set (w := walk_stack_abort s (Some None)) in *. clearbody w.
    set (n := length (u_mem s)) in *.
    split; [|cbn; repeat split; auto; try congruence].
    + constructor; cbn.
      * exact W12.
      * exact W13.
      * exact W14.
      * exact Hde.
      * lia.
      * rewrite W7, Er. discriminate.
      * rewrite W6. apply LevF_bad; assumption.
      * congruence.
    + exists (IBranch (u_loc s) (u_branch s) None). repeat split; [exact W2|].
      rewrite W2. unfold isact, n. rewrite get_item_new. reflexivity.
Qed.

(** One step keeps the invariant, as long as the transaction is open. *)
Lemma UI_step : forall db0 s o ch, UI db0 s ch -> u_done (ustep s o) = None ->
  exists ch', UI db0 (ustep s o) ch'.
Proof.
  intros db0 s o ch HU Hdone. pose proof HU as [Hc Ho Hd Hde Hn Hr Hl Hf].
  assert (Hlt := Chain_lt _ _ _ Hc).
  unfold ustep in *. destruct (u_done s) eqn:Edone; [congruence|]. rewrite Hf in *.
  destruct o.
  - (* write *)
    exists (length (u_mem s) :: ch). rewrite <- Edone. apply push_ok; auto.
    + cbn. apply upd_self.
    + apply (LevF_prepend _ _ _ _ [length (u_mem s)]). apply LevF_app; assumption.
  - exists (length (u_mem s) :: ch). rewrite <- Edone. apply push_ok; auto.
    + intros k. reflexivity.
    + apply (LevF_prepend _ _ _ _ [length (u_mem s)]). apply LevF_app; assumption.
  - (* other backend *)
    exists ch. constructor; cbn; auto.
    + apply Chain_app. exact Hc.
    + rewrite isact_app by exact Hlt. apply OC_app; [exact Ho|].
      intros x Hx. apply filter_In in Hx. apply Hlt. tauto.
    + rewrite rev_list_mem by exact Hlt. exact Hd.
    + apply LevF_app; assumption.
  - exists ch. constructor; cbn; auto. discriminate.
  - (* start *)
    unfold start_sub_undo. destruct (u_ret s) eqn:Er.
    + exists (length (u_mem s) :: ch). unfold set_stk. cbn. rewrite Hf.
      apply push_ok; auto.
      * intros k. reflexivity.
      * cbn. auto.
      * cbn. lia.
      * apply (start_lev db0 s ch HU Er).
    + exists ch. unfold set_stk. destruct (Hr eq_refl) as [-> [Em [Eo Edb]]].
      constructor; cbn; auto; try lia. rewrite Em. discriminate.
  - (* release *)
    destruct (u_stk s) as [|id r] eqn:Es; [exists ch; exact HU|].
    cbn in Hde. destruct Hde as [Hid Hde]. cbn [cur_id] in Hn.
    exists ch. unfold commit_sub_undo, set_stk. cbn [LevF] in Hl. unfold good in Hl.
    destruct (u_min s) as [m|] eqn:Em.
    + destruct (m <=? cur_id r) eqn:E.
      * destruct (Hl eq_refl) as [a [x [b [ps [pv [Hch [Hs [Hi HL]]]]]]]].
        rewrite Hs. cbn [search_sub]. rewrite Hi, Z.eqb_refl.
        constructor; cbn; auto; try lia; try (intros E0; specialize (Hr E0); rewrite Em; exact Hr).
        rewrite Em, Hch. apply LevF_prepend. exact HL.
      * constructor; cbn; auto; try lia; try (intros E0; specialize (Hr E0); rewrite Em; exact Hr).
        rewrite Em. apply LevF_bad; [exact Hde|exact E].
    + constructor; cbn; auto; try lia; try (intros E0; specialize (Hr E0); rewrite Em; exact Hr).
      rewrite Em. apply LevF_bad; [exact Hde|reflexivity].
  - (* abort sub *)
    destruct (u_stk s) as [|id r] eqn:Es; [exists ch; exact HU|].
    destruct (u_ret s) eqn:Er.
    + destruct (abort_sub_ok db0 s ch id r HU Es Er) as [a [b [_ [H _]]]]. eauto.
    + unfold abort_sub_undo. rewrite Er. exists ch. destruct (Hr eq_refl) as [-> [Em [Eo Edb]]].
      cbn in Hde. destruct Hde as [Hid Hde]. cbn [cur_id] in Hn.
      constructor; cbn; auto; try lia. rewrite Em. apply LevF_bad; [exact Hde|reflexivity].
  - (* commit *)
    destruct (u_stk s) eqn:Es; [discriminate|]. eauto.
  - discriminate.
Qed.
