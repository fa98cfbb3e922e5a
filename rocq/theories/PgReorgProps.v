(** C18: inserting, resizing and deleting items of a page, splitting and merging its
    chunks and writing it anew keep every other item and stay inside the page. *)
From Coq Require Import ZArith List Bool Lia ZifyBool.
From Verif Require Import Base PgChunkModel PgChunkSpec PgChunkProofs PgChunkRunProofs PgChunkPageProofs.
From Verif Require Import PgReorgModel PgReorgSpec PgReorgPutProofs PgReorgRepProofs PgReorgMainProofs PgReorgOwnProofs.
Import ListNotations.
Open Scope Z_scope.

Lemma sorted_order : forall l a, in_order a l = sorted a l.
Proof. induction l as [|[f [s n|ws]] l IH]; intros a; cbn [in_order sorted snd]; [reflexivity| |]; rewrite IH; reflexivity. Qed.

Lemma keyed_ne : forall mk hk l, keyed mk hk l -> l <> [].
Proof. intros mk hk [|g l] K; [contradiction|discriminate]. Qed.

Lemma made_rep : forall p, made p -> exists G st, Rep p G st /\ G <> [].
Proof.
  intros p M. induction M as [m lim right f ws HL HF HW HB|p o M (G & st & R & NE)|mk q its hk HL GI GK GH GO FI].
  - exists [([], (f, ws))], (fresh_start lim ws). split; [|discriminate]. apply fresh_rep.
    change (descs_end 1) with 64 in HB. unfold blcksz in HB. unfold fresh_ok, flag01.
    assert (W : (length ws mod 4 =? 0)%nat && (right || (1 <=? length ws)%nat) = true).
    { destruct HW as [[-> ->]|HW]; [reflexivity|]. unfold aligned in HW. destruct (length ws mod 4 =? 0)%nat; [|discriminate]. cbn [andb] in *. rewrite HW. destruct right; reflexivity. }
    lia.
  - destruct (step_ok _ _ _ o R) as (R1 & _). eexists _, st. split; [exact R1|]. apply gstep_ne. exact NE.
  - destruct (reorg_rep mk q its hk HL) as (G & R & _ & K & _); [|exact FI|].
    + split; [rewrite sorted_order; exact GO|]. split; [exact GI|]. split; [exact GK|exact GH].
    + exists G, (area q (if pg_right q then [] else snd hk)). split; [exact R|]. eapply keyed_ne; eauto.
Qed.

(** An operation on a page that operations can make reads as the specification says;
    it is carried out exactly when the result fits. *)
Theorem C18_contents : forall p o, made p ->
  contents (step p o) = gstep (loc_at p 0) (key_room (pg_lim p) (pg_right p)) (contents p) o.
Proof.
  intros p o M. destruct (made_rep _ M) as (G & st & R & NE). destruct (step_ok _ _ _ o R) as (R1 & _).
  rewrite (Rep_contents _ _ _ R1), (Rep_contents _ _ _ R), (rep_start _ _ _ R NE). reflexivity.
Qed.

(** It either leaves everything as it was or changes the one item it names: the
    others keep flags, words and order.  A split of a chunk changes no item. *)
Theorem C18_others : forall p o, made p ->
  contents (step p o) = contents p \/ effect (contents p) o (items (contents (step p o))).
Proof. intros p o M. rewrite (C18_contents _ _ M). apply gstep_effect. Qed.

(** Nothing is written over the header and the descriptors, or behind the page. *)
Theorem C18_inside : forall p o, made p ->
  forall x, x < 56 + 4 * Z.min (pg_cc p) (pg_cc (step p o)) \/ 8192 <= x -> pg_m (step p o) x = pg_m p x.
Proof. intros p o M. destruct (made_rep _ M) as (G & st & R & NE). destruct (step_ok _ _ _ o R) as (_ & _ & K). exact K. Qed.

(** Descriptors, keys and data do not overlap and end inside the page, and the
    header's sizes are right. *)
Theorem C18_layout : forall p, made p ->
  56 + 4 * pg_cc p <= 4 * d_hk (pg_d p 0) /\
  pg_hend p = key_bytes (contents p) /\ pg_hend p <= loc_at p 0 /\
  pg_size p = loc_at p 0 + data_bytes (contents p) /\ pg_size p <= 8192 /\
  pg_n p = count (items (contents p)).
Proof. intros p M. destruct (made_rep _ M) as (G & st & R & NE). apply (rep_layout _ _ _ R NE). Qed.

(** The item with number [k] is the [k]-th of all items. *)
Theorem C18_locate : forall p k, made p -> 0 <= k < pg_n p ->
  item_at p (fst (locate p k)) (snd (locate p k)) = nth (Z.to_nat k) (items (contents p)) (0, []).
Proof. intros p k M K. destruct (made_rep _ M) as (G & st & R & NE). apply (rep_locate _ _ _ _ R K). Qed.

(** A page written anew, from items of the page itself and from elsewhere, has these
    items with their flags and words as they were, in the order given; each chunk
    ends with the key of the item after it, the last with the high key.  Nothing
    outside is written.  If the items do not fit, nothing changes. *)
Theorem C18_reorg : forall mk p its hk, (pg_lim p = 256 \/ pg_lim p = 512) -> given mk p its hk ->
  let l := map (rread (pg_m p)) its in
  let q := reorg mk p its hk in
  if Z.max (pg_lim p) (64 + bytes (high p hk)) + total l + array (count l) <=? 8192
  then items (contents q) = l /\ keyed mk (high p hk) (contents q) /\
       (forall x, x < 56 + 4 * pg_cc q \/ 8192 <= x -> pg_m q x = pg_m p x)
  else q = p.
Proof.
  intros mk p its hk HL GV l q. set (ws := if pg_right p then [] else snd hk).
  assert (FE : fits_all p its ws = (Z.max (pg_lim p) (64 + bytes (high p hk)) + total l + array (count l) <=? 8192)).
  { unfold fits_all, area, l. rewrite total_map, count_map. unfold high, ws, bytes. destruct (pg_right p); reflexivity. }
  rewrite <- FE. destruct (fits_all p its ws) eqn:FI.
  - destruct (reorg_rep mk p its hk HL GV FI) as (G & R & I & K & _ & F). fold q in R, F.
    rewrite (Rep_contents _ _ _ R). split; [exact I|]. split; [exact K|exact F].
  - unfold q, reorg. cbv zeta. fold ws. rewrite FI. reflexivity.
Qed.

(** Spreading the items of a page over new chunks keeps all of them and its high key. *)
Theorem C18_respread : forall mk p, made p -> (forall x, good (mk x) = true) ->
  items (contents (respread mk p)) = items (contents p) /\
  (pg_right p = false -> snd (last (contents (respread mk p)) ([], (0, []))) = snd (last (contents p) ([], (0, [])))).
Proof.
  intros mk p M K. destruct (made_rep _ M) as (G & st & R & NE). pose proof (own_given mk p G st R NE K) as GV.
  pose proof (r_lim _ _ _ R) as [HL _]. pose proof (C18_reorg mk p (own p) _ HL GV) as C. cbv zeta in C. fold (respread mk p) in C.
  destruct (_ <=? _); [|rewrite C; auto]. destruct C as (C1 & C2 & _). rewrite C1, own_read. split; [reflexivity|].
  intros RG. assert (L : snd (last (contents (respread mk p)) ([], (0, []))) = high p (key_at p (pg_cc p - 1))).
  { clear - C2. set (hk := high _ _) in *. induction (contents (respread mk p)) as [|[a k] t IH]; [contradiction|].
    destruct t as [|[[|x b] k2] t]; cbn [keyed] in C2; [exact C2|contradiction|]. apply IH. apply C2. }
  rewrite L. unfold high. rewrite RG, (Rep_contents _ _ _ R).
  destruct (exists_last NE) as (A & g & E). rewrite E, last_last.
  assert (E2 : G = A ++ g :: []) by exact E.
  replace (pg_cc p - 1) with (Z.of_nat (length A)) by (rewrite (r_cc _ _ _ R), E, app_length; cbn [length]; lia).
  apply (Rep_key _ _ _ _ _ _ R E2).
Qed.

(** Whatever operations are run on a new page. *)
Theorem C18_run : forall m lim right f ws ops, fresh_ok lim right f ws = true ->
  contents (run step (init m lim right f ws) ops) =
  run (gstep (fresh_start lim ws) (key_room lim right)) [([], (f, ws))] ops.
Proof.
  intros m lim right f ws ops H. apply (Rep_contents _ _ (fresh_start lim ws)).
  apply (run_rep ops _ _ _ (fresh_rep m _ _ _ _ H)).
Qed.

(** The hypotheses are met: a leaf page with a high key of 16 bytes; six items go
    in, the chunk is split, one item grows, the items of the second chunk are deleted
    and the chunks become one again; an item that does not fit is refused. *)
Definition w4 (x : Z) : list Z := [x; x; x; x].
Definition sample : list op :=
  [Insert 0 0 0 (w4 1); Insert 0 1 1 (w4 2 ++ w4 2); Insert 0 2 0 (w4 5); Insert 0 2 0 (w4 4); Insert 0 2 1 (w4 3); Insert 0 5 0 (w4 6);
   Cut 0 4 1 (w4 50); Replace 0 1 1 (w4 20 ++ w4 21 ++ w4 22); Delete 0 0; Replace 1 1 0 (w4 60);
   Insert 1 0 0 (concat (repeat (w4 9) 1000))].

Example C18_met :
  fresh_ok 256 false 0 (w4 99 ++ w4 99) = true /\
  contents (run step (init (fun _ => 7) 256 false 0 (w4 99 ++ w4 99)) sample) =
  [([(1, w4 20 ++ w4 21 ++ w4 22); (1, w4 3); (0, w4 4)], (1, w4 50));
   ([(0, w4 5); (0, w4 60)], (0, w4 99 ++ w4 99))] /\
  contents (run step (init (fun _ => 7) 256 false 0 (w4 99 ++ w4 99)) (sample ++ [Delete 1 0; Delete 1 0])) =
  [([(1, w4 20 ++ w4 21 ++ w4 22); (1, w4 3); (0, w4 4)], (0, w4 99 ++ w4 99))].
Proof. vm_compute. repeat split. Qed.

(** A page is written anew from its items, one of them dropped, one replaced by a
    larger one and two put before them: some items move forwards, others backwards. *)
Definition mk4 (x : Z * list Z) : Z * list Z := (0, firstn 4 (snd x) ++ repeat 0 (4 - length (firstn 4 (snd x)))%nat).
Definition base : page := run step (init (fun _ => 7) 256 false 0 (w4 99 ++ w4 99)) sample.
Definition mixed : list ritem :=
  match own base with
  | [a; b; c; d; e] => [(0, Ext (w4 10)); b; (1, Ext (w4 33)); d; e]
  | _ => []
  end.

Lemma made_run : forall ops p, made p -> made (run step p ops).
Proof. unfold run. induction ops as [|o ops IH]; intros p M; cbn [fold_left]; auto. apply IH. constructor. exact M. Qed.

Lemma mk4_good : forall x, good (mk4 x) = true.
Proof.
  intros [f l]. unfold good, mk4. cbn [fst snd]. unfold even8. rewrite app_length, repeat_length.
  pose proof (firstn_le_length 4 l) as H. replace (length (firstn 4 l) + (4 - length (firstn 4 l)))%nat with 4%nat by lia. reflexivity.
Qed.

Example C18_reorg_met :
  made base /\ given mk4 base mixed (0, w4 98) /\
  map (fun r => match snd r with Pg a _ => a | Ext _ => -1 end) mixed = [-1; 288; -1; 312; 320] /\
  contents (reorg mk4 base mixed (0, w4 98)) =
  [([(0, w4 10)], (0, w4 3)); ([(1, w4 3)], (0, w4 33)); ([(1, w4 33)], (0, w4 5)); ([(0, w4 5)], (0, w4 60)); ([(0, w4 60)], (0, w4 98))] /\
  map snd (own (reorg mk4 base mixed (0, w4 98))) = [Pg 264 4; Pg 280 4; Pg 296 4; Pg 312 4; Pg 328 4] /\
  items (contents (respread mk4 base)) = items (contents base).
Proof.
  split.
  { unfold base. apply made_run. apply made_init; [left; reflexivity|left; reflexivity|right; reflexivity|vm_compute; discriminate]. }
  split; [|vm_compute; repeat split].
  split; [reflexivity|]. split; [|split; [apply mk4_good|right; reflexivity]].
  apply Forall_forall. intros r I. assert (B : forallb (fun r => good (rread (pg_m base) r)) mixed = true) by (vm_compute; reflexivity).
  rewrite forallb_forall in B. apply B. exact I.
Qed.

Print Assumptions C18_contents.
Print Assumptions C18_others.
Print Assumptions C18_inside.
Print Assumptions C18_layout.
Print Assumptions C18_locate.
Print Assumptions C18_reorg.
Print Assumptions C18_respread.
Print Assumptions C18_run.
