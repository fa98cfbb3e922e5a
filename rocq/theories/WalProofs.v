(** The writer's buffer: invariants for C33. *)
From Coq Require Import ZArith List Bool Lia.
From Coq Require Import ZifyBool ZifyNat.
From Verif Require Import Base WalModel WalSpec WalLemmas.
Import ListNotations.
Open Scope Z_scope.

Ltac andi := repeat match goal with |- _ && _ = true => apply andb_true_intro; split end.

(* ------------------------------------------------------------------ *)
(** ** Delivery *)

Lemma deliver_app : forall a c b,
  deliver c (a ++ b) =
    (fst (deliver (fst (deliver c a)) b),
     snd (deliver c a) ++ snd (deliver (fst (deliver c a)) b)).
Proof.
  induction a as [|r a IH]; intros c b; cbn [app deliver].
  - cbn. destruct (deliver c b); reflexivity.
  - destruct (feed c r) as [c1 e1]. rewrite IH.
    destruct (deliver c1 a) as [c2 e2]. cbn [fst snd].
    destruct (deliver c2 b) as [c3 e3]. cbn. rewrite app_assoc. reflexivity.
Qed.

Lemma feed_rr : forall c r, c_rr (fst (feed c r)) = next_rr (c_rr c) r.
Proof. intros c r. destruct r; reflexivity. Qed.

Lemma deliver_rr : forall rs c, c_rr (fst (deliver c rs)) = fold_left next_rr rs (c_rr c).
Proof.
  induction rs as [|r rs IH]; intros c; cbn [deliver fold_left]; auto.
  destruct (feed c r) as [c1 e1] eqn:E.
  specialize (IH c1). destruct (deliver c1 rs) as [c2 e2]. cbn [fst] in *. rewrite IH.
  f_equal. rewrite <- feed_rr, E. reflexivity.
Qed.

Definition ctx_of (rs : list wrec) : ctx := fst (deliver ctx0 rs).
Definition evs_of (rs : list wrec) : list event := snd (deliver ctx0 rs).

Lemma ctx_snoc : forall rs r, ctx_of (rs ++ [r]) = fst (feed (ctx_of rs) r).
Proof.
  intros rs r. unfold ctx_of. rewrite deliver_app. cbn [fst deliver].
  destruct (feed (fst (deliver ctx0 rs)) r). reflexivity.
Qed.

Lemma evs_snoc : forall rs r, evs_of (rs ++ [r]) = evs_of rs ++ snd (feed (ctx_of rs) r).
Proof.
  intros rs r. unfold evs_of, ctx_of. rewrite deliver_app. cbn [snd deliver].
  destruct (feed (fst (deliver ctx0 rs)) r). cbn [snd]. rewrite app_nil_r. reflexivity.
Qed.

Definition well (rs : list wrec) : Prop :=
  forallb wf_rec rs = true /\ announced rr_default rs.

Lemma well_snoc : forall rs r,
  well rs -> wf_rec r = true -> fits_rr (c_rr (ctx_of rs)) r -> well (rs ++ [r]).
Proof.
  intros rs r [W A] Wr F. split.
  - rewrite forallb_app, W. cbn. rewrite Wr. reflexivity.
  - apply announced_split. split; auto. apply announced_fits. split; [|exact Logic.I].
    unfold ctx_of in F. rewrite deliver_rr in F. exact F.
Qed.

Lemma replay_records : forall h rs, wf_hdr h = true -> well rs ->
  replay_container (enc_container h (flat_map enc_rec rs)) = evs_of rs.
Proof.
  intros h rs H [W A]. unfold replay_container. rewrite parse_container_body by exact H.
  rewrite parse_body_records by auto. reflexivity.
Qed.

Lemma replay_snoc : forall log c, replay (log ++ [c]) = replay log ++ replay_container c.
Proof.
  intros log c. unfold replay. rewrite flat_map_app. cbn. rewrite app_nil_r. reflexivity.
Qed.

(* ------------------------------------------------------------------ *)
(** ** Buffer invariant *)

(** The buffer holds exactly the records [rs], and the session's idea of
    what has been announced agrees with what a reader would know. *)
Record J (s : lw) (rs : list wrec) : Prop := {
  j_buf : w_buf s = flat_map enc_rec rs;
  j_well : well rs;
  j_ox : c_ox (ctx_of rs) = if w_cx s then w_cur s else None;
  j_rel : match w_rel s with
          | Some r => c_rel (ctx_of rs) = Some r /\ c_rr (ctx_of rs) = w_rr s
          | None => True
          end;
  j_cur : forall o, w_cur s = Some o -> rangeb 8 o = true;
  j_cx : w_cx s = true -> w_cur s <> None;
  j_emp : w_buf s = [] -> w_cx s = false
}.

Definition total (s : lw) (rs : list wrec) : list event := replay (w_log s) ++ evs_of rs.

(** Same transaction, stack and at least as much materiality. *)
Definition keeps (s s' : lw) : Prop :=
  w_cur s' = w_cur s /\ w_saved s' = w_saved s /\ (w_mat s = true -> w_mat s' = true).

Lemma keeps_refl : forall s, keeps s s.
Proof. intros s. repeat split; auto. Qed.
Lemma keeps_trans : forall a b c, keeps a b -> keeps b c -> keeps a c.
Proof. intros a b c [A1 [A2 A3]] [B1 [B2 B3]]. repeat split; try congruence; auto. Qed.

Lemma env_hdr : forall e b, env_okb e = true ->
  wf_hdr (mkHdr (if b : bool then Some (e_time e, e_hx e) else None) (e_origin e)) = true.
Proof.
  intros e b H. unfold env_okb in H. ands. unfold wf_hdr. cbn [h_xact h_origin].
  apply andb_true_intro. split.
  - destruct b; auto. apply andb_true_intro. auto.
  - assumption.
Qed.

Lemma flush_J : forall s rs e b, env_okb e = true -> J s rs ->
  J (flush s e b) [] /\ total (flush s e b) [] = total s rs.
Proof.
  intros s rs e b E H. split.
  - constructor; cbn; auto.
    + split; [reflexivity|exact Logic.I].
    + apply (j_cur _ _ H).
    + discriminate.
  - unfold total. cbn [flush w_log]. rewrite replay_snoc.
    rewrite (j_buf _ _ H). rewrite replay_records.
    + change (evs_of []) with (@nil event). rewrite app_nil_r. reflexivity.
    + apply env_hdr. exact E.
    + apply (j_well _ _ H).
Qed.

Lemma flush_keeps : forall s e b, keeps s (flush s e b).
Proof. intros s e b. repeat split; auto. Qed.

Lemma flush_if_J : forall s rs e n, env_okb e = true -> J s rs ->
  exists rs', J (flush_if s e n) rs' /\ total (flush_if s e n) rs' = total s rs
  /\ keeps s (flush_if s e n) /\ (flush_if s e n = s /\ rs' = rs \/ rs' = []).
Proof.
  intros s rs e n E H. unfold flush_if.
  destruct (buf_len s + n + reserved s >? buffer_size).
  - exists []. destruct (flush_J s rs e false E H) as [H1 H2].
    repeat (split; auto).
  - exists rs. split; auto. split; auto. split; [apply keeps_refl|]. auto.
Qed.

Lemma put_total : forall s rs r,
  total (put s r) (rs ++ [r]) = total s rs ++ snd (feed (ctx_of rs) r).
Proof.
  intros s rs r. unfold total. cbn [put w_log]. rewrite evs_snoc, app_assoc. reflexivity.
Qed.

Lemma enc_nonempty : forall r, enc_rec r <> [].
Proof. intros r. destruct r; cbn [enc_rec]; discriminate. Qed.

Lemma snoc_buf : forall rs r, flat_map enc_rec (rs ++ [r]) = flat_map enc_rec rs ++ enc_rec r.
Proof. intros rs r. rewrite flat_map_app. cbn. rewrite app_nil_r. reflexivity. Qed.

Lemma app_not_nil : forall (A : Type) (a b : list A), b <> [] -> a ++ b <> [].
Proof. intros A a b H E. apply app_eq_nil in E. destruct E; contradiction. Qed.

(** Records that neither announce nor forget anything. *)
Definition neutral (r : wrec) : bool :=
  match r with
  | RXid _ _ _ | RRel _ _ _ _ _ _ _ _ _ _ | RRri _ _ | RFinish _ _ _
  | RCic _ _ _ _ _ _ _ => false
  | _ => true
  end.

Lemma put_neutral_J : forall s rs r, J s rs -> neutral r = true ->
  wf_rec r = true -> fits_rr (c_rr (ctx_of rs)) r -> J (put s r) (rs ++ [r]).
Proof.
  intros s rs r H N W F.
  assert (C : ctx_of (rs ++ [r]) = ctx_of rs).
  { rewrite ctx_snoc. destruct r; try discriminate; reflexivity. }
  constructor; rewrite ?C; cbn [put w_buf w_cx w_cur w_rel w_rr].
  - rewrite snoc_buf, <- (j_buf _ _ H). reflexivity.
  - apply well_snoc; auto. apply (j_well _ _ H).
  - apply (j_ox _ _ H).
  - apply (j_rel _ _ H).
  - apply (j_cur _ _ H).
  - apply (j_cx _ _ H).
  - intros E. exfalso. revert E. apply app_not_nil, enc_nonempty.
Qed.

Lemma add_xid_J : forall s rs e o, env_okb e = true -> J s rs -> w_cx s = false ->
  w_cur s = Some o ->
  J (add_xid s e o) (rs ++ [RXid o (e_lx e) (e_hx e)])
  /\ total (add_xid s e o) (rs ++ [RXid o (e_lx e) (e_hx e)]) = total s rs.
Proof.
  intros s rs e o E H CX CU. split.
  - constructor; cbn [add_xid put set_cx w_buf w_cx w_cur w_rel w_rr].
    + rewrite snoc_buf, <- (j_buf _ _ H). reflexivity.
    + apply well_snoc; auto. apply (j_well _ _ H).
      * cbn [wf_rec]. unfold env_okb in E. ands. rewrite (j_cur _ _ H o CU).
        andi; auto.
      * exact Logic.I.
    + rewrite ctx_snoc. cbn. auto.
    + rewrite ctx_snoc. cbn [feed fst c_rel c_rr]. apply (j_rel _ _ H).
    + apply (j_cur _ _ H).
    + intros _. rewrite CU. discriminate.
    + intros X. exfalso. revert X. apply app_not_nil, enc_nonempty.
  - unfold add_xid. etransitivity; [apply (put_total (set_cx s true))|].
    cbn [feed snd]. rewrite app_nil_r. reflexivity.
Qed.

Lemma add_xid_if_J : forall s rs e, env_okb e = true -> J s rs ->
  exists rs', J (add_xid_if s e) rs' /\ total (add_xid_if s e) rs' = total s rs
  /\ keeps s (add_xid_if s e)
  /\ (w_cur s <> None -> w_cx (add_xid_if s e) = true)
  /\ w_rel (add_xid_if s e) = w_rel s /\ w_rr (add_xid_if s e) = w_rr s
  /\ (w_cur s = None -> add_xid_if s e = s /\ rs' = rs)
  /\ filter is_change (evs_of rs') = filter is_change (evs_of rs).
Proof.
  intros s rs e E H. unfold add_xid_if. destruct (w_cx s) eqn:CX.
  - exists rs. repeat (split; auto using keeps_refl).
  - destruct (w_cur s) as [o|] eqn:CU.
    + exists (rs ++ [RXid o (e_lx e) (e_hx e)]).
      destruct (add_xid_J s rs e o E H CX CU) as [A B].
      split; auto. split; auto. split; [repeat split; auto|].
      split; [reflexivity|]. split; [reflexivity|]. split; [reflexivity|].
      split; [discriminate|]. rewrite evs_snoc. cbn. rewrite app_nil_r. reflexivity.
    + exists rs. repeat (split; auto using keeps_refl).
Qed.

(** Relation announcement. *)
Lemma rel_rec_wf : forall e rl ver bver spc,
  env_okb e = true -> rel_okb rl = true -> rangeb 4 ver = true -> rangeb 4 bver = true ->
  rangeb 4 spc = true -> wf_rec (rel_rec e rl ver bver spc) = true.
Proof.
  intros e [[[t d] r] n] ver bver spc E R V B S. unfold env_okb in E. unfold rel_okb in R.
  ands. cbn [rel_rec wf_rec].
  andi; assumption.
Qed.

Lemma rel_rec_feed : forall e rl ver bver spc c,
  feed c (rel_rec e rl ver bver spc) = (mkCtx (c_ox c) (Some rl) rr_default, []).
Proof. intros e [[[t d] r] n] ver bver spc c. reflexivity. Qed.

Lemma rel_J : forall s rs e rl ver bver spc,
  env_okb e = true -> rel_okb rl = true -> rangeb 4 ver = true -> rangeb 4 bver = true ->
  rangeb 4 spc = true -> J s rs ->
  let s' := set_rel (put s (rel_rec e rl ver bver spc)) (Some rl) rr_default in
  J s' (rs ++ [rel_rec e rl ver bver spc])
  /\ total s' (rs ++ [rel_rec e rl ver bver spc]) = total s rs.
Proof.
  intros s rs e rl ver bver spc E R V B S H s'. split.
  - constructor; cbn [s' put set_rel w_buf w_cx w_cur w_rel w_rr];
      rewrite ?ctx_snoc, ?rel_rec_feed; cbn [fst c_ox c_rel c_rr].
    + rewrite snoc_buf, <- (j_buf _ _ H). reflexivity.
    + apply well_snoc; auto. apply (j_well _ _ H). apply rel_rec_wf; auto.
      destruct rl as [[[t d] r] n]. exact Logic.I.
    + apply (j_ox _ _ H).
    + auto.
    + apply (j_cur _ _ H).
    + apply (j_cx _ _ H).
    + intros X. exfalso. revert X. apply app_not_nil, enc_nonempty.
  - etransitivity; [apply (put_total s)|]. rewrite rel_rec_feed. cbn. apply app_nil_r.
Qed.

Lemma rri_J : forall s rs rl rr, rangeb 1 rr = true -> J s rs -> w_rel s = Some rl ->
  let s' := put (set_rel s (Some rl) rr) (RRri rr 0) in
  J s' (rs ++ [RRri rr 0]) /\ total s' (rs ++ [RRri rr 0]) = total s rs.
Proof.
  intros s rs rl rr R H W s'. split.
  - constructor; cbn [s' put set_rel w_buf w_cx w_cur w_rel w_rr];
      rewrite ?ctx_snoc; cbn [feed fst c_ox c_rel c_rr].
    + rewrite snoc_buf, <- (j_buf _ _ H). reflexivity.
    + apply well_snoc; auto. apply (j_well _ _ H). cbn [wf_rec]. rewrite R. reflexivity.
      exact Logic.I.
    + apply (j_ox _ _ H).
    + pose proof (j_rel _ _ H) as X. rewrite W in X. tauto.
    + apply (j_cur _ _ H).
    + apply (j_cx _ _ H).
    + intros X. exfalso. revert X. apply app_not_nil, enc_nonempty.
  - etransitivity; [apply (put_total (set_rel s (Some rl) rr))|]. cbn [feed snd].
    rewrite app_nil_r. reflexivity.
Qed.

Lemma rel_eqb_eq : forall a b, rel_eqb a b = true -> a = b.
Proof.
  intros [[[a1 a2] a3] a4] [[[b1 b2] b3] b4] H. unfold rel_eqb in H. ands.
  repeat match goal with H : (_ =? _) = true |- _ => apply Z.eqb_eq in H end. congruence.
Qed.

Lemma rel_eqb_refl : forall a, rel_eqb a a = true.
Proof. intros [[[a1 a2] a3] a4]. cbn. rewrite !Z.eqb_refl. reflexivity. Qed.

(** The relation part shared by row changes and bridge erasures. *)
Definition announce (s : lw) (e : env) (rl : relid) (rr ver bver spc : Z) : lw :=
  if same_rel s rl then s
  else let q := set_rel (put s (rel_rec e rl ver bver spc)) (Some rl) rr in
       if rr =? rr_default then q else put q (RRri rr 0).

Lemma announce_J : forall s rs e rl rr ver bver spc,
  env_okb e = true -> rel_okb rl = true -> rangeb 1 rr = true ->
  rangeb 4 ver = true -> rangeb 4 bver = true -> rangeb 4 spc = true ->
  rr_stable s rl rr = true -> J s rs ->
  exists rs', J (announce s e rl rr ver bver spc) rs'
  /\ total (announce s e rl rr ver bver spc) rs' = total s rs
  /\ keeps s (announce s e rl rr ver bver spc)
  /\ w_cx (announce s e rl rr ver bver spc) = w_cx s
  /\ w_rel (announce s e rl rr ver bver spc) = Some rl
  /\ w_rr (announce s e rl rr ver bver spc) = rr
  /\ evs_of rs' = evs_of rs.
Proof.
  intros s rs e rl rr ver bver spc E R RR V B S ST H. unfold announce.
  unfold rr_stable in ST. destruct (same_rel s rl) eqn:SR.
  - exists rs. unfold same_rel in SR. destruct (w_rel s) as [r0|] eqn:W; [|discriminate].
    apply rel_eqb_eq in SR. subst r0. apply Z.eqb_eq in ST.
    repeat (split; auto using keeps_refl).
  - destruct (Z.eqb_spec rr rr_default) as [D|D]; cbv zeta.
    + subst rr. exists (rs ++ [rel_rec e rl ver bver spc]).
      destruct (rel_J s rs e rl ver bver spc E R V B S H) as [A1 A2].
      split; [exact A1|]. split; [exact A2|]. split; [repeat split; auto|].
      repeat (split; [reflexivity|]).
      rewrite evs_snoc, rel_rec_feed. cbn. apply app_nil_r.
    + destruct (rel_J s rs e rl ver bver spc E R V B S H) as [A1 A2].
      destruct (rri_J _ _ rl rr RR A1 eq_refl) as [B1 B2].
      exists ((rs ++ [rel_rec e rl ver bver spc]) ++ [RRri rr 0]).
      split; [exact B1|]. split; [etransitivity; [exact B2|exact A2]|].
      split; [repeat split; auto|]. repeat (split; [reflexivity|]).
      rewrite evs_snoc. cbn [feed snd]. rewrite app_nil_r.
      rewrite evs_snoc, rel_rec_feed. cbn. apply app_nil_r.
Qed.

Lemma rr_stable_keep : forall s s' rl rr,
  w_rel s' = w_rel s -> w_rr s' = w_rr s -> rr_stable s rl rr = true ->
  rr_stable s' rl rr = true.
Proof. intros s s' rl rr A B H. unfold rr_stable, same_rel in *. rewrite A, B. exact H. Qed.

Lemma rr_stable_flush_if : forall s e n rl rr,
  rr_stable s rl rr = true -> rr_stable (flush_if s e n) rl rr = true.
Proof.
  intros s e n rl rr H. unfold flush_if.
  destruct (buf_len s + n + reserved s >? buffer_size); auto.
Qed.

Lemma mod_wf : forall r rr, mod_okb r rr = true ->
  wf_rec r = true /\ fits_rr rr r /\ neutral r = true
  /\ (forall c, snd (feed c r) = [mkEv (c_ox c) (c_rel c) (c_rr c) r])
  /\ (forall a b c, is_change (mkEv a b c r) = true).
Proof.
  intros r rr H. destruct r; try discriminate; cbn [mod_okb] in H; unfold tuple_okb in H.
  - repeat split; auto.
    + cbn [wf_rec]. unfold max_tuple in H. ands.
      andi; auto; lia.
    + cbn [fits_rr]. destruct (Z.eqb_spec tag 6).
      * subst. ands. cbn in H. unfold rr_full in *. lia.
      * destruct tag as [|p|p]; auto. destruct p as [p|p|]; auto.
        destruct p as [p|p|]; auto. destruct p; auto; contradiction.
  - repeat split; auto.
    + cbn [wf_rec]. unfold max_tuple in H. ands.
      andi; auto; lia.
    + cbn [fits_rr]. destruct (Z.eqb_spec tag 6).
      * subst. ands. cbn in H. unfold rr_full in *. lia.
      * destruct tag as [|p|p]; auto. destruct p as [p|p|]; auto.
        destruct p as [p|p|]; auto. destruct p; auto; contradiction.
Qed.

Lemma add_modify_eq : forall s e r rl rr ver bver spc,
  add_modify s e r rl rr ver bver spc =
  set_mat (put (announce (add_xid_if (flush_if s e
     (size r + (if same_rel s rl then 0 else 46) + (if rr =? rr_default then 0 else 6))) e)
     e rl rr ver bver spc) r) true.
Proof. reflexivity. Qed.

Lemma add_bridge_eq : forall s e ip rl ver bver spc,
  add_bridge s e ip rl ver bver spc =
  put (announce (add_xid_if (flush_if s e (7 + (if same_rel s rl then 0 else 46))) e)
     e rl rr_default ver bver spc) (RBridge ip).
Proof. reflexivity. Qed.

(* ------------------------------------------------------------------ *)
(** ** The invariant over histories *)

Lemma subseq_refl : forall A (l : list A), subseq l l.
Proof. induction l; constructor; auto. Qed.
Lemma subseq_app : forall A (a b c d : list A),
  subseq a b -> subseq c d -> subseq (a ++ c) (b ++ d).
Proof.
  intros A a b c d H. revert c d. induction H; intros c d Hcd; cbn.
  - induction l; cbn; auto. constructor. auto.
  - constructor. auto.
  - constructor. auto.
Qed.
Lemma subseq_trans : forall A (a b c : list A), subseq a b -> subseq b c -> subseq a c.
Proof.
  intros A a b c H1 H2. revert a H1. induction H2; intros a H1.
  - inversion H1; subst. constructor.
  - inversion H1; subst; constructor; auto.
  - constructor. auto.
Qed.
Lemma subseq_pre : forall A (a b : list A), subseq a (a ++ b).
Proof.
  intros A a b. rewrite <- (app_nil_r a) at 1. apply subseq_app.
  - apply subseq_refl.
  - constructor.
Qed.

Record K (s : lw) (rs : list wrec) (h : list event) : Prop := {
  k_j : J s rs;
  k_sub : subseq (total s rs) h;
  k_chg : filter is_change (total s rs) = filter is_change h;
  k_mat : w_mat s = false -> filter is_change (evs_of rs) = [];
  k_idle : w_cur s = None -> filter is_change (evs_of rs) = [];
  k_saved : Forall (fun p => forall o, fst p = Some o -> rangeb 8 o = true) (w_saved s)
}.

Lemma K0 : K lw0 [] [].
Proof.
  constructor; cbn; auto.
  - constructor; cbn; auto; try discriminate. split; [reflexivity|exact Logic.I].
  - constructor.
Qed.

(** Adding exactly the events that were asked for. *)
Lemma K_add : forall s rs h s' rs' ev,
  K s rs h -> J s' rs' -> total s' rs' = total s rs ++ ev ->
  (w_mat s' = false -> filter is_change (evs_of rs') = []) ->
  (w_cur s' = None -> filter is_change (evs_of rs') = []) ->
  Forall (fun p => forall o, fst p = Some o -> rangeb 8 o = true) (w_saved s') ->
  K s' rs' (h ++ ev).
Proof.
  intros s rs h s' rs' ev HK HJ HT HM HI HS. constructor; auto; rewrite HT.
  - apply subseq_app; [apply (k_sub _ _ _ HK)|apply subseq_refl].
  - rewrite !filter_app. rewrite (k_chg _ _ _ HK). reflexivity.
Qed.

Lemma has_cur_some : forall s, has_cur s = true -> exists o, w_cur s = Some o.
Proof. intros s H. unfold has_cur in H. destruct (w_cur s); [eauto|discriminate]. Qed.

Lemma mod_K : forall s rs h e r rl rr ver bver spc,
  K s rs h -> enabled s (OMod e r rl rr ver bver spc) = true ->
  exists rs', K (add_modify s e r rl rr ver bver spc) rs'
                (h ++ [mkEv (w_cur s) (Some rl) rr r]).
Proof.
  intros s rs h e r rl rr ver bver spc HK EN. cbn [enabled] in EN. ands.
  destruct (has_cur_some s) as [o CU]; auto.
  destruct (mod_wf r rr) as [W [F [N [FE CH]]]]; auto.
  rewrite add_modify_eq.
  match goal with |- context [flush_if s e ?n] => generalize n end. intros n.
  destruct (flush_if_J s rs e n) as [r1 [J1 [T1 [P1 _]]]]; auto.
  { apply (k_j _ _ _ HK). }
  destruct (add_xid_if_J (flush_if s e n) r1 e) as [r2 [J2 [T2 [P2 [C2 [R2 [Q2 _]]]]]]]; auto.
  set (s2 := add_xid_if (flush_if s e n) e) in *.
  assert (ST : rr_stable s2 rl rr = true).
  { eapply rr_stable_keep; [exact R2|exact Q2|]. apply rr_stable_flush_if. auto. }
  destruct (announce_J s2 r2 e rl rr ver bver spc) as [r3 [J3 [T3 [P3 [C3 [L3 [Q3 _]]]]]]]; auto.
  set (s3 := announce s2 e rl rr ver bver spc) in *.
  pose proof (keeps_trans _ _ _ (keeps_trans _ _ _ P1 P2) P3) as [KC [KS _]].
  assert (CX : w_cx s3 = true).
  { rewrite C3. apply C2. destruct P1 as [P1 _]. rewrite P1, CU. discriminate. }
  pose proof (j_rel _ _ J3) as JR. rewrite L3 in JR. destruct JR as [JR1 JR2].
  rewrite Q3 in JR2.
  assert (J4 : J (put s3 r) (r3 ++ [r])).
  { apply put_neutral_J; auto. rewrite JR2. exact F. }
  exists (r3 ++ [r]).
  apply (K_add s rs); auto.
  - destruct J4. constructor; auto.
  - etransitivity; [apply (put_total s3)|]. rewrite FE. rewrite JR1, JR2.
    rewrite (j_ox _ _ J3), CX, KC. rewrite T3, T2, T1. reflexivity.
  - cbn. discriminate.
  - cbn [set_mat put w_cur]. rewrite KC, CU. discriminate.
  - cbn [set_mat put w_saved]. rewrite KS. apply (k_saved _ _ _ HK).
Qed.

Lemma bridge_K : forall s rs h e ip rl ver bver spc,
  K s rs h -> enabled s (OBridge e ip rl ver bver spc) = true ->
  exists rs', K (add_bridge s e ip rl ver bver spc) rs'
                (h ++ [mkEv (w_cur s) (Some rl) rr_default (RBridge ip)]).
Proof.
  intros s rs h e ip rl ver bver spc HK EN. cbn [enabled] in EN. ands.
  rewrite add_bridge_eq.
  match goal with |- context [flush_if s e ?n] => generalize n end. intros n.
  destruct (flush_if_J s rs e n) as [r1 [J1 [T1 [P1 D1]]]]; auto.
  { apply (k_j _ _ _ HK). }
  destruct (add_xid_if_J (flush_if s e n) r1 e) as [r2 [J2 [T2 [P2 [C2 [R2 [Q2 [I2 V2]]]]]]]]; auto.
  set (s2 := add_xid_if (flush_if s e n) e) in *.
  assert (ST : rr_stable s2 rl rr_default = true).
  { eapply rr_stable_keep; [exact R2|exact Q2|]. apply rr_stable_flush_if. auto. }
  destruct (announce_J s2 r2 e rl rr_default ver bver spc)
    as [r3 [J3 [T3 [P3 [C3 [L3 [Q3 V3]]]]]]]; auto.
  set (s3 := announce s2 e rl rr_default ver bver spc) in *.
  pose proof (keeps_trans _ _ _ (keeps_trans _ _ _ P1 P2) P3) as [KC [KS KM]].
  pose proof (j_rel _ _ J3) as JR. rewrite L3 in JR. destruct JR as [JR1 JR2].
  rewrite Q3 in JR2.
  assert (J4 : J (put s3 (RBridge ip)) (r3 ++ [RBridge ip])).
  { apply put_neutral_J; auto.
    - cbn [wf_rec]. apply Nat.eqb_eq. lia.
    - exact Logic.I. }
  assert (OX : c_ox (ctx_of r3) = w_cur s).
  { rewrite (j_ox _ _ J3). rewrite KC. destruct P1 as [P1 _]. rewrite P1 in C2.
    destruct (w_cur s) as [o|] eqn:CU; [|destruct (w_cx s3); reflexivity].
    rewrite C3, C2; [reflexivity|discriminate]. }
  assert (CHG : filter is_change (evs_of r3) = [] -> filter is_change (evs_of (r3 ++ [RBridge ip])) = []).
  { intros X. rewrite evs_snoc, filter_app, X. reflexivity. }
  assert (PR : filter is_change (evs_of rs) = [] -> filter is_change (evs_of r3) = []).
  { intros X. rewrite V3, V2. destruct D1 as [[_ D1]|D1]; subst r1; auto. }
  exists (r3 ++ [RBridge ip]).
  apply (K_add s rs); auto.
  - etransitivity; [apply (put_total s3)|]. cbn [feed snd]. rewrite JR1, OX, T3, T2, T1. reflexivity.
  - cbn [put w_mat]. intros X. apply CHG, PR. apply (k_mat _ _ _ HK).
    destruct (w_mat s) eqn:M; auto. rewrite KM in X by auto. discriminate.
  - cbn [put w_cur]. rewrite KC. intros X. apply CHG, PR. apply (k_idle _ _ _ HK). exact X.
  - cbn [put w_saved]. rewrite KS. apply (k_saved _ _ _ HK).
Qed.

(** Records without a relation, written by a running transaction. *)
Lemma plain_core : forall s rs h e r o,
  K s rs h -> env_okb e = true -> w_cur s = Some o ->
  neutral r = true -> wf_rec r = true -> (forall rr, fits_rr rr r) ->
  (forall c, snd (feed c r) = [mkEv (c_ox c) None rr_default r]) ->
  (forall a b c, is_change (mkEv a b c r) = false) ->
  exists rs', K (add_plain s e r) rs' (h ++ [mkEv (w_cur s) None rr_default r]).
Proof.
  intros s rs h e r o HK E CU N W F FE NC. unfold add_plain.
  generalize (size r). intros n.
  destruct (flush_if_J s rs e n) as [r1 [J1 [T1 [P1 D1]]]]; auto.
  { apply (k_j _ _ _ HK). }
  destruct (add_xid_if_J (flush_if s e n) r1 e) as [r2 [J2 [T2 [P2 [C2 [R2 [Q2 [I2 V2]]]]]]]]; auto.
  set (s2 := add_xid_if (flush_if s e n) e) in *.
  pose proof (keeps_trans _ _ _ P1 P2) as [KC [KS KM]].
  assert (CX : w_cx s2 = true).
  { apply C2. destruct P1 as [P1 _]. rewrite P1, CU. discriminate. }
  exists (r2 ++ [r]). apply (K_add s rs); auto.
  - apply put_neutral_J; auto.
  - rewrite put_total, FE, (j_ox _ _ J2), CX, KC, T2, T1. reflexivity.
  - cbn [put w_mat]. intros X. rewrite evs_snoc, filter_app, FE. cbn [filter]. rewrite NC.
    rewrite V2, app_nil_r. destruct D1 as [[_ D1]|D1]; subst r1; auto.
    apply (k_mat _ _ _ HK). destruct (w_mat s) eqn:M; auto. rewrite KM in X by auto. discriminate.
  - cbn [put w_cur]. rewrite KC, CU. discriminate.
  - cbn [put w_saved]. rewrite KS. apply (k_saved _ _ _ HK).
Qed.

Lemma plain_K : forall s rs h e r,
  K s rs h -> enabled s (OPlain e r) = true ->
  exists rs', K (add_plain s e r) rs' (h ++ [mkEv (w_cur s) None rr_default r]).
Proof.
  intros s rs h e r HK EN. cbn [enabled] in EN. ands.
  destruct (has_cur_some s) as [o CU]; auto.
  apply (plain_core s rs h e r o); auto;
    destruct r; try discriminate; auto; try (intros; exact Logic.I);
    cbn [plain_okb wf_rec] in *; auto.
Qed.

Lemma cic_K : forall s rs h e r,
  K s rs h -> enabled s (OCic e r) = true ->
  exists rs', K (add_cic s e r) rs' (h ++ [mkEv (w_cur s) None rr_default r]).
Proof.
  intros s rs h e r HK EN. cbn [enabled] in EN. ands.
  destruct (has_cur_some s) as [o CU]; auto.
  destruct r; try discriminate. unfold add_cic, add_plain.
  match goal with |- context [put _ ?q] => set (r := q) in * end.
  generalize (size r). intros n.
  destruct (flush_if_J s rs e n) as [r1 [J1 [T1 [P1 D1]]]]; auto.
  { apply (k_j _ _ _ HK). }
  destruct (add_xid_if_J (flush_if s e n) r1 e) as [r2 [J2 [T2 [P2 [C2 [R2 [Q2 [I2 V2]]]]]]]]; auto.
  set (s2 := add_xid_if (flush_if s e n) e) in *.
  pose proof (keeps_trans _ _ _ P1 P2) as [KC [KS KM]].
  assert (CX : w_cx s2 = true).
  { apply C2. destruct P1 as [P1 _]. rewrite P1, CU. discriminate. }
  exists (r2 ++ [r]). apply (K_add s rs); auto.
  - constructor; cbn [set_rel put w_buf w_cx w_cur w_rel w_rr].
    + rewrite snoc_buf, <- (j_buf _ _ J2). reflexivity.
    + apply well_snoc; auto. apply (j_well _ _ J2). exact Logic.I.
    + rewrite ctx_snoc. cbn [r feed fst c_ox]. apply (j_ox _ _ J2).
    + exact Logic.I.
    + apply (j_cur _ _ J2).
    + apply (j_cx _ _ J2).
    + intros X. exfalso. revert X. apply app_not_nil, enc_nonempty.
  - etransitivity; [apply (put_total s2)|]. cbn [r feed snd].
    rewrite (j_ox _ _ J2), CX, KC, T2, T1. reflexivity.
  - cbn [set_rel put w_mat]. intros X. rewrite evs_snoc, filter_app. cbn [r feed snd filter is_change ev_rec].
    rewrite V2, app_nil_r. destruct D1 as [[_ D1]|D1]; subst r1; auto.
    apply (k_mat _ _ _ HK). destruct (w_mat s) eqn:M; auto. rewrite KM in X by auto. discriminate.
  - cbn [set_rel put w_cur]. rewrite KC, CU. discriminate.
  - cbn [set_rel put w_saved]. rewrite KS. apply (k_saved _ _ _ HK).
Qed.

Lemma switch_K : forall s rs h e t u,
  K s rs h -> enabled s (OSwitch e t u) = true ->
  exists rs', K (add_switch s e t u) rs' h.
Proof.
  intros s rs h e t u HK EN. cbn [enabled] in EN. ands.
  unfold add_switch. destruct (w_csw s); [exists rs; exact HK|].
  assert (J0 : J (set_csw s true) rs).
  { destruct (k_j _ _ _ HK). constructor; auto. }
  destruct (flush_if_J (set_csw s true) rs e 9) as [r1 [J1 [T1 [P1 D1]]]]; auto.
  destruct P1 as [KC [KS KM]].
  exists (r1 ++ [RSwitch t u]). rewrite <- (app_nil_r h). apply (K_add s rs); auto.
  - apply put_neutral_J; auto.
    + cbn [wf_rec]. apply andb_true_intro. auto.
    + exact Logic.I.
  - rewrite put_total, T1. reflexivity.
  - cbn [put w_mat]. intros X. rewrite evs_snoc, filter_app. cbn [feed snd filter].
    rewrite app_nil_r. destruct D1 as [[_ D1]|D1]; subst r1; auto.
    apply (k_mat _ _ _ HK). destruct (w_mat s) eqn:M; auto. rewrite KM in X by auto. discriminate.
  - cbn [put w_cur]. rewrite KC. cbn [set_csw w_cur]. intros X.
    rewrite evs_snoc, filter_app. cbn [feed snd filter].
    rewrite app_nil_r. destruct D1 as [[_ D1]|D1]; subst r1; auto.
    apply (k_idle _ _ _ HK). exact X.
  - cbn [put w_saved]. rewrite KS. apply (k_saved _ _ _ HK).
Qed.

Lemma flush_K : forall s rs h e b, env_okb e = true -> K s rs h -> K (flush s e b) [] h.
Proof.
  intros s rs h e b E HK. destruct (flush_J s rs e b E (k_j _ _ _ HK)) as [A B].
  rewrite <- (app_nil_r h). apply (K_add s rs); auto.
  - rewrite B, app_nil_r. reflexivity.
  - apply (k_saved _ _ _ HK).
Qed.

(** Rollback to a savepoint: the session forgets that its XID is in the
    buffer before writing, so a second XID record may follow the first. *)
Lemma rbsp_K : forall s rs h e p,
  K s rs h -> enabled s (ORbSp e p) = true ->
  exists rs', K (add_rb_sp s e p) rs'
    (h ++ [mkEv (w_cur s) None rr_default (RRbSp p (e_xmin e) (e_csn e))]).
Proof.
  intros s rs h e p HK EN. cbn [enabled] in EN. ands.
  destruct (has_cur_some s) as [o CU]; auto.
  pose proof (k_j _ _ _ HK) as J0.
  unfold add_rb_sp. cbv zeta.
  set (r := RRbSp p (e_xmin e) (e_csn e)).
  generalize (size r). intros n.
  set (s0 := set_cx s false).
  (* after the optional flush the buffer holds r1 and no XID is assumed *)
  assert (X1 : exists r1, w_buf (flush_if s0 e n) = flat_map enc_rec r1 /\ well r1
     /\ total (flush_if s0 e n) r1 = total s rs
     /\ w_cx (flush_if s0 e n) = false /\ w_cur (flush_if s0 e n) = Some o
     /\ w_saved (flush_if s0 e n) = w_saved s).
  { unfold flush_if. destruct (buf_len s0 + n + reserved s0 >? buffer_size).
    - exists []. split; [reflexivity|]. split; [split; [reflexivity|exact Logic.I]|].
      split.
      + unfold total. cbn [s0 set_cx flush w_log w_buf]. rewrite replay_snoc.
        rewrite (j_buf _ _ J0), replay_records.
        * change (evs_of []) with (@nil event). rewrite app_nil_r. reflexivity.
        * apply (env_hdr e false). assumption.
        * apply (j_well _ _ J0).
      + cbn. auto.
    - exists rs. cbn [s0 set_cx w_buf w_cx w_cur w_saved].
      split; [apply (j_buf _ _ J0)|]. split; [apply (j_well _ _ J0)|]. auto. }
  destruct X1 as [r1 [B1 [W1 [T1 [C1 [U1 S1]]]]]].
  set (s1 := flush_if s0 e n) in *.
  assert (A2 : add_xid_if s1 e = add_xid s1 e o) by (unfold add_xid_if; rewrite C1, U1; reflexivity).
  rewrite A2.
  set (x := RXid o (e_lx e) (e_hx e)).
  assert (RO : rangeb 8 o = true) by (apply (j_cur _ _ J0); exact CU).
  assert (WX : wf_rec x = true /\ wf_rec r = true).
  { match goal with H : env_okb e = true |- _ => unfold env_okb in H end. ands. cbn [x r wf_rec]. split;
    andi; auto. }
  destruct WX as [WX WR].
  assert (W3 : well ((r1 ++ [x]) ++ [r])).
  { apply well_snoc; auto.
    - apply well_snoc; auto. exact Logic.I.
    - exact Logic.I. }
  exists []. 
  rewrite CU.
  assert (B3 : w_buf (put (add_xid s1 e o) r) = flat_map enc_rec ((r1 ++ [x]) ++ [r])).
  { cbn [add_xid put set_cx w_buf]. rewrite !snoc_buf, B1. reflexivity. }
  apply (K_add s rs); auto.
  - constructor; cbn; auto.
    + split; [reflexivity|exact Logic.I].
    + rewrite U1. intros q Q. inversion Q; subst. exact RO.
    + discriminate.
  - unfold total. cbn [set_cx flush w_log]. rewrite replay_snoc, B3.
    rewrite replay_records by (auto; try (apply (env_hdr e false); assumption); apply env_hdr; assumption).
    change (evs_of []) with (@nil event). rewrite app_nil_r.
    rewrite evs_snoc, evs_snoc, ctx_snoc. cbn [x r feed fst snd c_ox app].
    rewrite app_nil_r. cbn [add_xid put set_cx w_log].
    unfold total in T1. rewrite app_assoc, T1. reflexivity.
  - cbn. rewrite S1. apply (k_saved _ _ _ HK).
Qed.

(** The end of a transaction that has something to log. *)
Lemma finish_mat : forall s rs h e o c fb auto,
  K s rs h -> env_okb e = true -> w_cur s = Some o -> w_mat s = true ->
  total (finish s e o c fb auto) [] =
    total s rs ++ [mkEv (Some o) None rr_default (RFinish c (e_xmin e) (e_csn e))]
  /\ w_buf (finish s e o c fb auto) = [] /\ w_cx (finish s e o c fb auto) = false
  /\ w_rel (finish s e o c fb auto) = None
  /\ w_saved (finish s e o c fb auto) = w_saved s
  /\ w_cur (finish s e o c fb auto) = w_cur s.
Proof.
  intros s rs h e o c fb auto HK E CU MA. unfold finish. rewrite MA. cbn [negb].
  generalize (17 + (if c && fb then 1 else 0)). intros n.
  destruct (flush_if_J s rs e n) as [r1 [J1 [T1 [P1 _]]]]; auto.
  { apply (k_j _ _ _ HK). }
  set (s1 := flush_if s e n) in *. destruct P1 as [KC [KS _]].
  cbv zeta.
  assert (X : exists r2, J (if w_cx s1 then s1 else add_xid s1 e o) r2
     /\ total (if w_cx s1 then s1 else add_xid s1 e o) r2 = total s rs
     /\ w_cx (if w_cx s1 then s1 else add_xid s1 e o) = true
     /\ w_cur (if w_cx s1 then s1 else add_xid s1 e o) = Some o
     /\ w_saved (if w_cx s1 then s1 else add_xid s1 e o) = w_saved s).
  { destruct (w_cx s1) eqn:CX.
    - exists r1. rewrite KC, KS. auto.
    - destruct (add_xid_J s1 r1 e o) as [A B]; auto; [congruence|].
      exists (r1 ++ [RXid o (e_lx e) (e_hx e)]). rewrite B. cbn. rewrite KC, KS. auto. }
  destruct X as [r2 [J2 [T2 [C2 [U2 S2]]]]].
  set (s2 := if w_cx s1 then s1 else add_xid s1 e o) in *.
  assert (Y : exists r3, J (if c && fb then put s2 RFeedback else s2) r3
     /\ total (if c && fb then put s2 RFeedback else s2) r3 = total s rs
     /\ w_cx (if c && fb then put s2 RFeedback else s2) = true
     /\ w_cur (if c && fb then put s2 RFeedback else s2) = Some o
     /\ w_saved (if c && fb then put s2 RFeedback else s2) = w_saved s).
  { destruct (c && fb).
    - exists (r2 ++ [RFeedback]). split.
      + apply put_neutral_J; auto. exact Logic.I.
      + rewrite put_total, T2. cbn. rewrite app_nil_r. auto.
    - exists r2. auto. }
  destruct Y as [r3 [J3 [T3 [C3 [U3 S3]]]]].
  unfold add_finish.
  set (s3 := if c && fb then put s2 RFeedback else s2) in *.
  set (r := RFinish c (e_xmin e) (e_csn e)).
  assert (WR : wf_rec r = true).
  { unfold env_okb in E. ands. cbn [r wf_rec]. apply andb_true_intro. auto. }
  assert (W4 : well (r3 ++ [r])).
  { apply well_snoc; auto. apply (j_well _ _ J3). exact Logic.I. }
  split; [|cbn; rewrite U3, S3, CU; repeat split; auto].
  unfold total. cbn [set_mat flush set_csw put w_log w_buf].
  rewrite replay_snoc, (j_buf _ _ J3), <- snoc_buf.
  rewrite replay_records by (auto; try (apply (env_hdr e false); assumption); apply env_hdr; assumption).
  change (evs_of []) with (@nil event). rewrite app_nil_r.
  rewrite evs_snoc. cbn [r feed snd]. rewrite (j_ox _ _ J3), C3, U3.
  unfold total in T3. rewrite app_assoc, T3. reflexivity.
Qed.

(** ... or nothing to log and no XID record in the buffer. *)
Lemma finish_discard : forall s e o c fb auto,
  w_mat s = false -> finish s e o c fb auto = discard s.
Proof. intros s e o c fb auto M. unfold finish. rewrite M. reflexivity. Qed.

Lemma total_drop : forall s rs h ev,
  K s rs h -> filter is_change (evs_of rs) = [] ->
  is_change ev = false ->
  subseq (replay (w_log s)) (h ++ [ev])
  /\ filter is_change (replay (w_log s)) = filter is_change (h ++ [ev]).
Proof.
  intros s rs h ev HK D NC. split.
  - eapply subseq_trans; [|apply subseq_pre].
    eapply subseq_trans; [|apply (k_sub _ _ _ HK)]. apply subseq_pre.
  - rewrite filter_app. cbn [filter]. rewrite NC, app_nil_r, <- (k_chg _ _ _ HK).
    unfold total. rewrite filter_app, D, app_nil_r. reflexivity.
Qed.

Lemma joint_K : forall s rs h e o x sub,
  K s rs h -> env_okb e = true -> rangeb 4 x = true -> w_cur s = Some o ->
  K (joint s e o x sub) []
    (h ++ [mkEv (Some o) None rr_default (RJoint x (e_xmin e) (e_csn e) sub)])
  /\ w_cur (joint s e o x sub) = w_cur s.
Proof.
  intros s rs h e o x sub HK E RX CU. unfold joint. cbv zeta.
  destruct (flush_if_J s rs e 22) as [r1 [J1 [T1 [P1 _]]]]; auto.
  { apply (k_j _ _ _ HK). }
  set (s1 := flush_if s e 22) in *. destruct P1 as [KC [KS _]].
  assert (X : exists r2, J (if w_cx s1 then s1 else add_xid s1 e o) r2
     /\ total (if w_cx s1 then s1 else add_xid s1 e o) r2 = total s rs
     /\ w_cur (if w_cx s1 then s1 else add_xid s1 e o) = Some o
     /\ w_saved (if w_cx s1 then s1 else add_xid s1 e o) = w_saved s).
  { destruct (w_cx s1) eqn:CX.
    - exists r1. rewrite KC, KS. auto.
    - destruct (add_xid_J s1 r1 e o) as [A B]; auto; [congruence|].
      exists (r1 ++ [RXid o (e_lx e) (e_hx e)]). rewrite B. cbn. rewrite KC, KS. auto. }
  destruct X as [r2 [J2 [T2 [U2 S2]]]].
  set (s2 := if w_cx s1 then s1 else add_xid s1 e o) in *.
  destruct (flush_if_J s2 r2 e 22) as [r3 [J3 [T3 [P3 _]]]]; auto.
  destruct (add_xid_if_J (flush_if s2 e 22) r3 e) as [r4 [J4 [T4 [P4 [C4 _]]]]]; auto.
  pose proof (keeps_trans _ _ _ P3 P4) as [KC4 [KS4 _]].
  set (s4 := add_xid_if (flush_if s2 e 22) e) in *.
  assert (CX4 : w_cx s4 = true).
  { apply C4. destruct P3 as [P3 _]. rewrite P3, U2. discriminate. }
  set (r := RJoint x (e_xmin e) (e_csn e) sub).
  assert (WR : wf_rec r = true).
  { unfold env_okb in E. ands. cbn [r wf_rec]. andi; auto. }
  assert (W5 : well (r4 ++ [r])).
  { apply well_snoc; auto. apply (j_well _ _ J4). exact Logic.I. }
  split.
  - apply (K_add s rs); auto.
    + constructor; cbn; auto.
      * split; [reflexivity|exact Logic.I].
      * rewrite KC4, U2. intros q Q. inversion Q; subst.
        apply (j_cur _ _ (k_j _ _ _ HK)). exact CU.
      * discriminate.
    + unfold total. cbn [set_mat flush set_csw put w_log w_buf].
      rewrite replay_snoc, (j_buf _ _ J4), <- snoc_buf.
      rewrite replay_records by (auto; try (apply (env_hdr e false); assumption); apply env_hdr; assumption).
      change (evs_of []) with (@nil event). rewrite app_nil_r.
      rewrite evs_snoc. cbn [r feed snd]. rewrite (j_ox _ _ J4), CX4, KC4, U2.
      unfold total in T1, T2, T3, T4. rewrite app_assoc, T4, T3, T2. reflexivity.
    + cbn. rewrite KS4, S2. apply (k_saved _ _ _ HK).
  - cbn. rewrite KC4, U2. auto.
Qed.

(** Changing only the session's transaction, with nothing announced. *)
Lemma K_switch_cur : forall s rs h cur saved m,
  K s rs h -> w_cx s = false -> filter is_change (evs_of rs) = [] ->
  (forall o, cur = Some o -> rangeb 8 o = true) ->
  Forall (fun p => forall o, fst p = Some o -> rangeb 8 o = true) saved ->
  K (set_saved (set_cur (set_mat s m) cur) saved) rs h.
Proof.
  intros s rs h cur saved m HK CX D RC RS.
  pose proof (k_j _ _ _ HK) as J0.
  constructor; auto.
  - constructor; cbn [set_saved set_cur set_mat w_buf w_cx w_cur w_rel w_rr].
    + apply (j_buf _ _ J0).
    + apply (j_well _ _ J0).
    + rewrite CX. pose proof (j_ox _ _ J0) as X. rewrite CX in X. exact X.
    + apply (j_rel _ _ J0).
    + exact RC.
    + rewrite CX. discriminate.
    + auto.
  - apply (k_sub _ _ _ HK).
  - apply (k_chg _ _ _ HK).
Qed.

Lemma set_cur_eq : forall s c, set_cur s c = set_saved (set_cur (set_mat s (w_mat s)) c) (w_saved s).
Proof. intros s c. destruct s; reflexivity. Qed.

Lemma K_fresh : forall s h cur m saved,
  w_buf s = [] -> w_cx s = false -> w_rel s = None ->
  subseq (replay (w_log s)) h ->
  filter is_change (replay (w_log s)) = filter is_change h ->
  (forall o, cur = Some o -> rangeb 8 o = true) ->
  Forall (fun p => forall o, fst p = Some o -> rangeb 8 o = true) saved ->
  K (set_saved (set_cur (set_mat s m) cur) saved) [] h.
Proof.
  intros s h cur m saved B CX R SB CH RC RS.
  constructor; auto.
  - constructor; cbn [set_saved set_cur set_mat w_buf w_cx w_cur w_rel w_rr]; auto.
    + split; [reflexivity|exact Logic.I].
    + rewrite CX. reflexivity.
    + rewrite R. exact Logic.I.
    + rewrite CX. discriminate.
  - unfold total. change (evs_of []) with (@nil event). rewrite app_nil_r. exact SB.
  - unfold total. change (evs_of []) with (@nil event). rewrite app_nil_r. exact CH.
Qed.

Lemma total_nil : forall s, total s [] = replay (w_log s).
Proof. intros s. unfold total. change (evs_of []) with (@nil event). apply app_nil_r. Qed.

(** End of a transaction, then any other session state. *)
Lemma finish_K : forall s rs h e o c fb auto cur m saved,
  K s rs h -> env_okb e = true -> w_cur s = Some o ->
  w_mat s = true \/ w_cx s = false ->
  (forall q, cur = Some q -> rangeb 8 q = true) ->
  Forall (fun p => forall q, fst p = Some q -> rangeb 8 q = true) saved ->
  K (set_saved (set_cur (set_mat (finish s e o c fb auto) m) cur) saved) []
    (h ++ [mkEv (Some o) None rr_default (RFinish c (e_xmin e) (e_csn e))]).
Proof.
  intros s rs h e o c fb auto cur m saved HK E CU HZ RC RS.
  destruct (w_mat s) eqn:MA.
  - destruct (finish_mat s rs h e o c fb auto HK E CU MA) as [T [B [CX [R _]]]].
    rewrite total_nil in T.
    apply K_fresh; auto; rewrite T.
    + apply subseq_app; [apply (k_sub _ _ _ HK)|apply subseq_refl].
    + rewrite !filter_app, (k_chg _ _ _ HK). reflexivity.
  - destruct HZ as [HZ|HZ]; [discriminate|].
    rewrite finish_discard by exact MA.
    destruct (total_drop s rs h (mkEv (Some o) None rr_default (RFinish c (e_xmin e) (e_csn e))))
      as [A B]; auto.
    { apply (k_mat _ _ _ HK). exact MA. }
    apply K_fresh; auto.
Qed.

Lemma step_K : forall s rs h x,
  K s rs h -> hazard s x = false ->
  exists rs', K (step s x) rs' (h ++ (if enabled s x then asked (w_cur s) x else [])).
Proof.
  intros s rs h x HK HZ. unfold step.
  destruct (enabled s x) eqn:EN; [|exists rs; rewrite app_nil_r; exact HK].
  unfold hazard in HZ. rewrite EN in HZ. cbn [andb] in HZ.
  pose proof (k_j _ _ _ HK) as J0.
  destruct x; cbn [exec asked].
  - cbn [enabled] in EN. ands. rewrite app_nil_r. exists rs. rewrite set_cur_eq.
    assert (CU : w_cur s = None).
    { unfold has_cur in *. destruct (w_cur s); auto. discriminate. }
    apply K_switch_cur; auto.
    + destruct (w_cx s) eqn:CX; auto. exfalso. apply (j_cx _ _ J0 CX). exact CU.
    + apply (k_idle _ _ _ HK). exact CU.
    + intros q Q. inversion Q; subst. assumption.
    + apply (k_saved _ _ _ HK).
  - eapply mod_K; eauto.
  - eapply bridge_K; eauto.
  - eapply plain_K; eauto.
  - eapply cic_K; eauto.
  - eapply rbsp_K; eauto.
  - rewrite app_nil_r. eapply switch_K; eauto.
  - cbn [enabled] in EN. ands. destruct (has_cur_some s) as [o CU]; auto. rewrite CU.
    exists []. rewrite set_cur_eq.
    apply (finish_K s rs h e o commit fb false); auto.
    + unfold has_cur in HZ. rewrite CU in HZ. cbn [andb] in HZ.
      destruct (w_mat s); auto.
    + discriminate.
    + destruct (w_mat s) eqn:MA.
      * destruct (finish_mat s rs h e o commit fb false) as [_ [_ [_ [_ [S _]]]]]; auto.
        rewrite S. apply (k_saved _ _ _ HK).
      * rewrite finish_discard by auto. apply (k_saved _ _ _ HK).
  - cbn [enabled] in EN. ands. destruct (has_cur_some s) as [o CU]; auto. rewrite CU.
    destruct (joint_K s rs h e o xid sub) as [A B]; auto.
    exists []. destruct sub; auto. rewrite set_cur_eq.
    apply K_switch_cur; auto.
    + discriminate.
    + apply (k_saved _ _ _ A).
  - cbn [enabled] in EN. ands. rewrite app_nil_r. exists []. eapply flush_K; eauto.
  - cbn [enabled] in EN. rewrite app_nil_r.
    assert (SV : Forall (fun p => forall q, fst p = Some q -> rangeb 8 q = true)
                   ((w_cur s, w_mat s) :: w_saved s)).
    { constructor; [|apply (k_saved _ _ _ HK)]. cbn. apply (j_cur _ _ J0). }
    destruct (Z.eqb_spec (buf_len s) 0) as [Z0|Z0].
    + assert (B : w_buf s = []).
      { unfold buf_len in Z0. destruct (w_buf s); auto. cbn in Z0. lia. }
      assert (RS : rs = []).
      { pose proof (j_buf _ _ J0) as X. rewrite B in X. destruct rs as [|r0 rs]; auto.
        exfalso. cbn in X. symmetry in X. apply app_eq_nil in X. destruct X as [X _].
        apply (enc_nonempty r0 X). }
      subst rs. exists [].
      replace (set_cur (set_saved s ((w_cur s, w_mat s) :: w_saved s)) None)
        with (set_saved (set_cur (set_mat s (w_mat s)) None) ((w_cur s, w_mat s) :: w_saved s))
        by (destruct s; reflexivity).
      apply K_switch_cur; auto.
      * apply (j_emp _ _ J0 B).
      * discriminate.
    + exists [].
      replace (set_cur (set_saved (flush s e false) ((w_cur s, w_mat s) :: w_saved s)) None)
        with (set_saved (set_cur (set_mat (flush s e false) true) None)
                ((w_cur s, w_mat s) :: w_saved s)) by reflexivity.
      apply K_switch_cur; auto.
      * eapply flush_K; eauto.
      * discriminate.
  - cbn [enabled] in EN. ands. pose proof (k_saved _ _ _ HK) as SV.
    destruct (w_saved s) as [|[o m] rest] eqn:WS; [discriminate|].
    inversion SV as [|p l P1 P2 P3]; subst. cbn [fst] in P1.
    destruct (w_cur s) as [a|] eqn:CU.
    + exists []. apply (finish_K s rs h e a commit fb true); auto.
      unfold has_cur in HZ. rewrite CU in HZ. cbn [andb] in HZ.
      destruct (w_mat s); auto.
    + exists rs. rewrite app_nil_r. apply K_switch_cur; auto.
      * destruct (w_cx s) eqn:CX; auto. exfalso. apply (j_cx _ _ J0 CX). exact CU.
      * apply (k_idle _ _ _ HK). exact CU.
Qed.

Lemma run_K : forall ops s rs h,
  K s rs h -> no_hazard s ops ->
  exists rs', K (run step s ops) rs' (h ++ history s ops).
Proof.
  induction ops as [|x ops IH]; intros s rs h HK NH.
  - exists rs. cbn. rewrite app_nil_r. exact HK.
  - destruct NH as [N1 N2]. destruct (step_K s rs h x HK N1) as [rs' HK'].
    destruct (IH _ _ _ HK' N2) as [rs'' HK'']. exists rs''.
    cbn [history]. rewrite app_assoc. exact HK''.
Qed.

Lemma pending_records : forall s rs, J s rs -> pending s = evs_of rs.
Proof.
  intros s rs H. unfold pending. rewrite (j_buf _ _ H). apply replay_records; auto.
  apply (j_well _ _ H).
Qed.

(* ------------------------------------------------------------------ *)
(** ** The buffer never overflows *)

Definition fits (s : lw) : Prop := buf_len s + reserved s <= buffer_size.

Lemma fields_length : forall l, length (fields l) = fold_right plus 0%nat (map fst l).
Proof.
  induction l as [|[w v] l IH]; cbn [fields map fst fold_right]; auto.
  rewrite app_length, le_length, IH. reflexivity.
Qed.

Lemma put_len : forall s r, buf_len (put s r) = buf_len s + size r.
Proof. intros s r. unfold buf_len, size. cbn [put w_buf]. rewrite app_length. lia. Qed.

Lemma size_xid : forall a b c, size (RXid a b c) = 17.
Proof. intros. unfold size. cbn [enc_rec length]. rewrite fields_length. reflexivity. Qed.
Lemma size_finish : forall b a c, size (RFinish b a c) = 17.
Proof. intros. unfold size. cbn [enc_rec length]. rewrite fields_length. reflexivity. Qed.
Lemma size_joint : forall a b c d, size (RJoint a b c d) = 22.
Proof. intros. unfold size. cbn [enc_rec length]. rewrite fields_length. reflexivity. Qed.
Lemma size_switch : forall a b, size (RSwitch a b) = 9.
Proof. intros. unfold size. cbn [enc_rec length]. rewrite fields_length. reflexivity. Qed.
Lemma size_rri : forall a b, size (RRri a b) = 6.
Proof. intros. unfold size. cbn [enc_rec length]. rewrite fields_length. reflexivity. Qed.
Lemma size_rel : forall e rl v b p, size (rel_rec e rl v b p) = 46.
Proof.
  intros e [[[t d] r] n] v b p. unfold size. cbn [rel_rec enc_rec length].
  rewrite fields_length. reflexivity.
Qed.
Lemma size_mod : forall r rr, mod_okb r rr = true -> 0 < size r <= 7 + 2 * max_tuple.
Proof.
  intros r rr H. destruct r; try discriminate; cbn [mod_okb] in H; unfold tuple_okb in H;
    unfold size; cbn [enc_rec length]; rewrite !app_length, fields_length;
    cbn [map fst fold_right]; ands; lia.
Qed.
Lemma size_plain : forall r, plain_okb r = true -> 0 < size r <= 17.
Proof.
  intros r H. destruct r; try discriminate; unfold size; cbn [enc_rec length];
    rewrite ?fields_length; cbn; lia.
Qed.
Lemma size_cic : forall r, cic_okb r = true -> size r = 25.
Proof.
  intros r H. destruct r; try discriminate; unfold size; cbn [enc_rec length];
    rewrite ?fields_length; reflexivity.
Qed.
Lemma size_rbsp : forall a b c, size (RRbSp a b c) = 21.
Proof. intros. unfold size. cbn [enc_rec length]. rewrite fields_length. reflexivity. Qed.
Lemma size_bridge : forall ip, Z.of_nat (length ip) = 6 -> size (RBridge ip) = 7.
Proof. intros ip H. unfold size. cbn [enc_rec length]. lia. Qed.
Lemma size_feedback : size RFeedback = 1.
Proof. reflexivity. Qed.

Lemma len0 : forall s e b, buf_len (flush s e b) = 0.
Proof. reflexivity. Qed.

(** After [flush_if] with a request that fits an empty buffer there is
    room for the request and for an XID record. *)
Lemma flush_if_room : forall s e n, 0 <= n -> n + xid_size <= buffer_size ->
  buf_len (flush_if s e n) + n + reserved (flush_if s e n) <= buffer_size
  /\ (flush_if s e n = s \/ buf_len (flush_if s e n) = 0 /\ w_cx (flush_if s e n) = false
      /\ w_rel (flush_if s e n) = None).
Proof.
  intros s e n H0 H. unfold flush_if.
  destruct (buf_len s + n + reserved s >? buffer_size) eqn:G.
  - split; [|auto]. rewrite len0. unfold reserved. cbn. unfold xid_size in *. lia.
  - split; [lia|auto].
Qed.

Lemma add_xid_if_room : forall s e,
  buf_len (add_xid_if s e) + reserved (add_xid_if s e) <= buf_len s + reserved s.
Proof.
  intros s e. unfold add_xid_if. destruct (w_cx s) eqn:CX; [lia|].
  destruct (w_cur s) as [o|]; [|lia]. unfold add_xid. rewrite put_len, size_xid.
  unfold reserved. rewrite CX. cbn. unfold buf_len, xid_size. cbn. lia.
Qed.

Lemma add_xid_room : forall s e o, w_cx s = false ->
  buf_len (add_xid s e o) + reserved (add_xid s e o) <= buf_len s + reserved s.
Proof.
  intros s e o CX. unfold add_xid. rewrite put_len, size_xid.
  unfold reserved. rewrite CX. cbn. unfold buf_len, xid_size. cbn. lia.
Qed.

Lemma reserved_put : forall s r, reserved (put s r) = reserved s.
Proof. reflexivity. Qed.

Lemma same_rel_keep : forall s s' rl, w_rel s' = w_rel s -> same_rel s' rl = same_rel s rl.
Proof. intros s s' rl H. unfold same_rel. rewrite H. reflexivity. Qed.

Lemma add_xid_if_rel : forall s e, w_rel (add_xid_if s e) = w_rel s.
Proof. intros s e. unfold add_xid_if. destruct (w_cx s); auto. destruct (w_cur s); auto. Qed.

Lemma announce_room : forall s e rl rr ver bver spc,
  buf_len (announce s e rl rr ver bver spc) + reserved (announce s e rl rr ver bver spc)
  <= buf_len s + reserved s
     + (if same_rel s rl then 0 else 46) + (if rr =? rr_default then 0 else 6).
Proof.
  intros s e rl rr ver bver spc. unfold announce.
  destruct (same_rel s rl); [destruct (rr =? rr_default); lia|].
  destruct (rr =? rr_default); cbv zeta; rewrite ?reserved_put, ?put_len, ?size_rri.
  - change (buf_len (set_rel (put s (rel_rec e rl ver bver spc)) (Some rl) rr))
      with (buf_len (put s (rel_rec e rl ver bver spc))).
    change (reserved (set_rel (put s (rel_rec e rl ver bver spc)) (Some rl) rr)) with (reserved s).
    rewrite put_len, size_rel. lia.
  - change (buf_len (set_rel (put s (rel_rec e rl ver bver spc)) (Some rl) rr))
      with (buf_len (put s (rel_rec e rl ver bver spc))).
    change (reserved (set_rel (put s (rel_rec e rl ver bver spc)) (Some rl) rr)) with (reserved s).
    rewrite put_len, size_rel. lia.
Qed.

Lemma change_room : forall s e r rl rr ver bver spc m,
  0 < m -> size r = m -> m + 46 + 6 + xid_size <= buffer_size ->
  fits (put (announce (add_xid_if (flush_if s e
     (m + (if same_rel s rl then 0 else 46) + (if rr =? rr_default then 0 else 6))) e)
     e rl rr ver bver spc) r).
Proof.
  intros s e r rl rr ver bver spc m M0 SZ MX.
  set (n := m + (if same_rel s rl then 0 else 46) + (if rr =? rr_default then 0 else 6)).
  assert (N0 : 0 <= n) by (unfold n; destruct (same_rel s rl), (rr =? rr_default); lia).
  assert (N1 : n + xid_size <= buffer_size)
    by (unfold n; destruct (same_rel s rl), (rr =? rr_default); lia).
  destruct (flush_if_room s e n N0 N1) as [A B].
  set (s1 := flush_if s e n) in *.
  pose proof (add_xid_if_room s1 e) as X.
  pose proof (announce_room (add_xid_if s1 e) e rl rr ver bver spc) as Y.
  rewrite (same_rel_keep _ _ rl (add_xid_if_rel s1 e)) in Y.
  unfold fits. rewrite put_len, reserved_put, SZ.
  destruct B as [B|[B1 [B2 B3]]].
  - rewrite B in *. unfold n in A.
    destruct (same_rel s rl), (rr =? rr_default); lia.
  - assert (SR : same_rel s1 rl = false) by (unfold same_rel; rewrite B3; reflexivity).
    rewrite SR in Y. unfold reserved in X at 2. rewrite B1, B2 in X.
    destruct (rr =? rr_default); lia.
Qed.

Lemma plain_room : forall s e r, 0 < size r <= 100 -> fits (add_plain s e r).
Proof.
  intros s e r SZ. unfold add_plain.
  destruct (flush_if_room s e (size r)) as [A _]; [lia|unfold xid_size, buffer_size; lia|].
  pose proof (add_xid_if_room (flush_if s e (size r)) e) as X.
  unfold fits. rewrite put_len, reserved_put. lia.
Qed.

Lemma fits_flush : forall s e b, fits (flush s e b).
Proof. intros s e b. unfold fits, reserved. cbn. discriminate. Qed.

Lemma finish_fits : forall s e o c fb a, fits (finish s e o c fb a).
Proof.
  intros s e o c fb a. unfold finish. destruct (negb (w_mat s)).
  - unfold fits, buf_len, reserved. cbn. destruct (w_cx s); discriminate.
  - unfold fits, buf_len, reserved. cbn. discriminate.
Qed.

Lemma step_fits : forall s x, fits s -> fits (step s x).
Proof.
  intros s x F. unfold step. destruct (enabled s x) eqn:EN; auto.
  destruct x; cbn [exec enabled] in *.
  - exact F.
  - ands. rewrite add_modify_eq.
    match goal with H : mod_okb r rr = true |- _ => pose proof (size_mod _ _ H) as SZ end.
    apply (change_room s e r rl rr ver bver spc (size r)); auto; try lia.
    unfold xid_size, buffer_size, max_tuple in *. lia.
  - ands. rewrite add_bridge_eq.
    assert (SZ : size (RBridge ip) = 7) by (apply size_bridge; lia).
    replace (7 + (if same_rel s rl then 0 else 46))
      with (7 + (if same_rel s rl then 0 else 46) + (if rr_default =? rr_default then 0 else 6))
      by (rewrite Z.eqb_refl; lia).
    apply (change_room s e (RBridge ip) rl rr_default ver bver spc 7); auto; try lia.
    unfold xid_size, buffer_size. lia.
  - ands. match goal with H : plain_okb r = true |- _ => apply size_plain in H end.
    apply plain_room. lia.
  - ands. match goal with H : cic_okb r = true |- _ => apply size_cic in H end.
    change (fits (add_plain s e r)). apply plain_room. lia.
  - unfold add_rb_sp, fits, buf_len, reserved, set_cx, flush. cbn [w_buf w_cx length].
    discriminate.
  - unfold add_switch. destruct (w_csw s); auto.
    destruct (flush_if_room (set_csw s true) e 9) as [A _];
      [lia|unfold xid_size, buffer_size; lia|].
    unfold fits. rewrite put_len, reserved_put, size_switch. lia.
  - destruct (w_cur s) as [o|]; auto. exact (finish_fits s e o commit fb false).
  - destruct (w_cur s) as [o|]; auto.
    destruct sub; unfold joint, fits, buf_len, reserved, set_cur, set_mat, flush;
      cbn [w_buf w_cx length]; discriminate.
  - apply fits_flush.
  - destruct (buf_len s =? 0); [exact F|exact (fits_flush s e false)].
  - destruct (w_saved s) as [|[o m] rest]; auto.
    destruct (w_cur s) as [a|]; [exact (finish_fits s e a commit fb true)|exact F].
Qed.
