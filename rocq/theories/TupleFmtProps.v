(** C37: forming a row and reading its columns back. *)
From Verif Require Import Base PageIoModel PageIoSpec PageIoProofs TupleFmtModel TupleFmtSpec TupleFmtProofs.
From Coq Require Import ZArith List Bool Lia.
From Coq Require Import ZifyBool ZifyNat ZifyN.
Import ListNotations.
Open Scope Z_scope.

Lemma exp_expected : forall d w i, exp d (columns w) i = expected d w i.
Proof.
  intros. unfold exp, expected. destruct (Nat.ltb_spec i (length (columns w))) as [L|L].
  - rewrite (nth_error_nth' _ CNull L). reflexivity.
  - apply nth_error_None in L. rewrite L. reflexivity.
Qed.

Lemma wf_len : forall d init w, wf_row d init w -> (length (columns w) <= length d)%nat /\ length (columns w) = w_natts w.
Proof. intros d init w (W1 & _ & _ & _ & _ & _ & W7 & _). lia. Qed.
Lemma wf_pairs : forall d init w, Forall wf_att d -> wf_row d init w -> Forall wf_pair (combine d (columns w)).
Proof. intros d init w WD (W1 & _ & _ & _ & _ & _ & W7 & W8 & _). apply combine_wf; [auto|]. rewrite W7. auto. Qed.

Lemma sh_f' : forall d init w H hn, shape d init w H hn ->
  if t_fixed (stored d init w) then hn = false /\ H = [] /\ sp_natts (fill_fixed_format_spec d init) = Z.of_nat (length (columns w))
  else h_hasnulls (H ++ data (combine d (columns w))) = hn /\
       h_natts (H ++ data (combine d (columns w))) = Z.of_nat (length (columns w)) /\
       zlen H = 8 + (if hn then MAXALIGN (BITMAPLEN (Z.of_nat (length (columns w)))) else 0).
Proof. intros d init w H hn S. pose proof (sh_f _ _ _ _ _ S). destruct (t_fixed (stored d init w)); tauto. Qed.

Lemma stored_seq : forall d init w ca n, Forall wf_att d -> wf_row d init w -> CI d ca -> 0 <= n ->
  let '(vs, ca') := read_seq d (fill_fixed_format_spec d init) ca (stored d init w) n in
  CI d ca' /\ length vs = Z.to_nat n /\
  forall j, (j < Z.to_nat n)%nat -> res_value (nth j d dflt_att) (nth j vs RNull) = expected d w j.
Proof.
  intros d init w ca n WD W C N. destruct (form_shape d init w WD W) as (H & hn & S).
  pose proof (seq_ok d (columns w) H WD (proj1 (wf_len _ _ _ W)) (wf_pairs _ _ _ WD W) (sh_al _ _ _ _ _ S) hn
                (sh_nb _ _ _ _ _ S) (fill_fixed_format_spec d init) (stored d init w) (sh_data _ _ _ _ _ S)
                (sh_f' _ _ _ _ _ S) ca n C N) as X.
  destruct (read_seq d (fill_fixed_format_spec d init) ca (stored d init w) n) as [vs ca'].
  destruct X as (X1 & X2 & X3). split; [auto|]. split; [auto|]. intros j J. rewrite <- exp_expected. auto.
Qed.

Lemma stored_get : forall d init w ca i, Forall wf_att d -> wf_row d init w -> CI d ca -> (i < w_natts w)%nat ->
  let '(v, ca') := fastgetattr d (fill_fixed_format_spec d init) ca (stored d init w) (Z.of_nat i) in
  CI d ca' /\ res_value (nth i d dflt_att) v = expected d w i.
Proof.
  intros d init w ca i WD W C N. destruct (form_shape d init w WD W) as (H & hn & S).
  destruct (wf_len _ _ _ W) as [L1 L2].
  pose proof (fast_ok d (columns w) H WD L1 (wf_pairs _ _ _ WD W) (sh_al _ _ _ _ _ S) hn
                (sh_nb _ _ _ _ _ S) (fill_fixed_format_spec d init) (stored d init w) (sh_data _ _ _ _ _ S)
                (sh_f' _ _ _ _ _ S) ca i C ltac:(lia)) as X.
  destruct (fastgetattr d (fill_fixed_format_spec d init) ca (stored d init w) (Z.of_nat i)) as [v ca'].
  rewrite <- exp_expected. auto.
Qed.

Lemma CI_empty : forall d, CI d empty_cache.
Proof. intros d j Hj. unfold empty_cache in Hj. lia. Qed.

Lemma step_CI : forall d init o ca, Forall wf_att d -> read_ok d init false o -> CI d ca ->
  CI d (rstep d (fill_fixed_format_spec d init) ca o).
Proof.
  intros d init o ca WD R C. inversion R as [w n W N|w i W N A]; subst; cbn [rstep].
  - pose proof (stored_seq d init w ca n WD W C ltac:(lia)) as X.
    destruct (read_seq d (fill_fixed_format_spec d init) ca (stored d init w) n) as [vs ca']. apply X.
  - destruct A as [A|A]; [discriminate|].
    pose proof (stored_get d init w ca (Z.to_nat i) WD W C ltac:(lia)) as X. rewrite Z2Nat.id in X by lia.
    destruct (fastgetattr d (fill_fixed_format_spec d init) ca (stored d init w) i) as [v ca']. apply X.
Qed.

Lemma run_CI : forall d init ops ca, Forall wf_att d -> Forall (read_ok d init false) ops -> CI d ca ->
  CI d (run (rstep d (fill_fixed_format_spec d init)) ca ops).
Proof.
  intros d init ops. induction ops as [|o ops IH]; intros ca WD F C; [exact C|].
  inversion F; subst. apply IH; auto. apply step_CI; auto.
Qed.

(** Whatever rows have been read before through the same descriptor (which
    remembers column offsets between reads), reading the leading columns of a
    stored row in order returns the value and the null flag given when the row
    was formed, and the default of each column added to the table since.
    Partial only as earlier single-column reads must not ask for columns added
    after their row was stored. *)
Theorem C37_columns_in_order_partial : forall d init ops w n,
  Forall wf_att d -> Forall (read_ok d init false) ops -> wf_row d init w ->
  0 <= n <= Z.of_nat (length d) ->
  let sp := fill_fixed_format_spec d init in
  let vs := fst (read_seq d sp (run (rstep d sp) empty_cache ops) (stored d init w) n) in
  length vs = Z.to_nat n /\
  forall i, (i < Z.to_nat n)%nat -> res_value (nth i d dflt_att) (nth i vs RNull) = expected d w i.
Proof.
  intros d init ops w n WD F W N sp vs.
  pose proof (stored_seq d init w _ n WD W (run_CI d init ops empty_cache WD F (CI_empty d)) ltac:(lia)) as X.
  unfold vs, sp. destruct (read_seq d (fill_fixed_format_spec d init) _ (stored d init w) n) as [l ca']. cbn [fst].
  tauto.
Qed.

(** Reading one column alone, for columns the row was stored with. *)
Theorem C37_one_column_partial : forall d init ops w i,
  Forall wf_att d -> Forall (read_ok d init false) ops -> wf_row d init w ->
  (i < w_natts w)%nat ->
  let sp := fill_fixed_format_spec d init in
  let v := fst (fastgetattr d sp (run (rstep d sp) empty_cache ops) (stored d init w) (Z.of_nat i)) in
  res_value (nth i d dflt_att) v = expected d w i.
Proof.
  intros d init ops w i WD F W N sp v.
  pose proof (stored_get d init w _ i WD W (run_CI d init ops empty_cache WD F (CI_empty d)) N) as X.
  unfold v, sp. destruct (fastgetattr d (fill_fixed_format_spec d init) _ (stored d init w) (Z.of_nat i)) as [l ca']. cbn [fst].
  tauto.
Qed.

Lemma data_nom : forall d init w, Forall wf_att d -> wf_row d init w -> t_fixed (stored d init w) = true ->
  sp_len (fill_fixed_format_spec d init) = zlen (t_data (stored d init w)).
Proof.
  intros d init w WD W F. destruct (form_shape d init w WD W) as (H & hn & S).
  pose proof (sh_f _ _ _ _ _ S) as X. rewrite F in X. destruct X as (-> & -> & EN & EV).
  rewrite (sh_data _ _ _ _ _ S). cbn [app].
  destruct (ffs_spec d (Z.to_nat init) 0 0 [] eq_refl eq_refl (Forall_nil _)) as (S1 & S2 & S3 & S4 & S5).
  cbn [app] in *. fold (fill_fixed_format_spec d init) in S1, S2, S3, S4, S5.
  rewrite S3, EN, Nat2Z.id. destruct (wf_len _ _ _ W) as [L1 L2].
  rewrite <- (allfix_nom d (columns w) [] WD L1 (wf_pairs _ _ _ WD W) eq_refl (length (columns w)) ltac:(lia)).
  - rewrite firstn_all2; [reflexivity|]. rewrite combine_length. lia.
  - intros j J. split.
    + pose proof (sh_nb _ _ _ _ _ S j J) as NB. cbn in NB. exact NB.
    + apply (S4 j); [lia|]. apply nth_error_nth'. lia.
Qed.

(** The space asked for is exactly the space filled, and the length recorded
    with the row (which is what is copied, logged and stored) is that length. *)
Theorem C37_size_exact : forall d init w,
  Forall wf_att d -> wf_row d init w ->
  let sp := fill_fixed_format_spec d init in
  tuple_size sp (stored d init w) = Z.of_nat (length (t_data (stored d init w))) /\
  new_tuple_size (firstn (w_natts w) d) sp (w_iptr w) (w_bridge w) (w_version w) (w_values w)
    = Z.of_nat (length (t_data (stored d init w))).
Proof.
  intros d init w WD W sp. pose proof (data_nom d init w WD W) as DN.
  destruct (form_shape d init w WD W) as (H & hn & S).
  pose proof (sh_f _ _ _ _ _ S) as X. pose proof (sh_data _ _ _ _ _ S) as TD.
  pose proof (sh_size _ _ _ _ _ S) as SZ. rewrite <- TD in SZ.
  split; [|exact SZ].
  unfold tuple_size. destruct (t_fixed (stored d init w)) eqn:EF.
  - unfold sp. rewrite (DN eq_refl). reflexivity.
  - destruct X as (_ & _ & _ & X & _). rewrite <- TD in X. rewrite X. reflexivity.
Qed.

(** The row version is kept. *)
Theorem C37_version_kept : forall d init w,
  Forall wf_att d -> wf_row d init w -> get_version (stored d init w) = w_version w.
Proof.
  intros d init w WD W. destruct (form_shape d init w WD W) as (H & hn & S).
  pose proof (sh_f _ _ _ _ _ S) as X. unfold get_version. rewrite (sh_data _ _ _ _ _ S).
  destruct (t_fixed (stored d init w)); [symmetry; tauto|tauto].
Qed.

(** Changing the version of a stored row gives exactly the row stored with that
    version: every column keeps its value. *)
Theorem C37_set_version : forall d init w v,
  Forall wf_att d -> wf_row d init w -> wf_row d init (with_version w v) ->
  set_version (fill_fixed_format_spec d init) (stored d init w) v = stored d init (with_version w v).
Proof.
  intros d init w v WD W Wv.
  destruct (stored_form d init w WD W) as (A & B & bm & P1 & P2 & P3 & P4).
  set (sp := fill_fixed_format_spec d init) in *. set (D := data (combine d (columns w))) in *.
  set (n := Z.of_nat (length (columns w))) in *.
  destruct (P4 v Wv) as [Zv Ev]. destruct (P4 (w_version w)) as [Z0 E0]; [destruct w; exact W|].
  assert (stored d init (with_version w (w_version w)) = stored d init w) as EW by (destruct w; reflexivity).
  rewrite EW in E0. rewrite E0, Ev. clear E0 Ev EW P4.
  assert (0 <= n < 65536) as Nn by (destruct (wf_len _ _ _ W); destruct W as (W1 & W2 & W3 & _); unfold n; lia).
  assert (0 <= v < 2 ^ 32) as Vv by (destruct Wv as (_ & _ & _ & Q & _); exact Q).
  assert (0 <= w_version w < 2 ^ 32) as Ww by (destruct W as (_ & _ & _ & Q & _); exact Q).
  pose proof (zlen_nn bm) as N1. pose proof (zlen_nn D) as N2.
  destruct ((w_version w =? 0) && B) eqn:Q0; unfold set_version; cbn [t_fixed t_data negb].
  - apply andb_true_iff in Q0. destruct Q0 as [_ QB]. destruct (P2 QB) as (EA & EN & EL). rewrite QB in *.
    destruct (v =? 0) eqn:QV; cbn [andb] in *; [reflexivity|].
    rewrite (P1 EA), EA, EN, EL in *. unfold HSZ. change (zlen []) with 0. rewrite Z.add_0_r.
    unfold zlen at 2. rewrite Nat2Z.id, firstn_all. reflexivity.
  - set (S := 8 + zlen bm + zlen D) in *.
    assert (firstn 4 (header A S n (w_version w) ++ bm ++ D) ++ le 4 v ++ skipn 8 (header A S n (w_version w) ++ bm ++ D)
            = header A S n v ++ bm ++ D) as EH.
    { assert (skipn 8 (header A S n (w_version w) ++ bm ++ D) = bm ++ D) as ->.
      { pose proof (skipn_zlen (header A S n (w_version w)) (bm ++ D)) as X. rewrite header_len in X. exact X. }
      assert (firstn 4 (header A S n (w_version w) ++ bm ++ D) = le 2 ((if A then 1 else 0) + 2 * S) ++ le 2 n) as ->.
      { unfold header. rewrite app_assoc. rewrite <- !app_assoc.
        change (le 2 ((if A then 1 else 0) + 2 * S) ++ le 2 n ++ le 4 (w_version w) ++ bm ++ D)
          with ((le 2 ((if A then 1 else 0) + 2 * S) ++ le 2 n) ++ (le 4 (w_version w) ++ bm ++ D)) || rewrite app_assoc.
        reflexivity. }
      unfold header. rewrite <- !app_assoc. reflexivity. }
    rewrite EH. destruct (header_read A S n v (bm ++ D) ltac:(lia) Nn Vv) as (R1 & R2 & R3 & R4).
    rewrite R1, R3, R4. destruct (Z.eqb_spec v 0) as [V0|V0]; cbn [andb]; [|reflexivity].
    cbn [andb] in Zv. destruct A; cbn [negb andb].
    + destruct B; [destruct (P2 eq_refl); discriminate|reflexivity].
    + destruct (Z.eqb_spec n (sp_natts sp)) as [EN|EN].
      * rewrite (P3 eq_refl (eq_sym EN)). destruct (P2 (P3 eq_refl (eq_sym EN))) as (_ & _ & EL).
        rewrite (P1 eq_refl), EL. cbn [app]. f_equal. unfold HSZ.
        pose proof (sub_app0 (header false S n v) D (zlen D)) as X. rewrite header_len in X. rewrite X. apply sub_all.
      * destruct B; [|reflexivity]. destruct (P2 eq_refl) as (_ & X & _). congruence.
Qed.

(** The trailing row identifier of index rows (the part that makes equal keys
    distinct) is found without walking the columns. *)
Theorem C37_last_identifier : forall d init w a,
  Forall wf_att d -> wf_row d init w -> w_natts w = length d -> nth_error d (length d - 1) = Some a -> a_len a = 6 ->
  res_value a (get_last_iptr d (fill_fixed_format_spec d init) (stored d init w)) = expected d w (length d - 1).
Proof.
  intros d init w a WD W EN EA E6.
  pose proof (data_nom d init w WD W) as DN.
  destruct (form_shape d init w WD W) as (H & hn & S).
  destruct (wf_len _ _ _ W) as [L1 L2]. pose proof (wf_pairs _ _ _ WD W) as WP.
  assert (0 < length d)%nat as LP by (destruct d; [discriminate|cbn; lia]).
  rewrite <- exp_expected. unfold exp. replace (length d - 1 <? length (columns w))%nat with true by lia.
  pose proof (nth_error_nth d _ dflt_att EA) as EA'. rewrite EA'.
  set (i := (length d - 1)%nat) in *.
  pose proof (sh_f _ _ _ _ _ S) as X. pose proof (sh_nb _ _ _ _ _ S i ltac:(lia)) as NB.
  assert (nth i (columns w) CNull <> CNull ->
          forall L, L = zlen (H ++ data (combine d (columns w))) ->
          res_value a (RVal (sub (H ++ data (combine d (columns w))) (L - 6) 6)) = cell_value a (nth i (columns w) CNull)) as G.
  { intros NN L ->. destruct (locate d (columns w) H WD L1 WP (sh_al _ _ _ _ _ S) i ltac:(lia) NN) as (k & e & rest & P & D1 & EM).
    assert (rest = []) as ->.
    { assert (data (firstn (Datatypes.S i) (combine d (columns w))) = data (combine d (columns w))) as DA.
      { rewrite firstn_all2; [reflexivity|]. rewrite combine_length. lia. }
      rewrite DA in D1. pose proof (f_equal zlen EM) as EZ. rewrite !zlen_app in EZ. rewrite D1 in EZ. rewrite !zlen_app in EZ.
      destruct rest; [reflexivity|]. exfalso. unfold zlen in EZ. cbn [length] in EZ. lia. }
    rewrite app_nil_r in EM. rewrite EM. rewrite EA' in P.
    destruct (p_fix _ _ _ _ _ P ltac:(lia)) as [_ LE]. rewrite E6 in LE.
    rewrite (zlen_app _ e), LE. replace (zlen (H ++ data (firstn i (combine d (columns w))) ++ zeros k) + 6 - 6)
      with (zlen (H ++ data (firstn i (combine d (columns w))) ++ zeros k)) by lia.
    rewrite sub_app0. rewrite <- LE. rewrite sub_all. apply (p_dec _ _ _ _ _ P). }
  unfold get_last_iptr. rewrite (sh_data _ _ _ _ _ S) in *. destruct (t_fixed (stored d init w)) eqn:EF; cbn [negb].
  - destruct X as (-> & EH & ES & _). replace (sp_natts (fill_fixed_format_spec d init) <? Z.of_nat (length d)) with false by lia.
    apply G; [exact NB|]. apply DN. reflexivity.
  - destruct X as (X1 & X2 & X3 & X4 & X5). rewrite X1. replace (Z.of_nat (length d) - 1) with (Z.of_nat i) by lia.
    destruct hn; cbn [andb].
    + rewrite NB. destruct (nth i (columns w) CNull) eqn:EC; cbn [is_null].
      * reflexivity.
      * apply G; [discriminate|auto].
      * apply G; [discriminate|auto].
    + apply G; [exact NB|auto].
Qed.

(** ** Refuted: single-column reads of columns added after the row was stored *)
Definition int4 (m : option (list Z)) : att := {| a_len := 4; a_align := 4; a_byval := true; a_pack := false; a_missing := m |}.
Definition text (m : option (list Z)) : att := {| a_len := -1; a_align := 4; a_byval := false; a_pack := true; a_missing := m |}.
Definition simple (n : nat) (ver : Z) (vs : list cell) : row :=
  {| w_natts := n; w_version := ver; w_iptr := None; w_bridge := None; w_values := vs |}.

Lemma int4_wf : forall m a b c d, 0 <= a < 256 -> 0 <= b < 256 -> 0 <= c < 256 -> 0 <= d < 256 ->
  wf_cell (int4 m) (CVal [a; b; c; d]).
Proof.
  intros. split; [repeat constructor; lia|]. split; [reflexivity|]. split; cbn; lia.
Qed.
Lemma int4_att : forall m, wf_att (int4 m).
Proof. intros. split; cbn; lia. Qed.
Lemma text_att : forall m, wf_att (text m).
Proof. intros. split; cbn; auto. Qed.

Ltac wf_simple := unfold wf_row, simple; cbn [w_natts w_version w_iptr w_bridge w_values];
  split; [cbn; lia|]; split; [cbn; lia|]; split; [cbn; lia|]; split; [cbn; lia|];
  split; [intros ? ?; discriminate|]; split; [cbn; intros; lia|]; split; [reflexivity|];
  split; [|vm_compute; reflexivity].

(** ALTER TABLE ... ADD COLUMN with a default; a row stored before it. *)
Definition d_added : list att := [int4 None; int4 (Some [7; 0; 0; 0])].
Definition w_old_fixed : row := simple 1 0 [CVal [5; 0; 0; 0]].
Definition w_old_header : row := simple 1 1 [CVal [5; 0; 0; 0]].
Definition w_new : row := simple 2 0 [CVal [6; 0; 0; 0]; CVal [8; 0; 0; 0]].
Lemma w_old_fixed_wf : wf_row d_added 1 w_old_fixed.
Proof. wf_simple. constructor; [apply int4_wf; lia|constructor]. Qed.
Lemma w_old_header_wf : wf_row d_added 1 w_old_header.
Proof. wf_simple. constructor; [apply int4_wf; lia|constructor]. Qed.
Lemma w_new_wf : wf_row d_added 1 w_new.
Proof. wf_simple. constructor; [apply int4_wf; lia|constructor; [apply int4_wf; lia|constructor]]. Qed.
Lemma d_added_wf : Forall wf_att d_added.
Proof. repeat constructor; apply int4_att. Qed.

(** The full claim fails for single-column reads: they return null instead of
    the default. *)
Theorem C37_refuted_added_column_null :
  exists d init w i, Forall wf_att d /\ wf_row d init w /\ (i < length d)%nat /\
    expected d w i = VFixed [7; 0; 0; 0] /\
    fst (fastgetattr d (fill_fixed_format_spec d init) empty_cache (stored d init w) (Z.of_nat i)) = RNull.
Proof.
  exists d_added, 1, w_old_fixed, 1%nat. split; [exact d_added_wf|]. split; [exact w_old_fixed_wf|].
  split; [cbn; lia|]. split; vm_compute; reflexivity.
Qed.

(** Once a newer row has been read, they point past the end of the old row. *)
Theorem C37_refuted_added_column_beyond :
  exists d init ops w i, Forall wf_att d /\ wf_row d init w /\ (i < length d)%nat /\
    Forall (read_ok d init false) ops /\
    expected d w i = VFixed [7; 0; 0; 0] /\
    let sp := fill_fixed_format_spec d init in
    fst (fastgetattr d sp (run (rstep d sp) empty_cache ops) (stored d init w) (Z.of_nat i)) = RBeyond.
Proof.
  exists d_added, 1, [OSeq (stored d_added 1 w_new) 2], w_old_header, 1%nat.
  split; [exact d_added_wf|]. split; [exact w_old_header_wf|]. split; [cbn; lia|].
  split; [constructor; [constructor; [exact w_new_wf|cbn; lia]|constructor]|].
  split; vm_compute; reflexivity.
Qed.

(** ** A case that meets the hypotheses *)
Definition d_ex : list att :=
  [ {| a_len := 6; a_align := 2; a_byval := false; a_pack := false; a_missing := None |};   (* ctid *)
    int4 None; text None;
    {| a_len := 1; a_align := 1; a_byval := true; a_pack := false; a_missing := None |};
    {| a_len := -1; a_align := 8; a_byval := false; a_pack := false; a_missing := None |};
    int4 None; text (Some [5; 120]) ].
Definition hello : list Z := [36; 0; 0; 0; 104; 101; 108; 108; 111].
Definition w_ex : row :=
  {| w_natts := 6; w_version := 3; w_iptr := Some [0; 0; 1; 0; 9; 0]; w_bridge := None;
     w_values := [CVal [1; 2; 3; 4]; CVal hello; CNull; CVal hello; CVal [9; 9; 9; 9]] |}.
Lemma d_ex_wf : Forall wf_att d_ex.
Proof.
  repeat (apply Forall_cons; [split; cbn; [lia|first [left; lia|right; left; split; reflexivity]]|]). apply Forall_nil.
Qed.
Lemma hello_wf : forall a, a_len a = -1 -> wf_cell a (CVal hello).
Proof.
  intros a E. split; [repeat constructor; lia|]. split; [lia|]. split; [|lia]. intros _. right.
  split; [cbn; lia|]. split; [reflexivity|left; reflexivity].
Qed.
Lemma w_ex_wf : wf_row d_ex 6 w_ex.
Proof.
  unfold wf_row. cbn [w_natts w_version w_iptr w_bridge w_values w_ex].
  split; [cbn; lia|]. split; [lia|]. split; [lia|]. split; [lia|]. split; [intros ? E; discriminate|].
  split; [intros [|i] Hi; [cbn; lia|cbn in Hi; lia]|]. split; [reflexivity|]. split; [|vm_compute; reflexivity].
  cbn [firstn d_ex]. change (columns w_ex) with [CVal [0; 0; 1; 0; 9; 0]; CVal [1; 2; 3; 4]; CVal hello; CNull; CVal hello; CVal [9; 9; 9; 9]].
  constructor; [split; [repeat constructor; lia|]; split; [reflexivity|]; split; cbn; lia|].
  constructor; [apply int4_wf; lia|]. constructor; [apply hello_wf; reflexivity|]. constructor; [exact Logic.I|].
  constructor; [apply hello_wf; reflexivity|]. constructor; [apply int4_wf; lia|constructor].
Qed.

(** A row with an identifier, a null, a packed and an unpacked string and a
    column added later reads back. *)
Example C37_example :
  map (fun i => expected d_ex w_ex i) [0; 1; 2; 3; 4; 5; 6]%nat =
  [VFixed [0; 0; 1; 0; 9; 0]; VFixed [1; 2; 3; 4]; VVar false [104; 101; 108; 108; 111]; VNull;
   VVar false [104; 101; 108; 108; 111]; VFixed [9; 9; 9; 9]; VVar false [120]] /\
  forall i, (i < 7)%nat ->
    res_value (nth i d_ex dflt_att)
      (nth i (fst (read_seq d_ex (fill_fixed_format_spec d_ex 6) empty_cache (stored d_ex 6 w_ex) 7)) RNull)
    = expected d_ex w_ex i.
Proof.
  split; [reflexivity|]. intros i Hi.
  apply (proj2 (C37_columns_in_order_partial d_ex 6 [] w_ex 7 d_ex_wf (Forall_nil _) w_ex_wf ltac:(cbn; lia)) i).
  exact Hi.
Qed.
Example C37_example_version : wf_row d_added 1 (with_version w_new 4) /\ wf_row d_added 1 w_old_fixed /\
  t_fixed (stored d_added 1 w_old_fixed) = true /\ t_fixed (stored d_added 1 (with_version w_old_fixed 4)) = false.
Proof.
  split; [|split; [exact w_old_fixed_wf|split; vm_compute; reflexivity]].
  change (with_version w_new 4) with (simple 2 4 [CVal [6; 0; 0; 0]; CVal [8; 0; 0; 0]]).
  wf_simple. constructor; [apply int4_wf; lia|constructor; [apply int4_wf; lia|constructor]].
Qed.
(** An index row: a key and the row identifier. *)
Definition d_idx : list att := [text None; {| a_len := 6; a_align := 2; a_byval := false; a_pack := false; a_missing := None |}].
Definition w_idx : row := simple 2 0 [CVal hello; CVal [0; 0; 1; 0; 9; 0]].
Example C37_example_index : Forall wf_att d_idx /\ wf_row d_idx 2 w_idx /\ w_natts w_idx = length d_idx /\
  get_last_iptr d_idx (fill_fixed_format_spec d_idx 2) (stored d_idx 2 w_idx) = RVal [0; 0; 1; 0; 9; 0].
Proof.
  split; [repeat (apply Forall_cons; [split; cbn; [lia|first [left; lia|right; left; split; reflexivity]]|]); apply Forall_nil|].
  split; [|split; [reflexivity|vm_compute; reflexivity]].
  wf_simple. constructor; [apply hello_wf; reflexivity|].
  constructor; [split; [repeat constructor; lia|]; split; [reflexivity|]; split; cbn; lia|constructor].
Qed.

Print Assumptions C37_columns_in_order_partial.
Print Assumptions C37_one_column_partial.
Print Assumptions C37_size_exact.
Print Assumptions C37_version_kept.
Print Assumptions C37_set_version.
Print Assumptions C37_last_identifier.
Print Assumptions C37_refuted_added_column_null.
Print Assumptions C37_refuted_added_column_beyond.
