(** C47: catalog metadata survives serialisation. *)
From Coq Require Import ZArith List Bool Lia ZifyBool.
From Verif Require Import Base PageIoModel TupleFmtModel TupleFmtProofs CatSerModel CatSerSpec CatSerProofs.
Import ListNotations.
Open Scope Z_scope.

(** Table metadata written by a server and read back by one of the same major
    version is unchanged, and no expression is marked as lost. *)
Theorem C47_table_round_trip : forall node nil_node to_str of_str pg pg' (t : otable node),
  nodes_print to_str -> nodes_read_back to_str of_str -> 0 <= pg < 2 ^ 32 -> same_major pg pg' -> wf_otable node t ->
  deser_otable node nil_node of_str pg' (ser_otable node to_str pg t) = Some (t, false).
Proof.
  intros node nil_node to_str of_str pg pg' t PR RB H M W. unfold deser_otable.
  pose proof (proj1 (ex_otable node nil_node to_str of_str PR pg pg' t H W) []) as E. rewrite app_nil_r in E. rewrite E.
  assert (S : forall n, seen node nil_node to_str of_str pg pg' n = (n, false)).
  { intros n. unfold seen. unfold same_major in M. rewrite M, Z.eqb_refl, RB. reflexivity. }
  assert (X : forall x, seen_oix node nil_node to_str of_str pg pg' x = (x, false)).
  { intros [h e p ps es ex im]. unfold seen_oix. rewrite !S. reflexivity. }
  unfold seen_otable. destruct t as [h xs fs ms]. cbn [t_hdr t_idx t_fields t_miss] in *. f_equal. f_equal.
  - f_equal. rewrite (map_ext _ (fun x => x)) by (intros a; rewrite X; reflexivity). apply map_id.
  - clear -X. induction xs; cbn [existsb]; [reflexivity|rewrite X; exact IHxs].
Qed.

(** Index metadata likewise; its identity comes from the catalog key. *)
Theorem C47_index_round_trip : forall node nil_node to_str of_str pg pg' (i : oindex node),
  nodes_print to_str -> nodes_read_back to_str of_str -> 0 <= pg < 2 ^ 32 -> same_major pg pg' -> wf_oindex node i ->
  deser_oindex node nil_node of_str pg' (o_key node i) (ser_oindex node to_str pg i) = Some (i, false).
Proof.
  intros node nil_node to_str of_str pg pg' i PR RB H M W. unfold deser_oindex. rewrite ser_oindex_eq.
  rewrite (proj1 (ex_oindex node nil_node to_str of_str PR pg pg' i H W) [o_state node i]).
  assert (S : forall n, seen node nil_node to_str of_str pg pg' n = (n, false)).
  { intros n. unfold seen. unfold same_major in M. rewrite M, Z.eqb_refl, RB. reflexivity. }
  unfold seen_oindex. rewrite !S. destruct i. reflexivity.
Qed.

(** Read by another major version, everything but the expression trees is
    unchanged, and the table is marked when a tree was lost. *)
Theorem C47_table_other_major : forall node nil_node to_str of_str pg pg' (t : otable node),
  nodes_print to_str -> 0 <= pg < 2 ^ 32 -> ~ same_major pg pg' -> wf_otable node t ->
  exists f, deser_otable node nil_node of_str pg' (ser_otable node to_str pg t) = Some (bare_otable node nil_node t, f)
    /\ (f = true <-> exists x, In x (t_idx node t) /\ (str_empty (to_str (x_pred node x)) = false \/ str_empty (to_str (x_exprs node x)) = false)).
Proof.
  intros node nil_node to_str of_str pg pg' t PR H M W. unfold deser_otable.
  pose proof (proj1 (ex_otable node nil_node to_str of_str PR pg pg' t H W) []) as E. rewrite app_nil_r in E. rewrite E.
  assert (S : forall n, seen node nil_node to_str of_str pg pg' n = (nil_node, negb (str_empty (to_str n)))).
  { intros n. unfold seen. unfold same_major in M. replace (pg / 10000 =? pg' / 10000) with false by lia. reflexivity. }
  assert (X : forall x, seen_oix node nil_node to_str of_str pg pg' x = (bare_oix node nil_node x, negb (str_empty (to_str (x_pred node x))) || negb (str_empty (to_str (x_exprs node x))))).
  { intros x. unfold seen_oix. rewrite !S. reflexivity. }
  unfold seen_otable. exists (existsb (fun x => snd (seen_oix node nil_node to_str of_str pg pg' x)) (t_idx node t)). split.
  - f_equal. f_equal. unfold bare_otable. f_equal. apply map_ext. intros x. rewrite X. reflexivity.
  - rewrite existsb_exists. split.
    + intros [x [I F]]. rewrite X in F. cbn [snd] in F. exists x. split; auto. lia.
    + intros [x [I F]]. exists x. rewrite X. cbn [snd]. split; auto. lia.
Qed.

(** A record that lacks its end is never taken for a whole table. *)
Theorem C47_table_cut_short : forall node nil_node to_str of_str pg pg' (t : otable node) c,
  nodes_print to_str -> 0 <= pg < 2 ^ 32 -> wf_otable node t -> cut_short c (ser_otable node to_str pg t) ->
  deser_otable node nil_node of_str pg' c = None.
Proof.
  intros node nil_node to_str of_str pg pg' t c PR H W [d [N E]]. unfold deser_otable.
  rewrite (proj2 (ex_otable node nil_node to_str of_str PR pg pg' t H W) c d E N). reflexivity.
Qed.

(** Nor is one followed by anything else. *)
Theorem C47_table_followed : forall node nil_node to_str of_str pg pg' (t : otable node) d,
  nodes_print to_str -> 0 <= pg < 2 ^ 32 -> wf_otable node t -> d <> [] ->
  deser_otable node nil_node of_str pg' (ser_otable node to_str pg t ++ d) = None.
Proof.
  intros node nil_node to_str of_str pg pg' t d PR H W N. unfold deser_otable.
  rewrite (proj1 (ex_otable node nil_node to_str of_str PR pg pg' t H W) d). destruct d; [contradiction|reflexivity].
Qed.

(** Nor for an index, if more than the last byte is missing... *)
Theorem C47_index_cut_short_partial : forall node nil_node to_str of_str pg pg' (i : oindex node) c d b,
  nodes_print to_str -> 0 <= pg < 2 ^ 32 -> wf_oindex node i -> ser_oindex node to_str pg i = c ++ d ++ [b] -> d <> [] ->
  deser_oindex node nil_node of_str pg' (o_key node i) c = None.
Proof.
  intros node nil_node to_str of_str pg pg' i c d b PR H W E N. rewrite ser_oindex_eq, app_assoc in E. apply app_inj_tail in E. destruct E as [E _].
  unfold deser_oindex. rewrite (proj2 (ex_oindex node nil_node to_str of_str PR pg pg' i H W) c d E N). reflexivity.
Qed.

(** ... but a record that lacks exactly its last byte is taken for an index
    that is valid, whatever its state was. *)
Theorem C47_refuted_index_cut_short : forall node nil_node to_str of_str pg pg' (i : oindex node),
  nodes_print to_str -> nodes_read_back to_str of_str -> 0 <= pg < 2 ^ 32 -> same_major pg pg' -> wf_oindex node i ->
  exists c, ser_oindex node to_str pg i = c ++ [o_state node i]
    /\ deser_oindex node nil_node of_str pg' (o_key node i) c = Some (with_state node i STATE_VALID, false).
Proof.
  intros node nil_node to_str of_str pg pg' i PR RB H M W. exists (ser_oindex0 node to_str pg i). split; [apply ser_oindex_eq|].
  unfold deser_oindex. pose proof (proj1 (ex_oindex node nil_node to_str of_str PR pg pg' i H W) []) as E. rewrite app_nil_r in E. rewrite E.
  assert (S : forall n, seen node nil_node to_str of_str pg pg' n = (n, false)).
  { intros n. unfold seen. unfold same_major in M. rewrite M, Z.eqb_refl, RB. reflexivity. }
  unfold seen_oindex. rewrite !S. destruct i. reflexivity.
Qed.

(** * Cases that meet the hypotheses *)
(** Trees with a number in them, printed as a digit, and the empty one. *)
Definition ex_to (n : option bool) : list Z := match n with None => [60; 62] | Some true => [49] | Some false => [48] end.
Definition ex_of (s : list Z) : option bool := match s with [49] => Some true | [48] => Some false | _ => None end.
Example C47_nodes : nodes_print ex_to /\ nodes_read_back ex_to ex_of.
Proof.
  split.
  - intros [[]|]; split; cbn; try lia; intros b H; repeat (destruct H as [<-|H]; [lia|]); contradiction.
  - intros [[]|]; reflexivity.
Qed.

(** An exclusion index with two operators, one expression field, a predicate. *)
Definition ex_xhdr : list Z := zeros 76 ++ [5; 0; 0; 0] ++ [6; 0; 0; 0] ++ zeros 10 ++ [2] ++ zeros 769 ++ [1] ++ zeros 7.
Definition ex_oix : oix (option bool) := mkOix _ ex_xhdr [zeros 92] (Some true) (Some [120; 61; 49]) None [[1; 2; 3; 4]; [5; 6; 7; 8]] [1].
(** A table with that index and two columns, one with a missing value. *)
Definition ex_thdr : list Z := zeros 12 ++ [7; 0; 0; 0] ++ zeros 58 ++ [2; 0; 0; 0; 1; 0] ++ zeros 20 ++ [1; 0] ++ zeros 2.
Definition ex_tab : otable (option bool) := mkOT _ ex_thdr [ex_oix] [zeros 92; zeros 92] [Some (DRef [9; 9; 9]); None].

Example C47_table_wf : wf_otable _ ex_tab.
Proof.
  assert (A : forall k l, forallb (fun x => zlen x =? k) l = true -> arrays_of k l).
  { intros k l H x I. rewrite forallb_forall in H. specialize (H x I). lia. }
  split; [reflexivity|]. split; [reflexivity|]. split.
  - intros x [<-|[]]. split; [reflexivity|]. split; [apply A; reflexivity|]. split; [reflexivity|]. split.
    + intros s E. injection E as <-. split; [|cbn; lia]. intros b H; repeat (destruct H as [<-|H]; [lia|]); contradiction.
    + split; [|reflexivity]. change (x_type (x_hdr _ ex_oix) =? oIndexExclusion) with true. split; [apply A; reflexivity|reflexivity].
  - split; [reflexivity|]. split; [apply A; reflexivity|]. split; [reflexivity|]. intros d [<-|[<-|[]]]; cbn; lia.
Qed.
Example C47_table_case : deser_otable _ None ex_of 170002 (ser_otable _ ex_to 170000 ex_tab) = Some (ex_tab, false)
  /\ deser_otable _ None ex_of 180000 (ser_otable _ ex_to 170000 ex_tab) = Some (bare_otable _ None ex_tab, true).
Proof. vm_compute. split; reflexivity. Qed.

(** An index under construction (state 1) with one leaf field. *)
Definition ex_ihdr : list Z := zeros 18 ++ [1; 0] ++ zeros 88 ++ [1; 0] ++ zeros 74.
Definition ex_ind : oindex (option bool) :=
  mkOI _ ([1; 2; 3], 4, 0) ex_ihdr [zeros 92] [zeros 24] None None (Some false) None [] [1] 1.
Example C47_index_wf : wf_oindex _ ex_ind.
Proof.
  assert (A : forall k l, forallb (fun x => zlen x =? k) l = true -> arrays_of k l).
  { intros k l H x I. rewrite forallb_forall in H. specialize (H x I). lia. }
  split; [reflexivity|]. split; [reflexivity|]. split; [reflexivity|]. split; [reflexivity|]. split; [apply A; reflexivity|].
  split; [apply A; reflexivity|]. split; [discriminate|]. split; reflexivity.
Qed.
Example C47_index_case : deser_oindex _ None ex_of 170000 (o_key _ ex_ind) (ser_oindex _ ex_to 170000 ex_ind) = Some (ex_ind, false).
Proof. vm_compute. reflexivity. Qed.

Print Assumptions C47_table_round_trip.
Print Assumptions C47_index_round_trip.
Print Assumptions C47_table_other_major.
Print Assumptions C47_table_cut_short.
Print Assumptions C47_table_followed.
Print Assumptions C47_index_cut_short_partial.
Print Assumptions C47_refuted_index_cut_short.
