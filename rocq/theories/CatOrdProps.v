(** C48: the comparison functions of the system catalogs. *)
From Coq Require Import ZArith List Bool Lia.
From Coq Require Import ZifyBool.
From Verif Require Import Base CatOrdModel CatOrdSpec CatOrdProofs.
Import ListNotations.
Open Scope Z_scope.

Definition any {A} (_ : A) : Prop := True.

(* The five plain catalogs: total orders in which exactly the keys of the same
   chunk, tree or extent are equal. *)
Theorem C48_root_order : total_order any same_root shared_root_info_key_cmp.
Proof.
  apply (total_of_lex _ _ _ _ rf 3); [reflexivity|intros; apply root_lex|].
  intros a b _ _. unfold rf, same_root. split; [intro E; inversion E; auto|intros [-> [-> ->]]; reflexivity].
Qed.
Theorem C48_table_order : total_order any same_table_chunk o_table_chunk_cmp.
Proof.
  apply (total_of_lex _ _ _ _ tf 3); [reflexivity|intros; apply table_lex|].
  intros a b _ _. unfold tf, same_table_chunk, same_table. split; [intro E; inversion E; auto|intros [[-> ->] ->]; reflexivity].
Qed.
Theorem C48_index_order : total_order any same_index_chunk o_index_chunk_cmp.
Proof.
  apply (total_of_lex _ _ _ _ if_ 5); [reflexivity|intros; apply index_lex|].
  intros a b _ _. unfold if_, same_index_chunk, same_index. split; [intro E; inversion E; auto|intros [[-> [-> [-> ->]]] ->]; reflexivity].
Qed.
Theorem C48_free_order :
  total_order any (fun a b => same_tree a b /\ f_off a = f_off b) free_tree_off_len_cmp /\
  total_order any (fun a b => same_tree a b /\ f_len a = f_len b /\ f_off a = f_off b) free_tree_len_off_cmp.
Proof.
  split.
  - apply (total_of_lex _ _ _ _ (fun a => ff a ++ [f_off a]) 4); [reflexivity|intros; apply off_lex|].
    intros a b _ _. unfold ff, same_tree. cbn [app]. split; [intro E; inversion E; auto|intros [[-> [-> ->]] ->]; reflexivity].
  - apply (total_of_lex _ _ _ _ (fun a => ff a ++ [f_len a; f_off a]) 5); [reflexivity|intros; apply len_lex|].
    intros a b _ _. unfold ff, same_tree. cbn [app]. split; [intro E; inversion E; auto|intros [[-> [-> ->]] [-> ->]]; reflexivity].
Qed.
(* In the second order a request of at least [n] blocks starts at the first
   extent of the tree that is long enough. *)
Theorem C48_free_request : forall want e, same_tree want e -> f_off want = 0 -> 0 <= f_off e ->
  (free_tree_len_off_cmp want e <= 0 <-> f_len want <= f_len e).
Proof.
  intros want e [E1 [E2 E3]] O P. pose proof (len_lex want e) as X. unfold ff in X. rewrite E1, E2, E3, O in X. cbn [app lex] in X.
  rewrite !Z.ltb_irrefl in X. pose proof (sgn_cases (free_tree_len_off_cmp want e)) as S. rewrite X in S.
  destruct (Z.ltb_spec (f_len want) (f_len e)), (Z.ltb_spec (f_len e) (f_len want)), (Z.ltb_spec 0 (f_off e)), (Z.ltb_spec (f_off e) 0); lia.
Qed.

(* The tablespace is part of a tree's identity (include/orioledb.h:278), but the
   descriptions of two tables, and the free extents of two trees, that differ
   only in it are the same entry. *)
Theorem C48_refuted_table_tablespace : exists a b, other_tablespace (t_oids a) (t_oids b) /\ o_table_chunk_cmp a b = 0.
Proof. exists (mkT (mkOids 5 16384 16390 1663) 0 1), (mkT (mkOids 5 20000 16390 30000) 0 1). split; [intro E; discriminate E|reflexivity]. Qed.

(* The caches of PostgreSQL's catalogs.  Missing: numbers 2^31 apart or more
   (refuted below). *)
Theorem C48_cache_order_partial : forall lo types,
  total_order (fun a => exists k, a = STuple k /\ skey_ok lo types k)
    (fun a b => same_entry (sarg_key a) (sarg_key b)) (o_sys_cache_cmp (length types)).
Proof.
  intros lo types. apply (total_of_lex _ _ _ _ (fun a => sf (sarg_key a)) (2 + list_sum (map klen types))).
  - intros a [k [-> H]]. cbn [sarg_key sf length]. rewrite app_length, (ksf_len lo types) by exact H. cbn. lia.
  - intros a b [k [-> H]] [k' [-> H']]. apply (sys_lex lo types); assumption.
  - intros a b [k [-> H]] [k' [-> H']]. cbn [sarg_key]. unfold sf, same_entry, same_object. split.
    + intro E. inversion E as [[E1 E2]]. apply app_inj_tail in E2. destruct E2 as [E2 E3].
      split; [split; [congruence|eapply ksf_inj; eauto]|exact E3].
    + intros [[-> ->] ->]. reflexivity.
Qed.
(* A bound of the first [n] keys is equal to exactly the entries of those keys,
   of every version, and they are contiguous in the order: entries before are
   below the bound, entries after are above it. *)
Theorem C48_cache_prefix_partial : forall lo types n b, skey_ok lo types b ->
  let cmpb k := o_sys_cache_cmp (length types) (STuple k) (SBound b n) in
  (forall k, skey_ok lo types k -> (cmpb k = 0 <-> same_prefix n k b)) /\
  (forall k k', skey_ok lo types k -> skey_ok lo types k' -> o_sys_cache_cmp (length types) (STuple k) (STuple k') <= 0 ->
     (cmpb k' <= 0 -> cmpb k <= 0) /\ (cmpb k' < 0 -> cmpb k < 0)).
Proof.
  intros lo types n b Hb cmpb.
  assert (LN : forall k, skey_ok lo types k -> length (sfp n k) = S (list_sum (map klen (firstn n types)))).
  { intros k H. unfold sfp. cbn [length]. f_equal. apply (ksf_len lo). apply firstn_ok. exact H. }
  split.
  - intros k H. pose proof (proj1 (sys_bound_lex lo types n k b H Hb)) as X. pose proof (sgn_cases (cmpb k)) as S.
    fold (cmpb k) in X. rewrite X in S. rewrite <- (proj1 S). rewrite lex_eq by (rewrite !LN; auto). unfold sfp, same_prefix. split.
    + intro E. inversion E as [[E1 E2]]. split; [congruence|]. eapply ksf_inj; [apply firstn_ok; exact H|apply firstn_ok; exact Hb|exact E2].
    + intros [-> ->]. reflexivity.
  - intros k k' H H' LE. pose proof (proj1 (sys_bound_lex lo types n k b H Hb)) as X. pose proof (proj1 (sys_bound_lex lo types n k' b H' Hb)) as X'.
    fold (cmpb k) in X. fold (cmpb k') in X'. pose proof (sgn_cases (cmpb k)) as S. pose proof (sgn_cases (cmpb k')) as S'. rewrite X in S. rewrite X' in S'.
    assert (PL : lex (sfp n k) (sfp n k') <= 0).
    { pose proof (sys_lex lo types k k' H H') as Y. pose proof (sgn_cases (o_sys_cache_cmp (length types) (STuple k) (STuple k'))) as SY.
      rewrite Y in SY. assert (Y0 : lex (sf k) (sf k') <= 0) by tauto. clear - Y0 H H'.
      unfold sf, sfp in *. cbn [lex] in *. destruct (Z.ltb_spec (s_dat k) (s_dat k')); [lia|]. destruct (Z.ltb_spec (s_dat k') (s_dat k)); [lia|].
      rewrite <- (firstn_skipn n (s_keys k)) in Y0. rewrite <- (firstn_skipn n (s_keys k')) in Y0. unfold ksf in *. rewrite !flat_map_app, <- !app_assoc in Y0.
      rewrite lex_app in Y0.
      - destruct (Z.eqb_spec (lex (flat_map kf (firstn n (s_keys k))) (flat_map kf (firstn n (s_keys k')))) 0); lia.
      - fold (ksf (firstn n (s_keys k))). fold (ksf (firstn n (s_keys k'))).
        rewrite (ksf_len lo (firstn n types)), (ksf_len lo (firstn n types)) by (apply firstn_ok; assumption). reflexivity. }
    pose proof (lex_trans (sfp n k) (sfp n k') (sfp n b) ltac:(rewrite !LN; auto) ltac:(rewrite !LN; auto) PL) as T.
    split; intro Q; [tauto|].
    assert (Q1 : lex (sfp n k') (sfp n b) < 0) by tauto.
    destruct (Z_lt_le_dec (lex (sfp n k) (sfp n b)) 0) as [Q2|Q2]; [tauto|]. exfalso.
    (* b <= k <= k' < b *)
    pose proof (lex_trans (sfp n b) (sfp n k) (sfp n k') ltac:(rewrite !LN; auto) ltac:(rewrite !LN; auto)) as T2.
    pose proof (lex_flip (sfp n k) (sfp n b)). pose proof (lex_flip (sfp n k') (sfp n b)). lia.
Qed.
Example C48_cache_ok : skey_ok 0 [false; true] (mkS 5 100 [KDatum 3500; KName [114; 101; 100]]) /\
  o_sys_cache_cmp 2 (STuple (mkS 5 100 [KDatum 3500; KName [114; 101; 100]])) (STuple (mkS 5 90 [KDatum 3500; KName [114; 101; 100]])) = 1 /\
  o_sys_cache_cmp 2 (STuple (mkS 5 100 [KDatum 3500; KName [114; 101]])) (STuple (mkS 5 90 [KDatum 3500; KName [114; 101; 100]])) = -1.
Proof.
  split; [|split; reflexivity]. constructor; [cbn; lia|]. constructor; [|constructor].
  split; [cbn; lia|]. repeat constructor.
Qed.
(* Two object ids 2^31 or more apart compare the wrong way round, as their
   difference does not fit the int it is assigned to: three ids in a circle. *)
Theorem C48_refuted_cache_order : exists a b c,
  circle (o_sys_cache_cmp 1) (STuple (mkS 5 100 [KDatum a])) (STuple (mkS 5 100 [KDatum b])) (STuple (mkS 5 100 [KDatum c])) /\
  0 <= a < U32 /\ 0 <= b < U32 /\ 0 <= c < U32.
Proof. exists 16384, 2000000000, 4000000000. unfold circle. vm_compute. repeat split; intro H; discriminate H. Qed.

(* The catalog of undo locations of transaction ids: an order while all ids are
   within 2^31 of each other, which is what PostgreSQL maintains for live ids;
   refuted for a catalog with older ids in it. *)
Theorem C48_xid_order_partial : forall lo, total_order (fun x => lo <= x < lo + 2 ^ 31) eq xid_undo_location_cmp.
Proof.
  intro lo.
  assert (P : forall a b, lo <= a < lo + 2 ^ 31 -> lo <= b < lo + 2 ^ 31 -> precedes a b = (a <? b)).
  { intros a b Ha Hb. unfold precedes. rewrite to_int_small by lia. lia. }
  constructor; unfold xid_undo_location_cmp; intros; rewrite ?P in * by assumption;
    repeat match goal with |- context [?x <? ?y] => destruct (Z.ltb_spec x y) | H : context [?x <? ?y] |- _ => destruct (Z.ltb_spec x y) end; lia.
Qed.
Example C48_xid_ok : xid_undo_location_cmp 4294967290 4294967295 = -1.
Proof. reflexivity. Qed.
Theorem C48_refuted_xid_order : exists a b c, circle xid_undo_location_cmp a b c /\ 3 <= a < U32 /\ 3 <= b < U32 /\ 3 <= c < U32.
Proof. exists 1000, 2000000000, 4000000000. unfold circle. vm_compute. repeat split; intro H; discriminate H. Qed.

(** Prefix keys: the chunks between the first and the next key of an entry are
    exactly the chunks of the entry. *)
Theorem C48_table_range : forall k c, 0 <= relnode (t_oids k) < U32 - 1 -> 0 <= t_chunk c ->
  (o_table_chunk_cmp (mkT (t_oids k) 0 (t_ver k)) c <= 0 /\ o_table_chunk_cmp c (oTablesGetNextKey k) < 0 <-> same_table k c).
Proof.
  intros k c R C. set (s := mkT (t_oids k) 0 (t_ver k)).
  pose proof (table_lex s c) as X. pose proof (table_lex c (oTablesGetNextKey k)) as Y.
  pose proof (sgn_cases (o_table_chunk_cmp s c)) as SX. pose proof (sgn_cases (o_table_chunk_cmp c (oTablesGetNextKey k))) as SY.
  rewrite X in SX. rewrite Y in SY. clear X Y. unfold same_table.
  set (x := o_table_chunk_cmp s c) in *. set (y := o_table_chunk_cmp c _) in *. clearbody x y.
  unfold tf, oTablesGetNextKey, u32_inc in *. cbn [t_oids t_chunk datoid relnode s] in *.
  rewrite (Z.mod_small (relnode (t_oids k) + 1)) in SY by lia. cbn [lex] in *.
  set (d1 := datoid (t_oids k)) in *. set (d2 := datoid (t_oids c)) in *. set (r1 := relnode (t_oids k)) in *. set (r2 := relnode (t_oids c)) in *.
  clearbody d1 d2 r1 r2.
  destruct (Z.ltb_spec d1 d2), (Z.ltb_spec d2 d1); [lia|lia|lia|].
  destruct (Z.ltb_spec r1 r2), (Z.ltb_spec r2 r1), (Z.ltb_spec (r1 + 1) r2), (Z.ltb_spec r2 (r1 + 1)); try lia;
    destruct (Z.ltb_spec (t_chunk c) 0), (Z.ltb_spec 0 (t_chunk c)); lia.
Qed.
Theorem C48_index_range : forall k c, 0 <= relnode (i_oids k) < U32 - 1 -> 0 <= i_chunk c ->
  (o_index_chunk_cmp (mkI (i_type k) (i_oids k) 0 (i_ver k)) c <= 0 /\ o_index_chunk_cmp c (oIndicesGetNextKey k) < 0 <-> same_index k c).
Proof.
  intros k c R C. set (s := mkI (i_type k) (i_oids k) 0 (i_ver k)).
  pose proof (index_lex s c) as X. pose proof (index_lex c (oIndicesGetNextKey k)) as Y.
  pose proof (sgn_cases (o_index_chunk_cmp s c)) as SX. pose proof (sgn_cases (o_index_chunk_cmp c (oIndicesGetNextKey k))) as SY.
  rewrite X in SX. rewrite Y in SY. clear X Y. unfold same_index.
  set (x := o_index_chunk_cmp s c) in *. set (y := o_index_chunk_cmp c _) in *. clearbody x y.
  unfold if_, oIndicesGetNextKey, u32_inc in *. cbn [i_type i_oids i_chunk datoid relnode spcoid s] in *.
  rewrite (Z.mod_small (relnode (i_oids k) + 1)) in SY by lia. cbn [lex] in *.
  set (d1 := datoid (i_oids k)) in *. set (d2 := datoid (i_oids c)) in *. set (r1 := relnode (i_oids k)) in *. set (r2 := relnode (i_oids c)) in *.
  set (p1 := spcoid (i_oids k)) in *. set (p2 := spcoid (i_oids c)) in *. set (t1 := i_type k) in *. set (t2 := i_type c) in *.
  clearbody d1 d2 r1 r2 p1 p2 t1 t2.
  destruct (Z.ltb_spec t1 t2), (Z.ltb_spec t2 t1); [lia|lia|lia|].
  destruct (Z.ltb_spec d1 d2), (Z.ltb_spec d2 d1); [lia|lia|lia|].
  destruct (Z.ltb_spec p1 p2), (Z.ltb_spec p2 p1); [lia|lia|lia|].
  destruct (Z.ltb_spec r1 r2), (Z.ltb_spec r2 r1), (Z.ltb_spec (r1 + 1) r2), (Z.ltb_spec r2 (r1 + 1)); try lia;
    destruct (Z.ltb_spec (i_chunk c) 0), (Z.ltb_spec 0 (i_chunk c)); lia.
Qed.
(* Cache entries kept in chunks; every such cache has one number as its key. *)
Theorem C48_cache_range_partial : forall lo k c v w, s_keys k = [KDatum v] -> s_keys (c : skey) = [KDatum w] ->
  lo <= v < lo + 2 ^ 31 - 1 -> lo <= w < lo + 2 ^ 31 -> forall chunk, 0 <= chunk ->
  (o_sys_cache_toast_cmp 1 (TBound k 0 false) (TTuple c chunk) <= 0 /\ o_sys_cache_toast_cmp 1 (TTuple c chunk) (oSysCacheToastGetNextKey k) < 0 <-> same_object k c).
Proof.
  intros lo k c v w Ek Ec Hv Hw chunk Hc. unfold o_sys_cache_toast_cmp, oSysCacheToastGetNextKey, o_sys_cache_cmp, same_object.
  cbn [sarg_key s_dat s_keys s_lsn]. rewrite Ek, Ec. cbn [inc_last o_sys_cache_key_cmp andb].
  rewrite !to_int_small by lia.
  assert (X : [KDatum v] = [KDatum w] <-> v = w) by (split; [intro E; inversion E; auto|intros ->; reflexivity]).
  rewrite X. clear X Ek Ec. generalize (s_dat k) (s_dat c). intros p q.
  assert (Z1 : forall z : Z, (if negb (z =? 0) then z else 0) = z) by (intro z; destruct (Z.eqb_spec z 0); cbn [negb]; lia).
  rewrite !Z1. clear Z1. rewrite (Z.eqb_sym q p).
  destruct (Z.eqb_spec p q) as [<-|N]; cbn [negb].
  - destruct (Z.eqb_spec (v - w) 0), (Z.eqb_spec (w - (v + 1)) 0); cbn [negb]; try lia.
    + destruct (Z.eqb_spec 0 chunk), (Z.ltb_spec 0 chunk); cbn [negb]; lia.
    + destruct (Z.eqb_spec chunk 0), (Z.ltb_spec chunk 0); cbn [negb]; lia.
  - destruct (Z.ltb_spec p q), (Z.ltb_spec q p); cbn; lia.
Qed.

(** Visiting all entries. *)
Definition tbl (o : oids) := (datoid o, relnode o).
Definition itree (x : Z * oids) := (fst x, datoid (snd x), spcoid (snd x), relnode (snd x)).

Lemma filter_len : forall A (f : A -> bool) l, (length (filter f l) <= length l)%nat.
Proof. intros A f. induction l as [|a l IH]; [cbn; lia|]. cbn. destruct (f a); cbn; lia. Qed.
Lemma table_foreach_gen : forall L fuel b, tables_foreach fuel L b =
  map t_oids (gforeach tkey o_table_chunk_cmp (fun b c => oTablesGetNextKey (mkT (t_oids c) 0 (t_ver b))) L fuel b).
Proof. intros L. induction fuel as [|n IH]; intro b; [reflexivity|]. cbn. destruct (first_from o_table_chunk_cmp L b); [|reflexivity]. cbn. f_equal. apply IH. Qed.

(* Every table of the catalog is reported exactly once, and nothing else. *)
Theorem C48_tables_visited : forall L, strictly_sorted o_table_chunk_cmp L ->
  Forall (fun c => 0 <= datoid (t_oids c) /\ 0 <= relnode (t_oids c) < U32 - 1 /\ 0 <= t_chunk c) L ->
  let R := tables_foreach (S (length L)) L tables_start in
  NoDup (map tbl R) /\ (forall o, In o R -> exists c, In c L /\ t_oids c = o) /\ (forall c, In c L -> In (tbl (t_oids c)) (map tbl R)).
Proof.
  intros L S F R. rewrite Forall_forall in F.
  assert (GD : forall a b : Z * Z, {a = b} + {a <> b}) by (repeat decide equality).
  destruct C48_table_order as [TS TF TT].
  pose proof (gforeach_all tkey (Z * Z) o_table_chunk_cmp (fun c => tbl (t_oids c)) (fun b c => oTablesGetNextKey (mkT (t_oids c) 0 (t_ver b))) L GD S) as H.
  destruct (H ltac:(intros b c x _ _; apply TT; exact Logic.I)) with (fuel := Datatypes.S (length L)) (b := tables_start) as [ND [IN CV]]; clear H.
  - intros b c x Ic Ix. destruct (F _ Ic) as [_ [Rc _]]. destruct (F _ Ix) as [_ [_ Cx]].
    pose proof (C48_table_range (mkT (t_oids c) 0 (t_ver b)) x Rc Cx) as X. cbn [t_oids t_ver] in X.
    set (N := oTablesGetNextKey (mkT (t_oids c) 0 (t_ver b))) in *.
    assert (SM : same_table (mkT (t_oids c) 0 (t_ver b)) x <-> tbl (t_oids x) = tbl (t_oids c)).
    { unfold same_table, tbl. cbn [t_oids]. split; [intros [-> ->]; reflexivity|intro E; inversion E; auto]. }
    rewrite SM in X. clear SM. pose proof (TF x N Logic.I Logic.I) as FX. pose proof (TF N x Logic.I Logic.I) as FX2.
    assert (CN : o_table_chunk_cmp c N <= 0).
    { pose proof (C48_table_range (mkT (t_oids c) 0 (t_ver b)) c Rc ltac:(apply F; exact Ic)) as Y. fold N in Y. cbn [t_oids] in Y.
      assert (W : same_table (mkT (t_oids c) 0 (t_ver b)) c) by (split; reflexivity). apply Y in W. lia. }
    split.
    + intro H. split; [exact (TT c N x Logic.I Logic.I Logic.I CN H)|]. intro E. apply X in E. lia.
    + intros [H1 H2]. destruct (Z_lt_le_dec 0 (o_table_chunk_cmp N x)) as [H|H]; [|exact H]. exfalso. apply H2. apply X. split; [|lia].
      apply (TT _ c x Logic.I Logic.I Logic.I); [|exact H1].
      pose proof (table_lex (mkT (t_oids c) 0 (t_ver b)) c) as Y. pose proof (sgn_cases (o_table_chunk_cmp (mkT (t_oids c) 0 (t_ver b)) c)) as SY.
      rewrite Y in SY. unfold tf in SY. cbn [t_oids t_chunk lex] in SY. rewrite !Z.ltb_irrefl in SY. destruct (F _ Ic) as [_ [_ Cc]].
      destruct (Z.ltb_spec 0 (t_chunk c)), (Z.ltb_spec (t_chunk c) 0); lia.
  - unfold rest. pose proof (filter_len _ (fun c => o_table_chunk_cmp tables_start c <=? 0) L). lia.
  - unfold R. rewrite table_foreach_gen. rewrite !map_map. split; [exact ND|]. split.
    + intros o H. apply in_map_iff in H. destruct H as [c [E Hc]]. exists c. split; [apply IN; exact Hc|exact E].
    + intros c Ic. apply (CV c Ic). destruct (F _ Ic) as [Dc [Rc Cc]].
      pose proof (table_lex tables_start c) as Y. pose proof (sgn_cases (o_table_chunk_cmp tables_start c)) as SY. rewrite Y in SY.
      set (z := o_table_chunk_cmp tables_start c) in *. clearbody z. unfold tf, tables_start in SY. cbn [t_oids t_chunk datoid relnode lex] in SY.
      destruct (Z.ltb_spec 0 (datoid (t_oids c))); [lia|]. destruct (Z.ltb_spec (datoid (t_oids c)) 0); [lia|].
      destruct (Z.ltb_spec 0 (relnode (t_oids c))); [lia|]. destruct (Z.ltb_spec (relnode (t_oids c)) 0); [lia|].
      destruct (Z.ltb_spec 0 (t_chunk c)), (Z.ltb_spec (t_chunk c) 0); lia.
Qed.
Lemma index_foreach_gen : forall L fuel b, indices_foreach fuel L b =
  map (fun c => (i_type c, i_oids c)) (gforeach ikey o_index_chunk_cmp (fun b c => oIndicesGetNextKey (mkI (i_type c) (i_oids c) 0 (i_ver b))) L fuel b).
Proof. intros L. induction fuel as [|n IH]; intro b; [reflexivity|]. cbn. destruct (first_from o_index_chunk_cmp L b); [|reflexivity]. cbn. f_equal. apply IH. Qed.

(* Every index of the catalog is reported exactly once, and nothing else. *)
Theorem C48_indices_visited : forall L, strictly_sorted o_index_chunk_cmp L ->
  Forall (fun c => (0 <= i_type c /\ 0 <= datoid (i_oids c) /\ 0 <= spcoid (i_oids c)) /\ 0 <= relnode (i_oids c) < U32 - 1 /\ 0 <= i_chunk c) L ->
  let R := indices_foreach (S (length L)) L indices_start in
  NoDup (map itree R) /\ (forall o, In o R -> exists c, In c L /\ (i_type c, i_oids c) = o) /\ (forall c, In c L -> In (itree (i_type c, i_oids c)) (map itree R)).
Proof.
  intros L S F R. rewrite Forall_forall in F.
  assert (GD : forall a b : Z * Z * Z * Z, {a = b} + {a <> b}) by (repeat decide equality).
  destruct C48_index_order as [TS TF TT].
  pose proof (gforeach_all ikey (Z * Z * Z * Z) o_index_chunk_cmp (fun c => itree (i_type c, i_oids c)) (fun b c => oIndicesGetNextKey (mkI (i_type c) (i_oids c) 0 (i_ver b))) L GD S) as H.
  destruct (H ltac:(intros b c x _ _; apply TT; exact Logic.I)) with (fuel := Datatypes.S (length L)) (b := indices_start) as [ND [IN CV]]; clear H.
  - intros b c x Ic Ix. destruct (F _ Ic) as [_ [Rc _]]. destruct (F _ Ix) as [_ [_ Cx]].
    pose proof (C48_index_range (mkI (i_type c) (i_oids c) 0 (i_ver b)) x Rc Cx) as X. cbn [i_type i_oids i_ver] in X.
    set (N := oIndicesGetNextKey (mkI (i_type c) (i_oids c) 0 (i_ver b))) in *.
    assert (SM : same_index (mkI (i_type c) (i_oids c) 0 (i_ver b)) x <-> itree (i_type x, i_oids x) = itree (i_type c, i_oids c)).
    { unfold same_index, itree. cbn [i_type i_oids fst snd]. split; [intros [-> [-> [-> ->]]]; reflexivity|intro E; inversion E; auto]. }
    rewrite SM in X. clear SM. pose proof (TF x N Logic.I Logic.I) as FX. pose proof (TF N x Logic.I Logic.I) as FX2.
    assert (CN : o_index_chunk_cmp c N <= 0).
    { pose proof (C48_index_range (mkI (i_type c) (i_oids c) 0 (i_ver b)) c Rc ltac:(apply F; exact Ic)) as Y. fold N in Y. cbn [i_type i_oids i_ver] in Y.
      assert (W : same_index (mkI (i_type c) (i_oids c) 0 (i_ver b)) c) by (repeat split; reflexivity). apply Y in W. lia. }
    split.
    + intro H. split; [exact (TT c N x Logic.I Logic.I Logic.I CN H)|]. intro E. apply X in E. lia.
    + intros [H1 H2]. destruct (Z_lt_le_dec 0 (o_index_chunk_cmp N x)) as [H|H]; [|exact H]. exfalso. apply H2. apply X. split; [|lia].
      apply (TT _ c x Logic.I Logic.I Logic.I); [|exact H1].
      pose proof (index_lex (mkI (i_type c) (i_oids c) 0 (i_ver b)) c) as Y. pose proof (sgn_cases (o_index_chunk_cmp (mkI (i_type c) (i_oids c) 0 (i_ver b)) c)) as SY.
      rewrite Y in SY. unfold if_ in SY. cbn [i_type i_oids i_chunk lex] in SY. rewrite !Z.ltb_irrefl in SY. destruct (F _ Ic) as [_ [_ Cc]].
      destruct (Z.ltb_spec 0 (i_chunk c)), (Z.ltb_spec (i_chunk c) 0); lia.
  - unfold rest. pose proof (filter_len _ (fun c => o_index_chunk_cmp indices_start c <=? 0) L). lia.
  - unfold R. rewrite index_foreach_gen. rewrite !map_map. split; [exact ND|]. split.
    + intros o H. apply in_map_iff in H. destruct H as [c [E Hc]]. exists c. split; [apply IN; exact Hc|exact E].
    + intros c Ic. apply (CV c Ic). destruct (F _ Ic) as [[Tc [Dc Pc]] [Rc Cc]].
      pose proof (index_lex indices_start c) as Y. pose proof (sgn_cases (o_index_chunk_cmp indices_start c)) as SY. rewrite Y in SY.
      set (z := o_index_chunk_cmp indices_start c) in *. clearbody z. unfold if_, indices_start in SY. cbn [i_type i_oids i_chunk datoid relnode spcoid lex] in SY.
      destruct (Z.ltb_spec 0 (i_type c)); [lia|]. destruct (Z.ltb_spec (i_type c) 0); [lia|].
      destruct (Z.ltb_spec 0 (datoid (i_oids c))); [lia|]. destruct (Z.ltb_spec (datoid (i_oids c)) 0); [lia|].
      destruct (Z.ltb_spec 0 (spcoid (i_oids c))); [lia|]. destruct (Z.ltb_spec (spcoid (i_oids c)) 0); [lia|].
      destruct (Z.ltb_spec 0 (relnode (i_oids c))); [lia|]. destruct (Z.ltb_spec (relnode (i_oids c)) 0); [lia|].
      destruct (Z.ltb_spec 0 (i_chunk c)), (Z.ltb_spec (i_chunk c) 0); lia.
Qed.

Example C48_visit_ok : let L := [mkT (mkOids 5 100 100 0) 0 1; mkT (mkOids 5 100 100 0) 1 1; mkT (mkOids 5 101 107 0) 0 1; mkT (mkOids 6 101 107 0) 0 1] in
  strictly_sorted o_table_chunk_cmp L /\
  Forall (fun c => 0 <= datoid (t_oids c) /\ 0 <= relnode (t_oids c) < U32 - 1 /\ 0 <= t_chunk c) L /\
  map tbl (tables_foreach 5 L tables_start) = [(5, 100); (5, 107); (6, 107)].
Proof. cbv zeta. split; [|split]; [cbn; repeat constructor|repeat constructor; cbn; try (unfold U32; lia)|reflexivity]. Qed.

(* With the last relfilenode in use the loop never ends: the next key wraps to
   the beginning of the database. *)
Theorem C48_refuted_visit : exists L, strictly_sorted o_table_chunk_cmp L /\
  Forall (fun c => 0 <= datoid (t_oids c) /\ 0 <= relnode (t_oids c) < U32 /\ 0 <= t_chunk c) L /\
  forall fuel, length (tables_foreach fuel L tables_start) = fuel.
Proof.
  exists [mkT (mkOids 5 100 (U32 - 1) 0) 0 1]. split; [cbn; repeat constructor|]. split; [repeat constructor; cbn; unfold U32; lia|].
  assert (X : forall fuel v, length (tables_foreach fuel [mkT (mkOids 5 100 (U32 - 1) 0) 0 1] (mkT (mkOids 5 100 0 0) 0 v)) = fuel).
  { induction fuel as [|n IH]; intro v; [reflexivity|].
    change (tables_foreach (S n) [mkT (mkOids 5 100 (U32 - 1) 0) 0 1] (mkT (mkOids 5 100 0 0) 0 v))
      with (mkOids 5 100 (U32 - 1) 0 :: tables_foreach n [mkT (mkOids 5 100 (U32 - 1) 0) 0 1] (mkT (mkOids 5 100 0 0) 0 v)).
    cbn [length]. f_equal. apply IH. }
  destruct fuel as [|n]; [reflexivity|].
  change (tables_foreach (S n) [mkT (mkOids 5 100 (U32 - 1) 0) 0 1] tables_start)
    with (mkOids 5 100 (U32 - 1) 0 :: tables_foreach n [mkT (mkOids 5 100 (U32 - 1) 0) 0 1] (mkT (mkOids 5 100 0 0) 0 0)).
  cbn [length]. f_equal. apply X.
Qed.

Print Assumptions C48_root_order.
Print Assumptions C48_table_order.
Print Assumptions C48_index_order.
Print Assumptions C48_free_order.
Print Assumptions C48_free_request.
Print Assumptions C48_refuted_table_tablespace.
Print Assumptions C48_cache_order_partial.
Print Assumptions C48_cache_prefix_partial.
Print Assumptions C48_refuted_cache_order.
Print Assumptions C48_xid_order_partial.
Print Assumptions C48_refuted_xid_order.
Print Assumptions C48_table_range.
Print Assumptions C48_index_range.
Print Assumptions C48_cache_range_partial.
Print Assumptions C48_tables_visited.
Print Assumptions C48_indices_visited.
Print Assumptions C48_refuted_visit.
