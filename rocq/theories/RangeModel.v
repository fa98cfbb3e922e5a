(* Model of the key range of an index scan: src/tableam/key_range.c and the
   per-tuple filter of src/tableam/index_scan.c.

   Simplifications: as in KeyModel.v (one type per column, no exclusion
   operators); no skip arrays (PostgreSQL 18).  A range is a pair of functions
   from column numbers to bounds. *)
From Coq Require Import ZArith List Bool.
From Verif Require Import Base KeySpec KeyModel RangeSpec.
Import ListNotations.
Open Scope Z_scope.

(* Strategies of a btree operator class, in the order of the index (for a
   descending column PostgreSQL turns < into >). *)
Inductive strat := SLess | SLessEq | SEq | SGreaterEq | SGreater.

(* ScanKeyData with what orioledb looks at. *)
Inductive skarg :=
| AVal (v : Z)                        (* sk_argument *)
| ANull | ANotNull                    (* SK_SEARCHNULL, SK_SEARCHNOTNULL *)
| AArray (vs : list Z)                (* SK_SEARCHARRAY: BTArrayKeyInfo.elem_values *)
| ARow (subs : list (nat * Z)).       (* SK_ROW_HEADER: the subkeys *)
Record scankey := mkSk { sk_att : nat; sk_strategy : strat; sk_arg : skarg }.

(* PostgreSQL's _bt_fix_scankey_strategy and _bt_preprocess_array_keys, the
   input of the code modelled here (nbtutils.c, not part of the repository):
   strategies are commuted for descending columns, IS NOT NULL becomes a
   one-sided comparison, IS NULL an equality. *)
Definition commute (s : strat) : strat :=
  match s with SLess => SGreater | SLessEq => SGreaterEq | SEq => SEq | SGreaterEq => SLessEq | SGreater => SLess end.
Definition strat_of (op : sqlop) : strat :=
  match op with OLt => SLess | OLe => SLessEq | OEq => SEq | OGe => SGreaterEq | OGt => SGreater end.
Definition dfl : fld := mkF true false.
Definition fixs (f : fld) (s : strat) : strat := if asc f then s else commute s.
Definition prep (fs : list fld) (c : cond) : scankey :=
  match c with
  | CCmp col op v => mkSk col (fixs (nth col fs dfl) (strat_of op)) (AVal v)
  | CNull col => mkSk col SEq ANull
  | CNotNull col => mkSk col (if nullfirst (nth col fs dfl) then SGreater else SLess) ANotNull
  | CIn col vs => mkSk col SEq (AArray vs)
  | CRow gt incl subs =>
      let col := match subs with [] => 0%nat | (c, _) :: _ => c end in
      mkSk col (fixs (nth col fs dfl) (if gt then (if incl then SGreaterEq else SGreater) else (if incl then SLessEq else SLess))) (ARow subs)
  end.

(* O_VALUE_BOUND_* flags, include/tableam/key_range.h:21-34. *)
Definition minus_inf : vbound := mkB 0 0 false true true false false.
Definition plus_inf : vbound := mkB 0 0 false true false true false.
Definition lower_b (nul incl : bool) : vbound := mkB 0 0 nul false true false incl.
Definition upper_b (nul incl : bool) : vbound := mkB 0 0 nul false false true incl.

(* The switch on the strategy, key_range.c:131-206: low, high, setLow, setHigh. *)
Definition by_strategy (f : fld) (k : scankey) : vbound * vbound * bool * bool :=
  match sk_strategy k with
  | SLess | SLessEq =>
      match sk_arg k with
      | ANotNull => (minus_inf, if nullfirst f then plus_inf else upper_b true false, false, false)
      | _ => (if nullfirst f then lower_b true false else minus_inf,
              upper_b false (match sk_strategy k with SLessEq => true | _ => false end),
              nullfirst f, true)
      end
  | SEq =>
      match sk_arg k with
      | ANull => (lower_b true true, upper_b true true, false, false)
      | _ => (lower_b false true, upper_b false true, true, true)
      end
  | SGreater | SGreaterEq =>
      match sk_arg k with
      | ANotNull => (if nullfirst f then lower_b true false else minus_inf, plus_inf, false, false)
      | _ => (lower_b false (match sk_strategy k with SGreaterEq => true | _ => false end),
              if nullfirst f then plus_inf else upper_b true false,
              true, negb (nullfirst f))
      end
  end.

(* o_fill_key_bounds, key_range.c:438-476, for one bound; set tells whether the
   caller passed it. *)
Definition o_fill (set : bool) (v : Z) (b : vbound) : vbound :=
  if set then mkB v 0 (b_null b) (b_unb b) (b_lower b) (b_upper b) (b_incl b) else b.

(* OBTreeKeyRange: bounds by column, row bounds as lists of (column, bound). *)
Record range := mkR {
  r_low : nat -> vbound; r_high : nat -> vbound;
  r_lrows : list (list (nat * vbound)); r_hrows : list (list (nat * vbound)) }.

Definition updn {A} (g : nat -> A) (i : nat) (a : A) : nat -> A := fun j => if Nat.eqb j i then a else g j.

Definition is_minus_inf (b : vbound) : bool := b_unb b && b_lower b && negb (b_null b) && negb (b_upper b) && negb (b_incl b).
Definition is_plus_inf (b : vbound) : bool := b_unb b && b_upper b && negb (b_null b) && negb (b_lower b) && negb (b_incl b).
(* o_key_range_is_unbounded, key_range.c:478-486. *)
Definition o_key_range_is_unbounded (r : range) (a : nat) : bool :=
  is_minus_inf (r_low r a) && is_plus_inf (r_high r a).

(* The subkeys of a row comparison with o_fill_row_key_bound,
   key_range.c:35-80 and 345-381: all but the last become inclusive. *)
Fixpoint row_bounds (set : bool) (b : vbound) (subs : list (nat * Z)) : list (nat * vbound) :=
  match subs with
  | [] => []
  | (c, v) :: rest =>
      let b' := match rest with
                | [] => b
                | _ => mkB (b_value b) 0 (b_null b) (b_unb b) (b_lower b) (b_upper b) true
                end in
      (c, o_fill true v b') :: row_bounds set b rest
  end.

(* One iteration of the loop over the keys, key_range.c:122-413; i is the
   number of the key, p is numPrefixExactKeys, cur the current elements. *)
Definition key_step (fs : list fld) (p : nat) (cur : nat -> nat) (r : range) (i : nat) (k : scankey) : range :=
  let a := sk_att k in
  let f := nth a fs dfl in
  let '(low, high, setLow, setHigh) := by_strategy f k in
  match sk_arg k with
  | AArray vs =>
      if o_key_range_is_unbounded r a then
        let low' := o_fill setLow (if Nat.ltb i p then nth (cur a) vs 0 else hd 0 vs) low in
        let high' := o_fill setHigh (if Nat.ltb i p then nth (cur a) vs 0 else last vs 0) high in
        mkR (if setLow then updn (r_low r) a low' else r_low r)
            (if setHigh then updn (r_high r) a high' else r_high r) (r_lrows r) (r_hrows r)
      else r
  | ARow subs =>
      mkR (r_low r) (r_high r)
          (if setLow then r_lrows r ++ [row_bounds setLow low subs] else r_lrows r)
          (if setHigh then r_hrows r ++ [row_bounds setHigh high subs] else r_hrows r)
  | arg =>
      let v := match arg with AVal v => v | _ => 0 end in
      let low' := o_fill setLow v low in
      let high' := o_fill setHigh v high in
      mkR (if fst (o_idx_cmp_value_bounds low' (r_low r a) f) >=? 0 then updn (r_low r) a low' else r_low r)
          (if fst (o_idx_cmp_value_bounds high' (r_high r a) f) <=? 0 then updn (r_high r) a high' else r_high r)
          (r_lrows r) (r_hrows r)
  end.
Fixpoint keys_loop (fs : list fld) (p : nat) (cur : nat -> nat) (i : nat) (ks : list scankey) (r : range) : range :=
  match ks with
  | [] => r
  | k :: ks' => keys_loop fs p cur (Datatypes.S i) ks' (key_step fs p cur r i k)
  end.

Definition r_init : range := mkR (fun _ => minus_inf) (fun _ => plus_inf) [] [].

(* The final loop, key_range.c:415-436: (empty, exact). *)
Fixpoint final_loop (fs : list fld) (r : range) (j : nat) (exact : bool) : bool * bool :=
  match fs with
  | [] => (false, exact)
  | f :: fs' =>
      let '(c, equals) := o_idx_cmp_value_bounds (r_low r j) (r_high r j) f in
      if c >=? 0 then (true, false)
      else final_loop fs' r (Datatypes.S j) (exact && equals)
  end.

(* o_key_data_to_key_range, key_range.c:107-436; fs are the columns of the key
   (resultNKeys of them): the range, empty and the result. *)
Definition o_key_data_to_key_range (fs : list fld) (p : nat) (cur : nat -> nat) (ks : list scankey) : range * bool * bool :=
  let r := keys_loop fs p cur 0 ks r_init in
  let '(empty, exact) := final_loop fs r 0 true in (r, empty, exact).

(* o_key_data_update_array_key_range, key_range.c:82-105. *)
Fixpoint update_loop (p : nat) (cur : nat -> nat) (i : nat) (ks : list scankey) (r : range) : range :=
  match ks with
  | [] => r
  | k :: ks' =>
      let a := sk_att k in
      let r' := match sk_arg k, sk_strategy k with
                | AArray vs, SEq =>
                    if Nat.ltb i p then
                      let v := nth (cur a) vs 0 in
                      mkR (updn (r_low r) a (o_fill true v (r_low r a)))
                          (updn (r_high r) a (o_fill true v (r_high r a))) (r_lrows r) (r_hrows r)
                    else r
                | _, _ => r
                end in
      update_loop p cur (Datatypes.S i) ks' r'
  end.
Definition o_key_data_update_array_key_range p cur ks r := update_loop p cur 0 ks r.

(* row_key_tuple_is_valid, index_scan.c:77-122. *)
Fixpoint row_key_tuple_is_valid (fs : list fld) (rk : list (nat * vbound)) (t : list val) (low : bool) : bool :=
  match rk with
  | [] => true
  | (c, b) :: rest =>
      if b_unb b then row_key_tuple_is_valid fs rest t low
      else
        let x := column t c in
        let cmp := o_idx_cmp_range_key_to_value b (nth c fs dfl) x in
        let isnull := match x with None => true | Some _ => false end in
        let valid_cmp := if low then cmp >? 0 else cmp <? 0 in
        if (negb (b_null b) && isnull) || valid_cmp then false
        else if negb (cmp =? 0) && match rest with [] => false | _ => true end then true
        else row_key_tuple_is_valid fs rest t low
  end.

(* One column of is_tuple_valid, index_scan.c:136-165. *)
Definition col_valid (f : fld) (low high : vbound) (x : val) : bool :=
  let isnull := match x with None => true | Some _ => false end in
  (b_unb low || (negb (negb (b_null low) && isnull) && negb (o_idx_cmp_range_key_to_value low f x >? 0))) &&
  (b_unb high || (negb (negb (b_null high) && isnull) && negb (o_idx_cmp_range_key_to_value high f x <? 0))).

(* The membership test, index_scan.c:198-255; the elements are in the order of
   the column (not reached for a NULL once the tuple is found invalid; the code
   then compares the zero datum). *)
Fixpoint bsearch (n : nat) (f : fld) (vs : list Z) (x lo hi : Z) : bool :=
  match n with
  | O => false
  | Datatypes.S n' =>
      if lo <=? hi then
        let mid := lo + (hi - lo) / 2 in
        let c := o_call_comparator x (nth (Z.to_nat mid) vs 0) in
        let c := if asc f then c else - c in
        if c =? 0 then true
        else if c <? 0 then bsearch n' f vs x lo (mid - 1)
        else bsearch n' f vs x (mid + 1) hi
      else false
  end.
Definition array_member (f : fld) (vs : list Z) (x : val) : bool :=
  bsearch (length vs) f vs (match x with Some z => z | None => 0 end) 0 (Z.of_nat (length vs) - 1).

Fixpoint arrays_valid (fs : list fld) (p i : nat) (ks : list scankey) (t : list val) : bool :=
  match ks with
  | [] => true
  | k :: ks' =>
      match sk_arg k with
      | AArray vs => if Nat.leb p i then array_member (nth (sk_att k) fs dfl) vs (column t (sk_att k)) else true
      | _ => true
      end && arrays_valid fs p (Datatypes.S i) ks' t
  end.

(* is_tuple_valid, index_scan.c:123-258. *)
Definition is_tuple_valid (fs : list fld) (p : nat) (r : range) (ks : list scankey) (t : list val) : bool :=
  forallb (fun j => col_valid (nth j fs dfl) (r_low r j) (r_high r j) (column t j)) (seq (p + 1) (length fs - (p + 1))) &&
  forallb (fun rk => row_key_tuple_is_valid fs rk t true) (r_lrows r) &&
  forallb (fun rk => row_key_tuple_is_valid fs rk t false) (r_hrows r) &&
  arrays_valid fs p 0 ks t.

(* The bounds given to the tree search. *)
Definition low_bound (fs : list fld) (r : range) : list vbound := map (r_low r) (seq 0 (length fs)).
Definition high_bound (fs : list fld) (r : range) : list vbound := map (r_high r) (seq 0 (length fs)).

(* o_get_num_prefix_exact_keys, src/indexam/handler.c:1708-1722 (before
   preprocessing IS NULL has no strategy). *)
Fixpoint num_prefix_from (prev : nat) (ks : list scankey) : nat :=
  match ks with
  | k :: ks' =>
      if Nat.eqb (sk_att k) prev &&
         match sk_strategy k, sk_arg k with SEq, ANull => false | SEq, _ => true | _, _ => false end
      then Datatypes.S (num_prefix_from (Datatypes.S prev) ks')
      else 0%nat
  | [] => 0%nat
  end.
Definition o_get_num_prefix_exact_keys (ks : list scankey) : nat := num_prefix_from 0 ks.

(* A row of the tree is returned by the scan of one range: a point lookup when
   exact (index_scan.c:772-780), else a scan with the filter (806-823). *)
Definition scan_returns (fs : list fld) (ks : list scankey) (cur : nat -> nat) (t : list val) : bool :=
  let p := o_get_num_prefix_exact_keys ks in
  let '(r, empty, exact) := o_key_data_to_key_range fs p cur ks in
  let n := length fs in
  let cmp b := o_idx_cmp_key_bound_to_tuple fs n false KBound b t in
  if empty then false
  else (cmp (low_bound fs r) <=? 0) && (cmp (high_bound fs r) >=? 0) &&
       (exact || is_tuple_valid fs p r ks t).
