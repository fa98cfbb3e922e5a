(** The pages of one tree: searches that read one page at a time, splits whose
    downlink is inserted later, merges, growth at the root, and scans that load
    one leaf after the other, all interleaved freely.
    Sources: src/btree/find.c:504-1147 (find_page), 1149-1266
    (follow_rightlink), 1272-1294 (step_upward_level), 1528-1644
    (find_right_page), 1652-1664 (refresh_context_leaf_lokey), 1675-1838
    (find_left_page), 1847-1900 (btree_find_context_lokey);
    src/btree/insert.c:188-262 (o_btree_finish_root_split_internal), 801-955
    (o_btree_insert_split), 1580-1763 (o_btree_insert_item);
    src/btree/split.c:436-512 (perform_page_split); src/btree/merge.c:71-280
    (btree_try_merge_pages), 643-790 (merge_pages); src/btree/page_state.c:1298
    (btree_split_mark_finished); src/btree/iterator.c:940-1060
    (o_btree_iterator_create), 1801-1955 (page_contains_end,
    btree_iterator_check_load_next_page). *)
From Coq Require Import ZArith List Bool Lia.
From Verif Require Import Base.
Import ListNotations.
Open Scope Z_scope.

(** A reference to a page: block number and change count. *)
Definition link := (Z * Z)%type.

(** A page.  [pg_gen] is pageChangeCount, [pg_hi] the hikey ([None] is the
    RIGHTMOST flag), [pg_right] the rightlink, set while the downlink of the
    right half of a split is missing.  [pg_lo] is not stored in the page: only
    whether it is absent is (the LEFTMOST flag).  A leaf has [pg_items]; an
    inner page has a first downlink without key and [pg_downs].  Sizes, chunks
    and disk downlinks are not modelled. *)
Record page := mkP {
  pg_gen : Z; pg_live : bool; pg_level : Z; pg_lo : option Z; pg_hi : option Z;
  pg_items : list (Z * Z); pg_first : link; pg_downs : list (Z * link); pg_right : option link }.

(** What is searched for: the leftmost page (BTreeKeyNone), the page for a key,
    the page that ends at a key (BTreeKeyPageHiKey), the rightmost page. *)
Inductive skey := KNone | KAt (k : Z) | KHi (k : Z) | KMax.

(** The loop condition of follow_rightlink (find.c:1163-1166). *)
Definition go_right (key : skey) (hi : option Z) : bool :=
  match hi with
  | None => false
  | Some h => match key with KNone => false | KAt k => h <=? k | KHi k => h <? k | KMax => true end
  end.
(** Whether a downlink with this key is at or left of what is searched for
    (btree_page_search on inner pages followed by one step back). *)
Definition at_left (key : skey) (lo : option Z) : bool :=
  match lo with
  | None => true
  | Some l => match key with KNone => false | KAt k => l <=? k | KHi k => l <? k | KMax => true end
  end.
(** page_find_downlink: the last downlink not right of the key. *)
Fixpoint pick (key : skey) (cur : option Z * link) (ds : list (Z * link)) : option Z * link :=
  match ds with
  | [] => cur
  | (k, l) :: r => if at_left key (Some k) then pick key (Some k, l) r else cur
  end.

Fixpoint lookup (l : list (Z * Z)) (k : Z) : option Z :=
  match l with [] => None | (k', v) :: r => if k' =? k then Some v else lookup r k end.
Fixpoint put (l : list (Z * Z)) (k v : Z) : list (Z * Z) :=
  match l with
  | [] => [(k, v)]
  | (k', v') :: r => if k <? k' then (k, v) :: l else if k =? k' then (k, v) :: r else (k', v') :: put r k v
  end.
Definition del (l : list (Z * Z)) (k : Z) : list (Z * Z) := filter (fun e => negb (fst e =? k)) l.
Fixpoint put_down (l : list (Z * link)) (k : Z) (c : link) : list (Z * link) :=
  match l with
  | [] => [(k, c)]
  | (k', c') :: r => if k <? k' then (k, c) :: l else (k', c') :: put_down r k c
  end.

(** What happened, newest first.  A scan is recorded when it begins and when
    it ends, with its direction, its start, its end (key and whether included),
    the rows it returned in order, and whether one of two hazards of backward
    scans occurred (see [x_haz]). *)
Inductive ev :=
| EPut (k v : Z) | EDel (k : Z) | EFind (k : Z) (r : option Z)
| EBegin (s : Z) | EEnd (s : Z) (fwd : bool) (from : option Z) (til : option (Z * bool)) (out : list (Z * Z)) (haz : bool).

Inductive goal := GFind (k : Z) | GPut (k v : Z) | GDel (k : Z) | GScan.
Inductive phase := PIdle | PDesc | PNext.

(** A session (OBTreeFindPageContext, BTreeIterator): what it searches, the
    page to read next, the path to it (context->items), the image of the parent
    and the key of the downlink taken there, and for scans the direction,
    bounds, rows returned, whether the snapshot is a commit number (otherwise
    it is COMMITSEQNO_INPROGRESS).  [x_lk] is context->lokey if LOKEY_EXISTS,
    [x_sib] is LOKEY_SIBLING; context->leafLokey is the key of the downlink
    taken in the parent, [x_pkey].  [x_haz] is a ghost: the search went up again
    after it had noted a low key, or a scan with a commit number landed on a
    page that does not end at the low key it came from. *)
Record sess := mkX {
  x_ph : phase; x_goal : goal; x_key : skey; x_cur : link; x_stk : list link;
  x_pfst : link; x_pimg : list (Z * link); x_pkey : option Z;
  x_lk : option Z; x_sib : bool; x_haz : bool;
  x_fwd : bool; x_from : option Z; x_til : option (Z * bool); x_norm : bool; x_out : list (Z * Z) }.

Record tree := mkT { t_pg : Z -> page; t_rt : Z; t_ss : Z -> sess; t_log : list ev }.

Definition dead : page := mkP 0 false 0 None None [] (0, 0) [] None.
Definition idle : sess := mkX PIdle GScan KNone (0, 0) [] (0, 0) [] None None false false true None None false [].
(** A new tree: an empty leaf as the root. *)
Definition init : tree :=
  mkT (upd (fun _ => dead) 0 (mkP 0 true 0 None None [] (0, 0) [] None)) 0 (fun _ => idle) [].

Inductive op :=
| OFind (s k : Z) | OPut (s k v : Z) | ODel (s k : Z)
| OScan (s : Z) (fwd : bool) (from : option Z) (til : option (Z * bool)) (norm : bool)
| OStep (s : Z)
| OSplit (b c m : Z)        (* split b at key m, right half into c *)
| ODown (par b : Z)         (* insert the downlink of b's right half into par *)
| OClear (par b : Z)        (* mark the split of b finished *)
| ORoot (l c m : Z)         (* split the root at key m into l and c *)
| OMerge (par l r : Z).     (* merge r into l *)

Definition root_link (t : tree) : link := (t_rt t, pg_gen (t_pg t (t_rt t))).

(** find_page begins at the root and forgets the low keys (find.c:549-574). *)
Definition descend (t : tree) (x : sess) (key : skey) : sess :=
  mkX PDesc (x_goal x) key (root_link t) [] (x_pfst x) [] None None false (x_haz x)
      (x_fwd x) (x_from x) (x_til x) (x_norm x) (x_out x).

Definition start_key (fwd : bool) (from : option Z) : skey :=
  match from with Some k => KAt k | None => if fwd then KNone else KMax end.

Definition begin_op (t : tree) (s : Z) (g : goal) (key : skey) : sess :=
  mkX PDesc g key (root_link t) [] (0, 0) [] None None false false true None None false [].
Definition begin_scan (t : tree) (fwd : bool) (from : option Z) (til : option (Z * bool)) (norm : bool) : sess :=
  mkX PDesc GScan (start_key fwd from) (root_link t) [] (0, 0) [] None None false false fwd from til norm [].

(** step_upward_level: back to the page above; the noted low key stays. *)
Definition upward (t : tree) (x : sess) : sess :=
  let haz := x_haz x || (negb (x_fwd x) && (x_sib x || match x_lk x with Some _ => true | None => false end)) in
  let '(cur, stk) := match x_stk x with [] => (root_link t, []) | e :: r => (e, r) end in
  mkX PDesc (x_goal x) (x_key x) cur stk (x_pfst x) (x_pimg x) (x_pkey x) (x_lk x) (x_sib x) haz
      (x_fwd x) (x_from x) (x_til x) (x_norm x) (x_out x).

(** follow_rightlink, one page: remember the hikey as low key. *)
Definition rightward (x : sess) (p : page) (r : link) : sess :=
  mkX PDesc (x_goal x) (x_key x) r (x_stk x) (x_pfst x) (x_pimg x) (x_pkey x)
      (pg_hi p) (pg_level p =? 0) (x_haz x)
      (x_fwd x) (x_from x) (x_til x) (x_norm x) (x_out x).

(** Step down through the downlink found; its key becomes the low key, kept
    apart (leafLokey) in the parent of a leaf (find.c:963-993). *)
Definition downward (x : sess) (p : page) : sess :=
  let '(k, c) := pick (x_key x) (None, pg_first p) (pg_downs p) in
  let above := negb (pg_level p =? 1) in
  mkX PDesc (x_goal x) (x_key x) c (x_cur x :: x_stk x) (pg_first p) (pg_downs p) k
      (if above then match k with Some _ => k | None => x_lk x end else x_lk x)
      (if above then match k with Some _ => false | None => x_sib x end else x_sib x)
      (x_haz x) (x_fwd x) (x_from x) (x_til x) (x_norm x) (x_out x).

(** btree_find_context_lokey. *)
Definition ctx_lokey (x : sess) : option Z :=
  if x_sib x then x_lk x else match x_pkey x with Some k => Some k | None => x_lk x end.

(** The bound of the scan. *)
Definition before_til (fwd : bool) (til : option (Z * bool)) (k : Z) : bool :=
  match til with
  | None => true
  | Some (e, incl) => if fwd then (if incl then k <=? e else k <? e) else (if incl then e <=? k else e <? k)
  end.
(** page_contains_end, given the hikey (forward) or the low key (backward). *)
Definition contains_end (fwd : bool) (til : option (Z * bool)) (b : option Z) : bool :=
  match b with
  | None => true
  | Some h => match til with
              | None => false
              | Some (e, incl) => if fwd then (e <? h) || ((e =? h) && negb incl) else h <=? e
              end
  end.

Definition with_out (x : sess) (key : skey) (haz : bool) (out : list (Z * Z)) : sess :=
  mkX PNext (x_goal x) key (x_cur x) (x_stk x) (x_pfst x) (x_pimg x) (x_pkey x) (x_lk x) (x_sib x) haz
      (x_fwd x) (x_from x) (x_til x) (x_norm x) out.
Definition log_end (t : tree) (s : Z) (x : sess) (haz : bool) (out : list (Z * Z)) : tree :=
  mkT (t_pg t) (t_rt t) (upd (t_ss t) s idle)
      (EEnd s (x_fwd x) (x_from x) (x_til x) out haz :: t_log t).
Definition set_sess (t : tree) (s : Z) (x : sess) : tree := mkT (t_pg t) (t_rt t) (upd (t_ss t) s x) (t_log t).

(** A scan has the copy [p] of a leaf.  Forward: the rows not left of the key
    it came with; the next page is found with the hikey.  Backward: the first
    page gives the rows up to the start; a later page all its rows, except that
    without a commit number a page that does not end at the low key is cut there
    (find.c:1804-1829); the next page is found with the low key. *)
Definition load (t : tree) (s : Z) (x : sess) (p : page) : tree :=
  if x_fwd x then
    let got := filter (fun e => (match x_key x with KAt k => k <=? fst e | _ => true end)
                                && before_til true (x_til x) (fst e)) (pg_items p) in
    let out := x_out x ++ got in
    if contains_end true (x_til x) (pg_hi p) then log_end t s x (x_haz x) out
    else set_sess t s (with_out x (match pg_hi p with Some h => KAt h | None => KMax end) (x_haz x) out)
  else
    let cut := match x_key x with
               | KAt k => fun e : Z * Z => fst e <=? k
               | KHi k => fun e => match pg_hi p with
                                   | Some h => if (h =? k) || x_norm x then true else fst e <? k
                                   | None => if x_norm x then true else fst e <? k
                                   end
               | _ => fun _ => true
               end in
    let haz := x_haz x || match x_key x with
                          | KHi k => x_norm x && negb (match pg_hi p with Some h => h =? k | None => false end)
                          | _ => false
                          end in
    let got := filter (fun e => cut e && before_til false (x_til x) (fst e)) (pg_items p) in
    let out := x_out x ++ rev got in
    let lokey := match pg_lo p with None => None | Some _ => ctx_lokey x end in
    if contains_end false (x_til x) lokey then log_end t s x haz out
    else set_sess t s (with_out x (match lokey with Some k => KHi k | None => KNone end) haz out).

(** The target leaf is found: look up, or (under the page lock) modify, or
    take a copy for the scan. *)
Definition arrive (t : tree) (s : Z) (x : sess) (b : Z) : tree :=
  let p := t_pg t b in
  let set_items l := upd (t_pg t) b (mkP (pg_gen p) (pg_live p) (pg_level p) (pg_lo p) (pg_hi p) l
                                         (pg_first p) (pg_downs p) (pg_right p)) in
  match x_goal x with
  | GFind k => mkT (t_pg t) (t_rt t) (upd (t_ss t) s idle) (EFind k (lookup (pg_items p) k) :: t_log t)
  | GPut k v => mkT (set_items (put (pg_items p) k v)) (t_rt t) (upd (t_ss t) s idle) (EPut k v :: t_log t)
  | GDel k => mkT (set_items (del (pg_items p) k)) (t_rt t) (upd (t_ss t) s idle) (EDel k :: t_log t)
  | GScan => load t s x p
  end.

(** One turn of the loop of find_page. *)
Definition read_page (t : tree) (s : Z) (x : sess) : tree :=
  let '(b, g) := x_cur x in
  let p := t_pg t b in
  if negb (pg_gen p =? g) then set_sess t s (upward t x)
  else if go_right (x_key x) (pg_hi p) then
    match pg_right p with
    | Some r => set_sess t s (rightward x p r)
    | None => set_sess t s (upward t x)
    end
  else if pg_level p =? 0 then arrive t s x b
  else set_sess t s (downward x p).

(** The downlink after, or before, the one taken in the parent's image. *)
Definition next_down (x : sess) : option (Z * link) :=
  find (fun e => match x_pkey x with None => true | Some k => k <? fst e end) (x_pimg x).
Fixpoint prev_of (k : Z) (cur : option Z * link) (ds : list (Z * link)) : option Z * link :=
  match ds with
  | [] => cur
  | (k', l) :: r => if k' <? k then prev_of k (Some k', l) r else cur
  end.

(** find_right_page and find_left_page: try the sibling downlink of the parent's
    image, otherwise search from the root with the hikey or the low key.  The
    image is only used in the search that made it ([x_stk] not empty). *)
Definition next_page (t : tree) (s : Z) (x : sess) : tree :=
  let fallback := set_sess t s (descend t x (x_key x)) in
  match x_stk x with
  | [] => fallback
  | _ =>
    if x_fwd x then
      match next_down x, x_key x with
      | Some (k, (b, g)), KAt h =>
          let p := t_pg t b in
          if (k =? h) && (pg_gen p =? g) && (pg_level p =? 0) then
            load t s (mkX PDesc (x_goal x) (x_key x) (b, g) (x_stk x) (x_pfst x) (x_pimg x) (Some k)
                          (x_lk x) (x_sib x) (x_haz x) true (x_from x) (x_til x) (x_norm x) (x_out x)) p
          else fallback
      | _, _ => fallback
      end
    else
      match x_sib x, x_pkey x, x_key x with
      | false, Some pk, KHi l =>
          let '(k, (b, g)) := prev_of pk (None, x_pfst x) (x_pimg x) in
          let p := t_pg t b in
          if (pg_gen p =? g) && (pg_level p =? 0) && (match pg_hi p with Some h => h =? l | None => false end) then
            load t s (mkX PDesc (x_goal x) (x_key x) (b, g) (x_stk x) (x_pfst x) (x_pimg x) k
                          (x_lk x) false (x_haz x) false (x_from x) (x_til x) (x_norm x) (x_out x)) p
          else fallback
      | _, _, _ => fallback
      end
  end.

Definition has_down (l : list (Z * link)) (m : Z) : option link :=
  match find (fun e => fst e =? m) l with Some e => Some (snd e) | None => None end.

(** perform_page_split: whether key [m] can be the first of the right half, and
    the two halves (left keeps the page, right is new).  The code inserts the
    new item in the same step; here the insertion comes before. *)
Definition can_split (p : page) (m : Z) : bool :=
  if pg_level p =? 0
  then existsb (fun e => fst e =? m) (pg_items p) && existsb (fun e => fst e <? m) (pg_items p)
  else match has_down (pg_downs p) m with Some _ => true | None => false end.
Definition left_half (p : page) (m : Z) (r : option link) : page :=
  mkP (pg_gen p) true (pg_level p) (pg_lo p) (Some m)
      (filter (fun e => fst e <? m) (pg_items p)) (pg_first p) (filter (fun e => fst e <? m) (pg_downs p)) r.
Definition right_half (p : page) (m g : Z) : page :=
  mkP g true (pg_level p) (Some m) (pg_hi p)
      (filter (fun e => negb (fst e <? m)) (pg_items p))
      (match has_down (pg_downs p) m with Some c => c | None => (0, 0) end)
      (filter (fun e => m <? fst e) (pg_downs p)) (pg_right p).

Definition set_pg (t : tree) (pg : Z -> page) : tree := mkT pg (t_rt t) (t_ss t) (t_log t).

Definition split (t : tree) (b c m : Z) : tree :=
  let p := t_pg t b in let q := t_pg t c in
  if pg_live p && negb (pg_live q) && negb (b =? t_rt t) && can_split p m then
    set_pg t (upd (upd (t_pg t) b (left_half p m (Some (c, pg_gen q)))) c (right_half p m (pg_gen q)))
  else t.

Definition covers (key : skey) (p : page) : bool := at_left key (pg_lo p) && negb (go_right key (pg_hi p)).

(** Whether a page above already has a downlink for the split key. *)
Definition knows (p : page) (m : Z) : bool :=
  match has_down (pg_downs p) m with Some _ => true | None => false end
  || match pg_lo p with Some l => l =? m | None => false end.

(** Insert the downlink of the right half into the page above that covers the
    split key; the rightlink is still set.  The process that split the page (or
    the one that repairs it) does this once. *)
Definition down (t : tree) (par b : Z) : tree :=
  let p := t_pg t par in let q := t_pg t b in
  match pg_right q, pg_hi q with
  | Some c, Some m =>
      if pg_live p && pg_live q && (pg_level p =? pg_level q + 1) && covers (KAt m) p
         && negb (knows p m)
      then set_pg t (upd (t_pg t) par (mkP (pg_gen p) true (pg_level p) (pg_lo p) (pg_hi p) (pg_items p)
                                           (pg_first p) (put_down (pg_downs p) m c) (pg_right p)))
      else t
  | _, _ => t
  end.
(** btree_split_mark_finished: the rightlink goes when the downlink is there. *)
Definition clear (t : tree) (par b : Z) : tree :=
  let p := t_pg t par in let q := t_pg t b in
  match pg_right q, pg_hi q with
  | Some c, Some m =>
      if pg_live p && pg_live q && (pg_level p =? pg_level q + 1)
         && match has_down (pg_downs p) m with Some c' => (fst c' =? fst c) && (snd c' =? snd c) | None => false end
      then set_pg t (upd (t_pg t) b (mkP (pg_gen q) true (pg_level q) (pg_lo q) (pg_hi q) (pg_items q)
                                         (pg_first q) (pg_downs q) None))
      else t
  | _, _ => t
  end.

(** The root keeps its block: both halves move to new pages. *)
Definition root_split (t : tree) (l c m : Z) : tree :=
  let p := t_pg t (t_rt t) in let pl := t_pg t l in let pc := t_pg t c in
  if negb (pg_live pl) && negb (pg_live pc) && negb (l =? c) && can_split p m then
    let lh := left_half p m None in
    set_pg t (upd (upd (upd (t_pg t) l (mkP (pg_gen pl) true (pg_level lh) (pg_lo lh) (pg_hi lh) (pg_items lh)
                                            (pg_first lh) (pg_downs lh) None))
                       c (right_half p m (pg_gen pc)))
                  (t_rt t) (mkP (pg_gen p) true (pg_level p + 1) None None [] (l, pg_gen pl) [(m, (c, pg_gen pc))] None))
  else t.

(** btree_try_merge_pages: two neighbouring downlinks of one parent, no split
    in progress on either; the right page is freed and its change count grows. *)
Definition adjacent (p : page) (l r : Z) : option Z :=
  (fix go (cur : link) (ds : list (Z * link)) : option Z :=
     match ds with
     | [] => None
     | (k, c) :: rest => if (fst cur =? l) && (fst c =? r) then Some k else go c rest
     end) (pg_first p) (pg_downs p).
Definition merge_page (p q : page) : page :=
  mkP (pg_gen p) true (pg_level p) (pg_lo p) (pg_hi q)
      (pg_items p ++ pg_items q) (pg_first p)
      (if pg_level p =? 0 then [] else
         pg_downs p ++ (match pg_hi p with Some h => h | None => 0 end, pg_first q) :: pg_downs q) None.
Definition merge (t : tree) (par l r : Z) : tree :=
  let p := t_pg t par in let a := t_pg t l in let b := t_pg t r in
  if pg_live p && (0 <? pg_level p) then
    match adjacent p l r, pg_right a, pg_right b with
    | Some k, None, None =>
        set_pg t (upd (upd (upd (t_pg t) par (mkP (pg_gen p) true (pg_level p) (pg_lo p) (pg_hi p) (pg_items p) (pg_first p)
                                                  (filter (fun e => negb (fst e =? k)) (pg_downs p)) (pg_right p)))
                           l (merge_page a b))
                      r (mkP (pg_gen b + 1) false 0 None None [] (0, 0) [] None))
    | _, _, _ => t
    end
  else t.

Definition idle_b (t : tree) (s : Z) : bool := match x_ph (t_ss t s) with PIdle => true | _ => false end.

Definition step (t : tree) (o : op) : tree :=
  match o with
  | OFind s k => if idle_b t s then set_sess t s (begin_op t s (GFind k) (KAt k)) else t
  | OPut s k v => if idle_b t s then set_sess t s (begin_op t s (GPut k v) (KAt k)) else t
  | ODel s k => if idle_b t s then set_sess t s (begin_op t s (GDel k) (KAt k)) else t
  | OScan s fwd from til norm =>
      if idle_b t s then mkT (t_pg t) (t_rt t) (upd (t_ss t) s (begin_scan t fwd from til norm)) (EBegin s :: t_log t) else t
  | OStep s => match x_ph (t_ss t s) with
               | PIdle => t
               | PDesc => read_page t s (t_ss t s)
               | PNext => next_page t s (t_ss t s)
               end
  | OSplit b c m => split t b c m
  | ODown par b => down t par b
  | OClear par b => clear t par b
  | ORoot l c m => root_split t l c m
  | OMerge par l r => merge t par l r
  end.
