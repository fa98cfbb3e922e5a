(* What a well-formed page is and what a search of it must find. *)
From Coq Require Import ZArith List Bool.
From Verif Require Import Base PageSearchModel.
Open Scope Z_scope.

(* The page's chunks cover its items in order.  A page without children or a
   leaf may be empty; an inner page has a first child in its first chunk. *)
Record layout {K} (p : page K) : Prop := {
  l_cc : 1 <= chunksCount p;
  l_first : offset p 0 = 0;
  l_mono : forall c, 0 <= c -> c + 1 < chunksCount p -> offset p c <= offset p (c + 1);
  l_end : offset p (chunksCount p - 1) <= itemsCount p;
  l_inner : leaf p = false -> 0 < itemsCount p /\ (1 < chunksCount p -> 0 < offset p 1) }.

(* The keys of the page are in order; the first item of an inner page has no
   key (it stands for minus infinity). *)
Record sorted {K} (lt : K -> K -> Prop) (p : page K) : Prop := {
  s_items : forall i j, (if leaf p then 0 else 1) <= i -> i < j -> j < itemsCount p -> lt (item p i) (item p j);
  s_hikey_above : forall c i, 0 <= c -> c + 1 < chunksCount p ->
     (if leaf p then 0 else 1) <= i -> i < offset p (c + 1) -> lt (item p i) (hikey p c);
  s_hikey_below : forall c i, 0 <= c -> c + 1 < chunksCount p ->
     offset p (c + 1) <= i -> i < itemsCount p -> hikey p c = item p i \/ lt (hikey p c) (item p i);
  s_hikeys : forall c d, 0 <= c -> c < d -> d + 1 < chunksCount p -> hikey p c = hikey p d \/ lt (hikey p c) (hikey p d) }.

(* cmp, the comparison of the search key with a key, agrees with the order:
   if the search key is not below b, it is above everything before b. *)
Definition agrees {K} (lt : K -> K -> Prop) (cmp : K -> Z) : Prop :=
  forall a b, lt a b -> cmp b >= 0 -> cmp a > 0.

(* pos is the first position whose item is not below the search key. *)
Definition first_not_below {K} (p : page K) (cmp : K -> Z) (pos : Z) : Prop :=
  0 <= pos <= itemsCount p /\
  (forall i, 0 <= i < pos -> cmp (item p i) > 0) /\
  (forall i, pos <= i < itemsCount p -> cmp (item p i) <= 0).

(* pos is the last child whose key satisfies ok; the first child has no key. *)
Definition last_child {K} (p : page K) (ok : K -> Prop) (pos : Z) : Prop :=
  0 <= pos < itemsCount p /\
  (pos = 0 \/ ok (item p pos)) /\
  (forall i, pos < i < itemsCount p -> ~ ok (item p i)).

(* The locator designates an existing item of the page, the pos-th. *)
Definition designates {K} (p : page K) (l : locator) (pos : Z) : Prop :=
  l_valid l = true /\ 0 <= l_chunk l < chunksCount p /\ 0 <= l_item l < l_count l /\
  l_count l = (if l_chunk l + 1 <? chunksCount p then offset p (l_chunk l + 1) else itemsCount p) - offset p (l_chunk l) /\
  offset p (l_chunk l) + l_item l = pos.
