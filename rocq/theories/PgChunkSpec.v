(** C18: what the operations of a page mean. *)
From Coq Require Import ZArith List Bool.
From Verif Require Import Base PgChunkModel.
Import ListNotations.
Open Scope Z_scope.

(** An item or a key: a flag and its words.  A group of items with its high key.
    A page is a list of groups. *)
Definition item := (Z * list Z)%type.
Definition group := (list item * item)%type.

Definition bytes (x : item) : Z := 2 * Z.of_nat (length (snd x)).
Definition total (l : list item) : Z := fold_right (fun x s => bytes x + s) 0 l.
Definition count (l : list item) : Z := Z.of_nat (length l).

(** Two bytes for each item in the group's array, rounded up to eight; then the items. *)
Definition array (n : Z) : Z := (2 * n + 7) / 8 * 8.
Definition group_bytes (g : group) : Z := array (count (fst g)) + total (fst g).
Definition data_bytes (l : list group) : Z := fold_right (fun g s => group_bytes g + s) 0 l.
(** Four bytes for each group after 56 bytes of header, rounded up; then the keys. *)
Definition key_bytes (l : list group) : Z :=
  (56 + 4 * Z.of_nat (length l) + 7) / 8 * 8 + fold_right (fun g s => bytes (snd g) + s) 0 l.

Definition insert_nth {A} (i : nat) (x : A) (l : list A) := firstn i l ++ x :: skipn i l.
Definition remove_nth {A} (i : nat) (l : list A) := firstn i l ++ skipn (S i) l.
Definition replace_nth {A} (i : nat) (x : A) (l : list A) := firstn i l ++ x :: skipn (S i) l.

(** Apply a change to group [c]. *)
Definition at_group (c : nat) (f : group -> list group) (l : list group) : list group :=
  match skipn c l with
  | [] => l
  | g :: r => firstn c l ++ f g ++ r
  end.

(** Two neighbours become one, under the key of the second. *)
Definition join (c : nat) (l : list group) : list group :=
  match skipn c l with
  | (a, _) :: (b, k) :: r => firstn c l ++ (a ++ b, k) :: r
  | _ => l
  end.

(** An emptied group joins its left neighbour, or else its right one. *)
Definition tidy (c : nat) (l : list group) : list group :=
  match skipn c l with
  | ([], _) :: _ => match c with O => join 0 l | S c' => join c' l end
  | _ => l
  end.

(** The sizes of items and keys are multiples of eight bytes, not zero. *)
Definition even8 (ws : list Z) : bool := (length ws mod 4 =? 0)%nat && (1 <=? length ws)%nat.
Definition flag01 (f : Z) : bool := (f =? 0) || (f =? 1).

(** Is [i] a place in group [c] ([add] is 1 if behind the last item counts)? *)
Definition place (l : list group) (c i add : Z) : bool :=
  (0 <=? c) && (c <? Z.of_nat (length l)) && (0 <=? i) &&
  (i <? count (fst (nth (Z.to_nat c) l ([], (0, [])))) + add).

(** A page whose data area starts at [st], with [room] bytes for descriptors and
    keys.  An operation that does not fit leaves the page as it was.  Only the type
    of the operations comes from the model. *)
Definition gstep (st room : Z) (l : list group) (o : op) : list group :=
  match o with
  | Insert c i f ws =>
      let l' := at_group (Z.to_nat c) (fun g => [(insert_nth (Z.to_nat i) (f, ws) (fst g), snd g)]) l in
      if place l c i 1 && even8 ws && flag01 f && (st + data_bytes l' <=? 8192) then l' else l
  | Replace c i f ws =>
      let l' := at_group (Z.to_nat c) (fun g => [(replace_nth (Z.to_nat i) (f, ws) (fst g), snd g)]) l in
      if place l c i 0 && even8 ws && flag01 f && (st + data_bytes l' <=? 8192) then l' else l
  | Delete c i =>
      let l' := at_group (Z.to_nat c) (fun g => [(remove_nth (Z.to_nat i) (fst g), snd g)]) l in
      if place l c i 0 then tidy (Z.to_nat c) l' else l
  | Cut c i f ws =>
      let l' := at_group (Z.to_nat c)
        (fun g => [(firstn (Z.to_nat i) (fst g), (f, ws)); (skipn (Z.to_nat i) (fst g), snd g)]) l in
      if place l c i 0 && (1 <=? i) && even8 ws && flag01 f && (key_bytes l' <=? room) && (st + data_bytes l' <=? 8192)
      then l' else l
  end.

(** All items in order. *)
Definition items (l : list group) : list item := flat_map fst l.

(** On the rightmost page above the leaves the last four bytes stay free. *)
Definition key_room (lim : Z) (right : bool) : Z := if right && (lim =? 512) then 508 else lim.

(** A new page: its key, of eight bytes or more unless the page is rightmost. *)
Definition fresh_ok (lim : Z) (right : bool) (f : Z) (ws : list Z) : bool :=
  ((lim =? 256) || (lim =? 512)) && flag01 f && (length ws mod 4 =? 0)%nat &&
  (right || (1 <=? length ws)%nat) && (64 + 2 * Z.of_nat (length ws) <=? 8192).
Definition fresh_start (lim : Z) (ws : list Z) : Z := Z.max lim (64 + 2 * Z.of_nat (length ws)).
