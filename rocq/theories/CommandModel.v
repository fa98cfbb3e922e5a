(** Which command of the transaction wrote a row version.

    Models src/transam/undo.c:374-377 and 3566-3668 (commandInfos, commandIndex,
    undo_location_get_command, current_command_get_undo_location,
    update_command_undo_location, o_set_current_command), the callers that tag
    row versions: src/btree/undo.c:433-438 (make_undo_record),
    src/btree/insert.c:1171-1182 and src/btree/modify.c:815-823,877-894
    (insert tags), src/btree/page_state.c:617-623 (insert performed by the page
    lock holder on our behalf), and the test at src/btree/iterator.c:784-802.

    Simplifications: the array is a list (its doubling at 3643-3658 is not
    modelled); one backend's own transaction; locations are unbounded integers
    (64 bits in the code); parallel workers (which return 0) are not modelled. *)
From Coq Require Import ZArith List Bool.
From Verif Require Import Base.
Import ListNotations.
Open Scope Z_scope.

(** One element of commandInfos: (cid, undoLocation). *)
Definition cinfo := (Z * Z)%type.

Record cst := mkCst {
  c_infos : list cinfo;      (* commandInfos[0..commandIndex], index 0 first *)
  c_cur : Z;                 (* currentCommandId *)
  c_last : Z;                (* lastUsedLocation of the regular undo log *)
  c_ver : list (Z * Z)       (* ghost: (tag location, command that wrote it), newest first *)
}.
Definition cinit (last : Z) : cst := mkCst [] 0 last [].

(** InvalidCommandId (PostgreSQL c.h). *)
Definition invalid_cid : Z := 4294967295.

(** update_command_undo_location, undo.c:3637-3662. *)
Definition last_cid (infos : list cinfo) : option Z :=
  match rev infos with [] => None | (c, _) :: _ => Some c end.
Definition update_cmd (infos : list cinfo) (cid loc : Z) : list cinfo :=
  match last_cid infos with
  | None => infos ++ [(cid, loc)]
  | Some c => if c =? cid then infos else infos ++ [(cid, loc)]
  end.

(** The loop of undo_location_get_command, 3597-3605; [fuel] is at least hi - lo. *)
Fixpoint cmd_search (fuel : nat) (infos : list cinfo) (lo hi : nat) (loc : Z) : nat :=
  match fuel with
  | O => lo
  | S f =>
      if Nat.ltb lo hi then
        let mid := (lo + (hi - lo) / 2)%nat in
        if snd (nth mid infos (0, 0)) <=? loc
        then cmd_search f infos (S mid) hi loc
        else cmd_search f infos lo mid loc
      else lo
  end.

(** undo_location_get_command, 3583-3610; None is the failed assertion lo >= 0. *)
Definition get_command (infos : list cinfo) (loc : Z) : option Z :=
  match cmd_search (length infos) infos 0 (length infos) loc with
  | O => None
  | S k => Some (fst (nth k infos (0, 0)))
  end.

Inductive cop :=
| CSet (cid : Z)            (* o_set_current_command before each statement's row operation *)
| COther (size : Z)         (* any other allocation: other backends, page-level records *)
| CUpdate (size off : Z)    (* modify.c:853-866: record allocated, version tagged inside it *)
| CInsert (size off : Z)    (* modify.c:874-887: record allocated, version tagged by command *)
| CInsertNoUndo (size : Z)  (* modify.c:815-823: no record; version tagged by command *)
| CGroupInsert (size : Z).  (* the page holder allocated our record *)

(** current_command_get_undo_location, 3612-3629: result infos, location, new last. *)
Definition cur_cmd_location (s : cst) (size : Z) : list cinfo * Z * Z :=
  match last_cid (c_infos s) with
  | Some c =>
      if c =? c_cur s then (c_infos s, snd (last (c_infos s) (0, 0)), c_last s)
      else (update_cmd (c_infos s) (c_cur s) (c_last s), c_last s, c_last s + size)
  | None => (update_cmd (c_infos s) (c_cur s) (c_last s), c_last s, c_last s + size)
  end.

(** make_undo_record tail, src/btree/undo.c:427-440: the record starts at
    c_last, the tag is [off] bytes inside it. *)
Definition make_record (s : cst) (size off : Z) : cst * Z :=
  let loc := c_last s + off in
  (mkCst (if c_cur s =? invalid_cid then c_infos s else update_cmd (c_infos s) (c_cur s) loc)
         (c_cur s) (c_last s + size) (c_ver s), loc).

Definition cstep (s : cst) (o : cop) : cst :=
  match o with
  | CSet cid => mkCst (c_infos s) cid (c_last s) (c_ver s)
  | COther size => if 0 <? size then mkCst (c_infos s) (c_cur s) (c_last s + size) (c_ver s) else s
  | CUpdate size off =>
      if (0 <=? off) && (off <? size) then
        let '(s1, loc) := make_record s size off in
        mkCst (c_infos s1) (c_cur s1) (c_last s1) ((loc, c_cur s) :: c_ver s1)
      else s
  | CInsert size off =>
      if (0 <=? off) && (off <? size) then
        let '(s1, _) := make_record s size off in
        let '(infos, loc, l) := cur_cmd_location s1 size in
        mkCst infos (c_cur s1) l ((loc, c_cur s) :: c_ver s1)
      else s
  | CInsertNoUndo size =>
      if 0 <? size then
        let '(infos, loc, l) := cur_cmd_location s size in
        mkCst infos (c_cur s) l ((loc, c_cur s) :: c_ver s)
      else s
  | CGroupInsert size =>
      if 0 <? size then
        mkCst (update_cmd (c_infos s) (c_cur s) (c_last s)) (c_cur s) (c_last s + size)
              ((c_last s, c_cur s) :: c_ver s)
      else s
  end.

(** iterator.c:798-801: does a statement with command id [cid] see the version of
    its own transaction tagged [loc]? *)
Definition sees_own (infos : list cinfo) (cid loc : Z) : bool :=
  match get_command infos loc with Some c => c <? cid | None => false end.
