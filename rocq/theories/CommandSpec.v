(** Which command wrote each row version, read off the program alone (property C16).
    Independent of undo locations. *)
From Coq Require Import ZArith List Bool.
From Verif Require Import Base CommandModel.
Import ListNotations.
Open Scope Z_scope.

(** Command ids of the versions written by a program, oldest first; [cur] is the
    command in force at its start. *)
Fixpoint writers (cur : Z) (ops : list cop) : list Z :=
  match ops with
  | [] => []
  | CSet c :: r => writers c r
  | COther _ :: r => writers cur r
  | (CUpdate size off | CInsert size off) :: r =>
      if (0 <=? off) && (off <? size) then cur :: writers cur r else writers cur r
  | (CInsertNoUndo size | CGroupInsert size) :: r =>
      if 0 <? size then cur :: writers cur r else writers cur r
  end.
