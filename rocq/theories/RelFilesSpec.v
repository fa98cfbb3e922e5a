(** What a user expects of storage: transactions over a catalog of trees. *)
From Coq Require Import ZArith List Bool.
From Verif Require Import Base RelFilesModel.
Import ListNotations.
Open Scope Z_scope.

Record change := mkCh { c_old : list key; c_new : list key; c_fsync : bool }.
(* The catalog: the committed trees, the changes of every running transaction in
   levels (one per open savepoint, innermost first), every tree ever named, the
   trees that were dropped by commits during a backup, and the committed trees
   that are not temporary. *)
Record cat := mkCat {
  committed : list key;
  tx : Z -> list (list change);
  used : list key;
  postponed : list key;
  persistent : list key
}.
Definition cat0 : cat := mkCat [] (fun _ => [[]]) [] [] [].

Definition changes (c : cat) (t : Z) : list change := concat (tx c t).
Definition created (l : list change) : list key := flat_map c_new l.
Definition dropped (l : list change) : list key := flat_map c_old l.
Definition minus (a b : list key) : list key := filter (fun k => negb (kin k b)) a.

(* What callers may do: names of new trees are fresh, a tree is dropped only if
   the transaction sees it and no other running transaction drops it (relation
   locks); writes go to trees the transaction created. *)
Fixpoint distinct (l : list key) : bool := match l with [] => true | k :: r => negb (kin k r) && distinct r end.
Definition allowed (ts : list Z) (c : cat) (o : op) : bool :=
  match o with
  | OReplace t on old nn new fs =>
      existsb (Z.eqb t) ts &&
      forallb (fun k => (kin k (committed c) || kin k (created (changes c t))) && forallb (fun t' => negb (kin k (dropped (changes c t')))) ts) old &&
      forallb (fun k => negb (kin k (used c))) new && distinct new && distinct old &&
      (match old with [] => on =? 0 | _ => negb (on =? 0) end) && (match new with [] => true | _ => negb (nn =? 0) end)
  | OWrite t k => existsb (Z.eqb t) ts && kin k (created (changes c t))
  | OSavepoint t | OAbort t | OCommit t _ => existsb (Z.eqb t) ts
  | ORelease t | ORollbackTo t => existsb (Z.eqb t) ts && match tx c t with _ :: _ :: _ => true | _ => false end
  | _ => true
  end.

Definition set_tx (c : cat) t l := mkCat (committed c) (upd (tx c) t l) (used c) (postponed c) (persistent c).
Definition cgo (bk : bool) (c : cat) (o : op) : cat :=
  match o with
  | OReplace t _ old _ new fs =>
      let c1 := set_tx c t (match tx c t with l :: ls => (mkCh old new fs :: l) :: ls | [] => [[mkCh old new fs]] end) in
      mkCat (committed c1) (tx c1) (new ++ used c) (postponed c1) (persistent c1)
  | OSavepoint t => set_tx c t ([] :: tx c t)
  | ORelease t => set_tx c t (match tx c t with a :: b :: ls => (a ++ b) :: ls | l => l end)
  | ORollbackTo t => set_tx c t (tl (tx c t))
  | OAbort t => set_tx c t [[]]
  | OCommit t _ =>
      let l := changes c t in
      mkCat (minus (created l ++ committed c) (dropped l)) (upd (tx c) t [[]]) (used c)
        (if bk then dropped l ++ postponed c else postponed c)
        (minus (created (filter c_fsync l) ++ persistent c) (dropped l))
  | _ => c
  end.

(* The program beside the catalog; operations the callers never do are skipped. *)
Definition step (cap : nat) (ts : list Z) (sc : st * cat) (o : op) : st * cat :=
  if allowed ts (snd sc) o then (go cap (fst sc) o, cgo (backup (fst sc)) (snd sc) o) else sc.
Definition init : st * cat :=
  (mkSt (fun _ => Absent) (fun _ => []) (fun _ => []) (mkP [] 0) false false, cat0).

(* The tree is part of a transaction that still runs. *)
Definition live (ts : list Z) (c : cat) (k : key) : Prop := exists t, In t ts /\ In k (created (changes c t)).
