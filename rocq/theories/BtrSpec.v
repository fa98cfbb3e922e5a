(** Vocabulary for C19 and C20: the value of a key after a history, histories
    that agree with a map, and what a scan may return.  Nothing here refers to
    pages. *)
From Coq Require Import ZArith List Bool Lia.
From Verif Require Import Base BtrModel.
Import ListNotations.
Open Scope Z_scope.

(** The value the last write of [k] left; the newest event comes first. *)
Fixpoint value (log : list ev) (k : Z) : option Z :=
  match log with
  | [] => None
  | EPut k' v :: r => if k' =? k then Some v else value r k
  | EDel k' :: r => if k' =? k then None else value r k
  | _ :: r => value r k
  end.

(** Keys strictly growing. *)
Fixpoint asc (l : list Z) : Prop :=
  match l with [] => True | x :: r => (forall y, In y r -> x < y) /\ asc r end.

(** The keys a scan asks for. *)
Definition wanted (fwd : bool) (from : option Z) (til : option (Z * bool)) (k : Z) : Prop :=
  (match from with None => True | Some f => if fwd then f <= k else k <= f end) /\
  (match til with
   | None => True
   | Some (e, true) => if fwd then k <= e else e <= k
   | Some (e, false) => if fwd then k < e else e < k
   end).

(** The rows [out] are a correct answer of a scan that began after [before] and
    during which [during] happened: in order, only keys asked for, each key at
    most once, and for every key asked for the answer is the one right at some
    moment of the scan. *)
Definition answer (fwd : bool) (from : option Z) (til : option (Z * bool)) (out : list (Z * Z))
    (during before : list ev) : Prop :=
  asc (if fwd then map fst out else rev (map fst out)) /\
  (forall k v, In (k, v) out -> wanted fwd from til k) /\
  (forall k, wanted fwd from til k ->
     exists later earlier, during = later ++ earlier /\
       forall v, In (k, v) out <-> value (earlier ++ before) k = Some v).

(** ** The shape of the tree (for the balance and separator claims of C19) *)

(** [q] is [d] downlinks below [p]. *)
Inductive below (pg : Z -> page) : Z -> nat -> Z -> Prop :=
| below_here : forall p, below pg p O p
| below_first : forall p d q, 0 < pg_level (pg p) -> below pg (fst (pg_first (pg p))) d q -> below pg p (S d) q
| below_down : forall p d q k c, In (k, c) (pg_downs (pg p)) -> below pg (fst c) d q -> below pg p (S d) q.

(** A history in which nothing is written. *)
Definition quiet (log : list ev) : Prop := forall e, In e log -> match e with EPut _ _ | EDel _ => False | _ => True end.
