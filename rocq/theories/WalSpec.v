(** What C33 says, in terms of records, bytes and calls. *)
From Coq Require Import ZArith List Bool Lia.
From Verif Require Import Base WalModel.
Import ListNotations.
Open Scope Z_scope.

(** A record whose fields fit the C types it is stored in. *)
Definition wf_rec (r : wrec) : bool :=
  match r with
  | RXid a b c => rangeb 8 a && rangeb 4 b && rangeb 4 c
  | RFinish _ a b => rangeb 8 a && rangeb 8 b
  | RRel ty d r n x cs ci v b sp =>
      rangeb 1 ty && rangeb 4 d && rangeb 4 r && rangeb 4 n && rangeb 8 x && rangeb 8 cs
      && rangeb 4 ci && rangeb 4 v && rangeb 4 b && rangeb 4 sp
  | RMod1 t ff d =>
      ((t =? 5) || (t =? 6) || (t =? 7)) && rangeb 1 ff
      && (Z.of_nat (length d) <? 65536)
  | RMod2 t f1 f2 d1 d2 =>
      ((t =? 6) || (t =? 15)) && rangeb 1 f1 && rangeb 1 f2
      && (Z.of_nat (length d1) <? 65536) && (Z.of_nat (length d2) <? 65536)
  | RLock | RFeedback => true
  | RUnlock a b c d => rangeb 4 a && rangeb 4 b && rangeb 4 c && rangeb 4 d
  | RSave a b c | RTrunc a b c | RDbCopy a b c => rangeb 4 a && rangeb 4 b && rangeb 4 c
  | RRbSp a b c => rangeb 4 a && rangeb 8 b && rangeb 8 c
  | RJoint a b c _ => rangeb 4 a && rangeb 8 b && rangeb 8 c
  | RBridge ip => Nat.eqb (length ip) 6
  | RSwitch a b => rangeb 4 a && rangeb 4 b
  | RRri c i => rangeb 1 c && rangeb 4 i
  | RDbCreate t a b => ((t =? 20) || (t =? 21)) && rangeb 4 a && rangeb 4 b
  | RCic t a b c d e f =>
      ((t =? 22) || (t =? 23) || (t =? 24)) && rangeb 4 a && rangeb 4 b && rangeb 4 c
      && rangeb 4 d && rangeb 4 e && rangeb 4 f
  end.

(** The agreement between writer and reader about replica identity: an
    update carries the old row exactly when the last relation record was
    followed by REPLICA IDENTITY FULL; [rr] is the identity before the
    first record. *)
Fixpoint announced (rr : Z) (rs : list wrec) : Prop :=
  match rs with
  | [] => True
  | r :: rs' =>
      match r with
      | RMod1 6 _ _ => rr <> rr_full
      | RMod2 6 _ _ _ _ => rr = rr_full
      | _ => True
      end /\
      announced (match r with
                 | RRel _ _ _ _ _ _ _ _ _ _ => rr_default
                 | RRri c _ => c
                 | _ => rr
                 end) rs'
  end.

Definition wf_hdr (h : hdr) : bool :=
  match h_xact h with Some (t, x) => rangeb 8 t && rangeb 4 x | None => true end
  && match h_origin h with Some (i, l) => rangeb 2 i && rangeb 8 l | None => true end.

(** The bytes of a container holding exactly these records. *)
Definition container (h : hdr) (rs : list wrec) : list Z :=
  enc_container h (flat_map enc_rec rs).

(** [l1] is [l2] with some elements left out. *)
Inductive subseq {A : Type} : list A -> list A -> Prop :=
| sub_nil : forall l, subseq [] l
| sub_keep : forall x l1 l2, subseq l1 l2 -> subseq (x :: l1) (x :: l2)
| sub_drop : forall x l1 l2, subseq l1 l2 -> subseq l1 (x :: l2).

(** The event a call asks to be replayed when the session's transaction
    is [cur]. *)
Definition asked (cur : option Z) (x : op) : list event :=
  match x with
  | OMod _ r rl rr _ _ _ => [mkEv cur (Some rl) rr r]
  | OBridge _ ip rl _ _ _ => [mkEv cur (Some rl) rr_default (RBridge ip)]
  | OPlain _ r | OCic _ r => [mkEv cur None rr_default r]
  | ORbSp e p => [mkEv cur None rr_default (RRbSp p (e_xmin e) (e_csn e))]
  | OFinish e c _ | OAutoEnd e c _ =>
      match cur with
      | Some _ => [mkEv cur None rr_default (RFinish c (e_xmin e) (e_csn e))]
      | None => []
      end
  | OJoint e x sub => [mkEv cur None rr_default (RJoint x (e_xmin e) (e_csn e) sub)]
  | _ => []
  end.

(** Everything the session asked for, call by call. *)
Fixpoint history (s : lw) (ops : list op) : list event :=
  match ops with
  | [] => []
  | x :: rest =>
      (if enabled s x then asked (w_cur s) x else []) ++ history (step s x) rest
  end.

(** What replay delivers from the WAL, and would deliver from the buffer
    if it were written out now. *)
Definition logged (s : lw) : list event := replay (w_log s).
Definition pending (s : lw) : list event :=
  replay_container (enc_container (mkHdr None None) (w_buf s)).

Definition is_change (ev : event) : bool :=
  match ev_rec ev with RMod1 _ _ _ | RMod2 _ _ _ _ _ => true | _ => false end.

(** The hazard: a transaction with nothing to log ends while its XID
    record sits in the buffer; the buffer is emptied but the session
    still believes that the record is there (wal.c:240-246). *)
Definition hazard (s : lw) (x : op) : bool :=
  enabled s x
  && match x with
     | OFinish _ _ _ | OAutoEnd _ _ _ => has_cur s && negb (w_mat s) && w_cx s
     | _ => false
     end.

Fixpoint no_hazard (s : lw) (ops : list op) : Prop :=
  match ops with
  | [] => True
  | x :: rest => hazard s x = false /\ no_hazard (step s x) rest
  end.
