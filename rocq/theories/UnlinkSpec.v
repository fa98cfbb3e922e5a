(** What cleanup may and must discard (property C15). *)
From Coq Require Import ZArith List Bool.
From Verif Require Import Base UnlinkModel.
Open Scope Z_scope.

(** Item [i] must be kept. *)
Definition retained (ckstart ckend trx i : Z) : Prop := (ckstart <= i < ckend) \/ trx <= i.

(** Item [i] lives in block [b] when a block holds [ipb] items. *)
Definition in_block (ipb i b : Z) : Prop := b * ipb <= i < (b + 1) * ipb.

(** Block [b] is untouched by going from [s] to [s']. *)
Definition kept (s s' : fs) (b : Z) : Prop := f_disk s' b = f_disk s b /\ f_dirty s' b = f_dirty s b.

(** Block [b] is gone. *)
Definition gone (s : fs) (b : Z) : Prop := f_disk s b = false /\ f_dirty s b = false.
