(** Shared helpers: functional maps over Z, runs of a step function, and
    a few list facts.  Nothing here models code. *)
From Coq Require Import ZArith List Bool Lia.
From Coq Require Import ZifyBool ZifyNat ZifyN.
Import ListNotations.
Open Scope Z_scope.

(** Functional map update on Z keys. *)
Definition upd {A : Type} (f : Z -> A) (k : Z) (v : A) : Z -> A :=
  fun x => if x =? k then v else f x.

Lemma upd_same : forall A (f : Z -> A) k v, upd f k v k = v.
Proof. intros A f k v. unfold upd. rewrite Z.eqb_refl. reflexivity. Qed.

Lemma upd_other : forall A (f : Z -> A) k v x, x <> k -> upd f k v x = f x.
Proof.
  intros A f k v x Hx. unfold upd.
  destruct (Z.eqb_spec x k) as [E|E]; [contradiction|reflexivity].
Qed.

(** Running a list of operations. *)
Definition run {S O : Type} (step : S -> O -> S) (s : S) (ops : list O) : S :=
  fold_left step ops s.

Lemma run_app : forall S O (step : S -> O -> S) s a b,
  run step s (a ++ b) = run step (run step s a) b.
Proof. intros. unfold run. apply fold_left_app. Qed.

Lemma run_inv : forall S O (step : S -> O -> S) (I : S -> Prop),
  (forall s o, I s -> I (step s o)) ->
  forall ops s, I s -> I (run step s ops).
Proof.
  intros S O step I Hstep ops.
  induction ops as [|o ops IH]; intros s Hs.
  - exact Hs.
  - apply (IH (step s o)). apply Hstep. exact Hs.
Qed.

(** Relational variant: an invariant over a reachability closure. *)
Inductive reach {S : Type} (R : S -> S -> Prop) (s0 : S) : S -> Prop :=
| reach_refl : reach R s0 s0
| reach_step : forall s s', reach R s0 s -> R s s' -> reach R s0 s'.

Lemma reach_inv : forall S (R : S -> S -> Prop) (I : S -> Prop) s0,
  I s0 -> (forall s s', I s -> R s s' -> I s') ->
  forall s, reach R s0 s -> I s.
Proof. intros S R I s0 H0 Hs s Hr. induction Hr; eauto. Qed.

Ltac inv H := inversion H; subst; clear H.
