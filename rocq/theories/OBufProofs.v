(** Proofs about the block cache. *)
From Coq Require Import ZArith List Bool Lia.
From Coq Require Import ZifyBool ZifyNat.
From Verif Require Import Base OBufModel OBufSpec.
Import ListNotations.
Open Scope Z_scope.

Lemma key_eqb_spec : forall a b, key_eqb a b = true <-> a = b.
Proof.
  intros [a1 a2] [b1 b2]. unfold key_eqb. cbn. rewrite andb_true_iff, !Z.eqb_eq. split; [intros [-> ->]; reflexivity|].
  intros [= -> ->]. auto.
Qed.
Lemma key_eqb_refl : forall a, key_eqb a a = true.
Proof. intros. apply key_eqb_spec. reflexivity. Qed.
Lemma key_eqb_false : forall a b, key_eqb a b = false <-> a <> b.
Proof.
  intros a b. rewrite <- key_eqb_spec. destruct (key_eqb a b); split; intros; congruence.
Qed.
Lemma kupd_same : forall A (f : key -> A) k v, kupd f k v k = v.
Proof. intros. unfold kupd. rewrite key_eqb_refl. reflexivity. Qed.
Lemma kupd_other : forall A (f : key -> A) k v x, x <> k -> kupd f k v x = f x.
Proof. intros. unfold kupd. apply key_eqb_false in H. rewrite H. reflexivity. Qed.
Lemma upd_if : forall (A : Type) (f : Z -> A) p c q, upd f p c q = if q =? p then c else f q.
Proof. intros. unfold upd. destruct (q =? p); reflexivity. Qed.
Lemma in_without : forall p q l, In q (without p l) <-> In q l /\ q <> p.
Proof. intros. unfold without. rewrite filter_In. split; intros [H1 H2]; split; auto; lia. Qed.

(** ** Locks *)
Section Proofs.
Variables BS bpf G : Z.
Hypothesis HG : 0 < G.
Notation grp := (grp G).

Definition own_ex (c : pc) : option Z :=
  match c with Evict _ n _ _ | Load _ n | Have _ n true => Some n | _ => None end.
Definition own_sh (c : pc) : option Z :=
  match c with Have _ n false | FIO n _ _ _ _ | FClr n _ _ _ _ _ => Some n | _ => None end.
Definition gown_ex (c : pc) : option Z :=
  match c with Search o _ _ _ | WaitX o _ | Victim o _ => Some (grp (o_key o)) | _ => None end.
Definition gown_sh (c : pc) : option Z :=
  match c with WaitS o _ => Some (grp (o_key o)) | D2 k _ _ => Some (grp k) | _ => None end.

Record LInv (s : st) : Prop := mkL {
  l_ex : forall p n, own_ex (pcs s p) = Some n <-> s_ex (slots s n) = Some p;
  l_sh : forall p n, own_sh (pcs s p) = Some n <-> In p (s_sh (slots s n));
  l_xs : forall n p, s_ex (slots s n) = Some p -> s_sh (slots s n) = [];
  l_gex : forall p g, gown_ex (pcs s p) = Some g <-> g_ex s g = Some p;
  l_gsh : forall p g, gown_sh (pcs s p) = Some g <-> In p (g_sh s g);
  l_gxs : forall g p, g_ex s g = Some p -> g_sh s g = []
}.

Lemma LInv_init : forall f ex, LInv (init f ex).
Proof. intros. constructor; cbn; intros; try congruence; split; intros; try discriminate; try contradiction. Qed.

Lemma can_lock_free : forall x ex, can_lock x ex = true -> s_ex x = None /\ (ex = true -> s_sh x = []).
Proof.
  intros x ex H. unfold can_lock in H. destruct (s_ex x); [discriminate|]. split; [reflexivity|].
  intros ->. destruct (s_sh x); [reflexivity|discriminate].
Qed.

Ltac slv := unfold lock, unlock, set_use, set_data in *;
  cbn [slots g_ex g_sh file fex pcs log set_pc set_slot set_gex set_gsh add_log write_file create_file
       s_key s_shadow s_use s_dirty s_data s_ex s_sh s_ph own_ex own_sh gown_ex gown_sh] in *.


Ltac facts s p Ep A1 A2 A3 A4 A5 A6 :=
  let a1 := fresh "F" in let a2 := fresh "F" in let a4 := fresh "F" in let a5 := fresh "F" in
  pose proof (A1 p) as a1; pose proof (A2 p) as a2; pose proof (A4 p) as a4; pose proof (A5 p) as a5;
  rewrite Ep in a1, a2, a4, a5; cbn [own_ex own_sh gown_ex gown_sh] in a1, a2, a4, a5.

Ltac goal2 p :=
  let q := fresh "q" in let m := fresh "m" in
  intros q m; cbn beta; rewrite ?upd_if;
  repeat match goal with |- context [?a =? ?b] => destruct (Z.eqb_spec a b); subst end;
  slv; rewrite ?in_without; cbn [In];
  repeat match goal with H : forall _ : Z, _ <-> _ |- _ => pose proof (H m); pose proof (H q); revert H end; intros.

Lemma LInv_step : forall s x, LInv s -> LInv (step BS bpf G s x).
Proof.
  intros s x H. pose proof H as [A1 A2 A3 A4 A5 A6].
  destruct x as [p o|p t a b|p k d|p]; cbn [step].
  - destruct (pcs s p) eqn:Ep; auto. destruct (valid_op BS o); auto. facts s p Ep A1 A2 A3 A4 A5 A6.
    constructor; slv; auto; intros q m; rewrite ?upd_if; (destruct (Z.eqb_spec q p) as [->|]; slv; auto).
  - destruct (pcs s p) eqn:Ep; auto. facts s p Ep A1 A2 A3 A4 A5 A6.
    constructor; slv; auto; intros q m; rewrite ?upd_if; (destruct (Z.eqb_spec q p) as [->|]; slv; auto).
  - destruct (pcs s p) eqn:Ep; auto. destruct (0 <=? snd k); auto. facts s p Ep A1 A2 A3 A4 A5 A6.
    constructor; slv; auto; intros q m; rewrite ?upd_if; (destruct (Z.eqb_spec q p) as [->|]; slv; auto).
  - destruct (pcs s p) eqn:Ep; auto; facts s p Ep A1 A2 A3 A4 A5 A6.
    + (* Lookup *)
      destruct (g_ex s (grp (o_key o))) eqn:Eg; auto. destruct (find_slot G s (o_key o)).
      * constructor; slv; auto; intros q m; rewrite ?upd_if.
        -- destruct (Z.eqb_spec q p) as [->|]; slv; auto.
        -- destruct (Z.eqb_spec q p) as [->|]; slv; auto.
        -- destruct (Z.eqb_spec q p) as [->|]; slv; auto.
        -- destruct (Z.eqb_spec q p) as [->|]; slv.
           ++ destruct (Z.eqb_spec m (grp (o_key o))) as [->|]; cbn [In]; [tauto|]. rewrite <- F2. split; congruence.
           ++ destruct (Z.eqb_spec m (grp (o_key o))) as [->|]; cbn [In]; [|auto]. rewrite A5. intuition congruence.
        -- destruct (Z.eqb_spec q (grp (o_key o))) as [->|]; [congruence|apply A6].
      * constructor; slv; auto; intros q m; rewrite ?upd_if; (destruct (Z.eqb_spec q p) as [->|]; slv; auto).
    + (* WaitS *)
      destruct (can_lock (slots s n) (o_write o)) eqn:Ec; auto. apply can_lock_free in Ec. destruct Ec as [Ec1 Ec2].
      destruct (o_write o) eqn:Ew.
      * specialize (Ec2 eq_refl). constructor; slv; auto; intros q m; rewrite ?upd_if.
        -- destruct (Z.eqb_spec q p) as [->|]; destruct (Z.eqb_spec m n) as [->|]; slv; try tauto.
           ++ rewrite <- F. split; congruence.
           ++ rewrite A1, Ec1. split; congruence.
           ++ apply A1.
        -- destruct (Z.eqb_spec q p) as [->|]; destruct (Z.eqb_spec m n) as [->|]; slv; auto.
        -- destruct (Z.eqb_spec q n) as [->|]; slv; auto. apply A3.
        -- destruct (Z.eqb_spec q p) as [->|]; slv; auto.
        -- destruct (Z.eqb_spec q p) as [->|]; destruct (Z.eqb_spec m (grp (o_key o))) as [->|]; slv;
             rewrite ?in_without, <- ?F2, <- ?A5; intuition congruence.
        -- destruct (Z.eqb_spec q (grp (o_key o))) as [->|]; [|apply A6]. intros E. rewrite (A6 _ _ E). reflexivity.
      * constructor; slv; auto; intros q m; rewrite ?upd_if.
        -- destruct (Z.eqb_spec q p) as [->|]; destruct (Z.eqb_spec m n) as [->|]; slv; auto.
        -- destruct (Z.eqb_spec q p) as [->|]; destruct (Z.eqb_spec m n) as [->|]; slv; cbn [In];
             rewrite <- ?F0, <- ?A2; intuition congruence.
        -- destruct (Z.eqb_spec q n) as [->|]; slv; [congruence|apply A3].
        -- destruct (Z.eqb_spec q p) as [->|]; slv; auto.
        -- destruct (Z.eqb_spec q p) as [->|]; destruct (Z.eqb_spec m (grp (o_key o))) as [->|]; slv;
             rewrite ?in_without, <- ?F2, <- ?A5; intuition congruence.
        -- destruct (Z.eqb_spec q (grp (o_key o))) as [->|]; [|apply A6]. intros E. rewrite (A6 _ _ E). reflexivity.
    + (* Excl *)
      destruct (g_ex s (grp (o_key o))) eqn:Eg; auto. destruct (g_sh s (grp (o_key o))) eqn:Eh; auto.
      constructor; slv; auto; intros q m; rewrite ?upd_if.
      * destruct (Z.eqb_spec q p) as [->|]; slv; auto.
      * destruct (Z.eqb_spec q p) as [->|]; slv; auto.
      * destruct (Z.eqb_spec q p) as [->|]; destruct (Z.eqb_spec m (grp (o_key o))) as [->|]; slv; try tauto.
        -- rewrite <- F1. split; congruence.
        -- rewrite A4, Eg. split; congruence.
        -- apply A4.
      * destruct (Z.eqb_spec q p) as [->|]; slv; auto.
      * destruct (Z.eqb_spec q (grp (o_key o))) as [->|]; [auto|apply A6].
    + (* Search *)
      destruct (n =? 4 * grp (o_key o) + 4).
      { constructor; slv; auto; intros q m; rewrite ?upd_if; (destruct (Z.eqb_spec q p) as [->|]; slv; auto). }
      destruct (key_eqb (s_key (slots s n)) (o_key o)).
      { constructor; slv; auto; intros q m; rewrite ?upd_if; (destruct (Z.eqb_spec q p) as [->|]; slv; auto). }
      destruct (key_eqb (s_shadow (slots s n)) (o_key o) && negb (can_lock (slots s n) false)); auto.
      constructor; slv; auto; intros q m; rewrite ?upd_if.
      * destruct (Z.eqb_spec q p) as [->|]; destruct (Z.eqb_spec m n) as [->|]; slv; auto.
      * destruct (Z.eqb_spec q p) as [->|]; destruct (Z.eqb_spec m n) as [->|]; slv; auto.
      * destruct (Z.eqb_spec q n) as [->|]; slv; auto; apply A3.
      * destruct (Z.eqb_spec q p) as [->|]; slv; auto.
      * destruct (Z.eqb_spec q p) as [->|]; slv; auto.
    + (* WaitX *)
      destruct (can_lock (slots s n) (o_write o)) eqn:Ec; auto. apply can_lock_free in Ec. destruct Ec as [Ec1 Ec2].
      assert (Eg : g_ex s (grp (o_key o)) = Some p) by (apply F1; reflexivity).
      destruct (o_write o) eqn:Ew.
      * specialize (Ec2 eq_refl). constructor; slv; auto; intros q m; rewrite ?upd_if.
        -- destruct (Z.eqb_spec q p) as [->|]; destruct (Z.eqb_spec m n) as [->|]; slv; try tauto.
           ++ rewrite <- F. split; congruence.
           ++ rewrite A1, Ec1. split; congruence.
           ++ apply A1.
        -- destruct (Z.eqb_spec q p) as [->|]; destruct (Z.eqb_spec m n) as [->|]; slv; auto.
        -- destruct (Z.eqb_spec q n) as [->|]; slv; auto. apply A3.
        -- destruct (Z.eqb_spec q p) as [->|]; destruct (Z.eqb_spec m (grp (o_key o))) as [->|]; slv;
             rewrite <- ?F1, ?A4; intuition congruence.
        -- destruct (Z.eqb_spec q p) as [->|]; slv; auto.
        -- destruct (Z.eqb_spec q (grp (o_key o))) as [->|]; [discriminate|apply A6].
      * constructor; slv; auto; intros q m; rewrite ?upd_if.
        -- destruct (Z.eqb_spec q p) as [->|]; destruct (Z.eqb_spec m n) as [->|]; slv; auto.
        -- destruct (Z.eqb_spec q p) as [->|]; destruct (Z.eqb_spec m n) as [->|]; slv; cbn [In];
             rewrite <- ?F0, <- ?A2; intuition congruence.
        -- destruct (Z.eqb_spec q n) as [->|]; slv; [congruence|apply A3].
        -- destruct (Z.eqb_spec q p) as [->|]; destruct (Z.eqb_spec m (grp (o_key o))) as [->|]; slv;
             rewrite <- ?F1, ?A4; intuition congruence.
        -- destruct (Z.eqb_spec q p) as [->|]; slv; auto.
        -- destruct (Z.eqb_spec q (grp (o_key o))) as [->|]; [discriminate|apply A6].
    + (* Victim *)
      destruct (can_lock (slots s n) true) eqn:Ec; auto. apply can_lock_free in Ec. destruct Ec as [Ec1 Ec2].
      assert (Eg : g_ex s (grp (o_key o)) = Some p) by (apply F1; reflexivity).
      specialize (Ec2 eq_refl). constructor; slv; auto; intros q m; rewrite ?upd_if.
      * destruct (Z.eqb_spec q p) as [->|]; destruct (Z.eqb_spec m n) as [->|]; slv; try tauto.
        -- rewrite <- F. split; congruence.
        -- rewrite A1, Ec1. split; congruence.
        -- apply A1.
      * destruct (Z.eqb_spec q p) as [->|]; destruct (Z.eqb_spec m n) as [->|]; slv; auto.
      * destruct (Z.eqb_spec q n) as [->|]; slv; auto. apply A3.
      * destruct (Z.eqb_spec q p) as [->|]; destruct (Z.eqb_spec m (grp (o_key o))) as [->|]; slv;
             rewrite <- ?F1, ?A4; intuition congruence.
      * destruct (Z.eqb_spec q p) as [->|]; slv; auto.
      * destruct (Z.eqb_spec q (grp (o_key o))) as [->|]; [discriminate|apply A6].
    + (* Evict *)
      destruct d; (constructor; slv; auto; intros q m; rewrite ?upd_if;
        [ destruct (Z.eqb_spec q p) as [->|]; destruct (Z.eqb_spec m n) as [->|]; slv; auto
        | destruct (Z.eqb_spec q p) as [->|]; destruct (Z.eqb_spec m n) as [->|]; slv; auto
        | destruct (Z.eqb_spec q n) as [->|]; slv; auto; apply A3
        | destruct (Z.eqb_spec q p) as [->|]; slv; auto
        | destruct (Z.eqb_spec q p) as [->|]; slv; auto ]).
    + (* Load *)
      assert (Ex : s_ex (slots s n) = Some p) by (apply F; reflexivity).
      destruct (o_mok o && negb (fex s (fileof bpf (o_key o)))).
      * constructor; slv; auto; intros q m; rewrite ?upd_if.
        -- destruct (Z.eqb_spec q p) as [->|]; destruct (Z.eqb_spec m n) as [->|]; slv; try tauto.
           ++ split; congruence.
           ++ rewrite <- F. split; congruence.
           ++ rewrite A1, Ex. split; congruence.
           ++ apply A1.
        -- destruct (Z.eqb_spec q p) as [->|]; destruct (Z.eqb_spec m n) as [->|]; slv; auto.
        -- destruct (Z.eqb_spec q n) as [->|]; slv; auto; [discriminate|apply A3].
        -- destruct (Z.eqb_spec q p) as [->|]; slv; auto.
        -- destruct (Z.eqb_spec q p) as [->|]; slv; auto.
      * constructor; slv; auto; intros q m; rewrite ?upd_if.
        -- destruct (Z.eqb_spec q p) as [->|]; destruct (Z.eqb_spec m n) as [->|]; slv; auto.
        -- destruct (Z.eqb_spec q p) as [->|]; destruct (Z.eqb_spec m n) as [->|]; slv; auto.
        -- destruct (Z.eqb_spec q n) as [->|]; slv; auto; apply A3.
        -- destruct (Z.eqb_spec q p) as [->|]; slv; auto.
        -- destruct (Z.eqb_spec q p) as [->|]; slv; auto.
    + (* Have *)
      assert (Rel : forall y, s_ex y = s_ex (slots s n) -> s_sh y = s_sh (slots s n) ->
        LInv (set_pc (set_slot s n (unlock y ex p)) p Idle)).
      { intros y Ey1 Ey2. destruct ex.
        - assert (Ex : s_ex (slots s n) = Some p) by (apply F; reflexivity).
          constructor; slv; auto; intros q m; rewrite ?upd_if.
          + destruct (Z.eqb_spec q p) as [->|]; destruct (Z.eqb_spec m n) as [->|]; slv; try tauto.
            * split; congruence.
            * rewrite <- F. split; congruence.
            * rewrite A1, Ex. split; congruence.
            * apply A1.
          + destruct (Z.eqb_spec q p) as [->|]; destruct (Z.eqb_spec m n) as [->|]; slv; rewrite ?Ey2; auto.
          + destruct (Z.eqb_spec q n) as [->|]; slv; auto; [discriminate|apply A3].
          + destruct (Z.eqb_spec q p) as [->|]; slv; auto.
          + destruct (Z.eqb_spec q p) as [->|]; slv; auto.
        - constructor; slv; auto; intros q m; rewrite ?upd_if.
          + destruct (Z.eqb_spec q p) as [->|]; destruct (Z.eqb_spec m n) as [->|]; slv; rewrite ?Ey1; auto.
          + destruct (Z.eqb_spec q p) as [->|]; destruct (Z.eqb_spec m n) as [->|]; slv;
              rewrite ?in_without, ?Ey2, <- ?F0, <- ?A2; intuition congruence.
          + destruct (Z.eqb_spec q n) as [->|]; slv; [|apply A3]. rewrite Ey1, Ey2. intros E. rewrite (A3 _ _ E). reflexivity.
          + destruct (Z.eqb_spec q p) as [->|]; slv; auto.
          + destruct (Z.eqb_spec q p) as [->|]; slv; auto. }
      destruct (o_write o).
      * specialize (Rel (set_data (slots s n) (put (s_data (slots s n)) (o_off o) (o_len o) (o_dat o)) (negb (o_clean o)))
                        eq_refl eq_refl).
        destruct Rel as [B1 B2 B3 B4 B5 B6]. constructor; assumption.
      * specialize (Rel (slots s n) eq_refl eq_refl). destruct Rel as [B1 B2 B3 B4 B5 B6]. constructor; assumption.
    + (* FAcq *)
      destruct (n =? 4 * G).
      { constructor; slv; auto; intros q m; rewrite ?upd_if; (destruct (Z.eqb_spec q p) as [->|]; slv; auto). }
      destruct (can_lock (slots s n) false) eqn:Ec; auto. apply can_lock_free in Ec. destruct Ec as [Ec1 _].
      constructor; slv; auto; intros q m; rewrite ?upd_if.
      * destruct (Z.eqb_spec q p) as [->|]; destruct (Z.eqb_spec m n) as [->|]; slv; auto.
      * destruct (Z.eqb_spec q p) as [->|]; destruct (Z.eqb_spec m n) as [->|]; slv; cbn [In];
          rewrite <- ?F0, <- ?A2; intuition congruence.
      * destruct (Z.eqb_spec q n) as [->|]; slv; [congruence|apply A3].
      * destruct (Z.eqb_spec q p) as [->|]; slv; auto.
      * destruct (Z.eqb_spec q p) as [->|]; slv; auto.
    + (* FIO *)
      destruct (s_dirty (slots s n) && (fst (s_key (slots s n)) =? t) && (a <=? snd (s_key (slots s n))) &&
                (snd (s_key (slots s n)) <=? b));
      (constructor; slv; auto; intros q m; rewrite ?upd_if; (destruct (Z.eqb_spec q p) as [->|]; slv; auto)).
    + (* FClr *)
      destruct w; (constructor; slv; auto; intros q m; rewrite ?upd_if;
        [ destruct (Z.eqb_spec q p) as [->|]; destruct (Z.eqb_spec m n) as [->|]; slv; auto
        | destruct (Z.eqb_spec q p) as [->|]; destruct (Z.eqb_spec m n) as [->|]; slv;
              rewrite ?in_without, <- ?F0, <- ?A2; intuition congruence
        | destruct (Z.eqb_spec q n) as [->|]; slv; [|apply A3]; intros E; rewrite (A3 _ _ E); reflexivity
        | destruct (Z.eqb_spec q p) as [->|]; slv; auto
        | destruct (Z.eqb_spec q p) as [->|]; slv; auto ]).
    + (* D1 *)
      destruct (g_ex s (grp k)) eqn:Eg; auto. destruct (find_slot G s k).
      * constructor; slv; auto; intros q m; rewrite ?upd_if.
        -- destruct (Z.eqb_spec q p) as [->|]; slv; auto.
        -- destruct (Z.eqb_spec q p) as [->|]; slv; auto.
        -- destruct (Z.eqb_spec q p) as [->|]; slv; auto.
        -- destruct (Z.eqb_spec q p) as [->|]; slv.
           ++ destruct (Z.eqb_spec m (grp k)) as [->|]; cbn [In]; [tauto|]. rewrite <- F2. split; congruence.
           ++ destruct (Z.eqb_spec m (grp k)) as [->|]; cbn [In]; [|auto]. rewrite A5. intuition congruence.
        -- destruct (Z.eqb_spec q (grp k)) as [->|]; [congruence|apply A6].
      * constructor; slv; auto; intros q m; rewrite ?upd_if; (destruct (Z.eqb_spec q p) as [->|]; slv; auto).
    + (* D2 *)
      destruct (can_lock (slots s n) true) eqn:Ec; auto.
      constructor; slv; auto; intros q m; rewrite ?upd_if.
      * destruct (Z.eqb_spec q p) as [->|]; destruct (Z.eqb_spec m n) as [->|]; slv; auto.
      * destruct (Z.eqb_spec q p) as [->|]; destruct (Z.eqb_spec m n) as [->|]; slv; auto.
      * destruct (Z.eqb_spec q n) as [->|]; slv; auto; apply A3.
      * destruct (Z.eqb_spec q p) as [->|]; slv; auto.
      * destruct (Z.eqb_spec q p) as [->|]; destruct (Z.eqb_spec m (grp k)) as [->|]; slv;
             rewrite ?in_without, <- ?F2, <- ?A5; intuition congruence.
      * destruct (Z.eqb_spec q (grp k)) as [->|]; [|apply A6]. intros E. rewrite (A6 _ _ E). reflexivity.
    + (* D3 *)
      constructor; slv; auto; intros q m; rewrite ?upd_if; (destruct (Z.eqb_spec q p) as [->|]; slv; auto).
Qed.


(** ** Contents *)
Variable f0 : key -> bytes.
Notation agree := (agree BS).
Definition abs (s : st) : key -> bytes := content f0 (log s).
Definition F (s : st) (k : key) : Prop := agree (file s k) (abs s k).
Definition kin (s : st) (n : Z) (k : key) : Prop := s_key (slots s n) = k.
Definition pend (s : st) (n : Z) (k : key) : Prop := s_ph (slots s n) = PEv true k.
Definition nowrite (k : key) (l : list event) : Prop := forallb (fun e => negb (writes_to k e)) l = true.

Definition FJ (s : st) (m0 t a b n0 : Z) : Prop :=
  0 <= n0 <= Z.of_nat (length (log s)) /\
  forall k, fst k = t -> a <= snd k <= b -> 0 <= snd k -> nowrite k (skipn (Z.to_nat n0) (log s)) ->
    F s k \/ exists m, m0 <= m /\ (kin s m k \/ pend s m k).

Definition pcok (s : st) (c : pc) : Prop :=
  match c with
  | Lookup o | Excl o => valid_op BS o = true
  | WaitS o n | WaitX o n => valid_op BS o = true /\ kin s n (o_key o)
  | Search o n vic _ => valid_op BS o = true /\ 4 * grp (o_key o) <= n <= 4 * grp (o_key o) + 4 /\
      (4 * grp (o_key o) < n -> 4 * grp (o_key o) <= vic < n) /\
      forall m, 4 * grp (o_key o) <= m < n -> ~ kin s m (o_key o) /\ ~ pend s m (o_key o)
  | Victim o v => valid_op BS o = true /\ 4 * grp (o_key o) <= v < 4 * grp (o_key o) + 4 /\
      forall m, 4 * grp (o_key o) <= m < 4 * grp (o_key o) + 4 -> ~ kin s m (o_key o) /\ ~ pend s m (o_key o)
  | Evict o n d k => valid_op BS o = true /\ kin s n (o_key o) /\ s_ph (slots s n) = PEv d k
  | Load o n => valid_op BS o = true /\ kin s n (o_key o) /\ s_ph (slots s n) = PLd
  | Have o n ex => valid_op BS o = true /\ kin s n (o_key o) /\ s_ph (slots s n) = Ready /\ (o_write o = true -> ex = true)
  | FAcq n t a b n0 => 0 <= n <= 4 * G /\ FJ s n t a b n0
  | FIO n t a b n0 => 0 <= n < 4 * G /\ FJ s n t a b n0
  | FClr n t a b n0 w => 0 <= n < 4 * G /\ FJ s (n + 1) t a b n0 /\
      (w = true -> 0 <= snd (s_key (slots s n)) -> agree (file s (s_key (slots s n))) (s_data (slots s n)))
  | Idle => True
  | D1 _ _ | D2 _ _ _ | D3 _ _ => False
  end.

Record CInv (s : st) : Prop := mkC {
  c_grp : forall n k, 0 <= snd k -> kin s n k -> n / 4 = grp k;
  c_uniq : forall n m k, 0 <= snd k -> kin s n k -> kin s m k -> n = m;
  c_pend : forall n k, 0 <= snd k -> pend s n k ->
             n / 4 = grp k /\ agree (s_data (slots s n)) (abs s k) /\ (forall m, ~ kin s m k);
  c_puniq : forall n m k, 0 <= snd k -> pend s n k -> pend s m k -> n = m;
  c_shadow : forall n d k, s_ph (slots s n) = PEv d k -> s_shadow (slots s n) = k;
  c_busy : forall n, s_ph (slots s n) <> Ready -> exists p o, s_ex (slots s n) = Some p /\
             ((exists d k, pcs s p = Evict o n d k) \/ pcs s p = Load o n);
  c_key : forall n k, 0 <= snd k -> kin s n k ->
            match s_ph (slots s n) with
            | Ready => agree (s_data (slots s n)) (abs s k) /\ (s_dirty (slots s n) = false -> F s k)
            | _ => F s k
            end;
  c_free : forall k, 0 <= snd k -> (forall n, ~ kin s n k) -> (forall n, ~ pend s n k) -> F s k;
  c_zero : forall k, fex s (fileof bpf k) = false -> forall j, file s k j = 0;
  c_pc : forall p, pcok s (pcs s p);
  c_log : consistent BS f0 (log s)
}.

Lemma content_app : forall l e, content f0 (l ++ [e]) = apply_ev (content f0 l) e.
Proof. intros. unfold content. rewrite fold_left_app. reflexivity. Qed.

Lemma agree_refl : forall a, agree a a.
Proof. intros a j Hj. reflexivity. Qed.
Lemma agree_sym : forall a b, agree a b -> agree b a.
Proof. intros a b H j Hj. symmetry. apply H. exact Hj. Qed.
Lemma agree_trans : forall a b c, agree a b -> agree b c -> agree a c.
Proof. intros a b c H1 H2 j Hj. rewrite H1 by exact Hj. apply H2. exact Hj. Qed.

Lemma consistent_nil : consistent BS f0 [].
Proof. intros pre e post H. destruct pre; discriminate. Qed.
Lemma consistent_app : forall l e, consistent BS f0 l -> event_ok BS f0 l e -> consistent BS f0 (l ++ [e]).
Proof.
  intros l e Hl He pre e' post E. destruct post as [|x post _] using rev_ind.
  - apply app_inj_tail in E. destruct E as [-> ->]. exact He.
  - rewrite app_comm_cons, app_assoc in E. apply app_inj_tail in E. destruct E as [E _].
    eapply Hl. exact E.
Qed.

Lemma CInv_init : forall ex, files_ok bpf f0 ex -> CInv (init f0 ex).
Proof.
  intros ex Hf. constructor; unfold kin, pend, F, abs; cbn.
  - intros n k Hk <-. cbn in Hk. lia.
  - intros n m k Hk <-. cbn in Hk. lia.
  - discriminate.
  - discriminate.
  - discriminate.
  - congruence.
  - intros n k Hk <-. cbn in Hk. lia.
  - intros. apply agree_refl.
  - exact Hf.
  - auto.
  - apply consistent_nil.
Qed.

(** A step that changes no contents. *)
Definition same_core (s s' : st) : Prop :=
  (forall n, s_key (slots s' n) = s_key (slots s n) /\ s_shadow (slots s' n) = s_shadow (slots s n) /\
     s_dirty (slots s' n) = s_dirty (slots s n) /\ s_data (slots s' n) = s_data (slots s n) /\
     s_ph (slots s' n) = s_ph (slots s n)) /\
  file s' = file s /\ fex s' = fex s /\ log s' = log s.

Lemma pcok_core : forall s s' c, same_core s s' -> pcok s c -> pcok s' c.
Proof.
  intros s s' c [Hc [Hf [He Hl]]] H.
  assert (K : forall n k, kin s' n k <-> kin s n k) by (intros; unfold kin; destruct (Hc n) as [-> _]; tauto).
  assert (P : forall n k, pend s' n k <-> pend s n k) by (intros; unfold pend; destruct (Hc n) as [_ [_ [_ [_ ->]]]]; tauto).
  assert (J : forall m0 t a b n0, FJ s m0 t a b n0 -> FJ s' m0 t a b n0).
  { intros m0 t a b n0 [J1 J2]. split; [rewrite Hl; exact J1|]. intros k. rewrite Hl. intros A1 A2 A3 A4.
    destruct (J2 k A1 A2 A3 A4) as [B|[m [M1 M2]]].
    - left. unfold F, abs. rewrite Hf, Hl. exact B.
    - right. exists m. rewrite K, P. auto. }
  destruct c; cbn [pcok] in *; auto.
  - rewrite K. exact H.
  - destruct H as [H1 [H2 [H3 H4]]]. split; [exact H1|]. split; [exact H2|]. split; [exact H3|].
    intros m Hm. rewrite K, P. auto.
  - rewrite K. exact H.
  - destruct H as [H1 [H2 H3]]. split; [exact H1|]. split; [exact H2|]. intros m Hm. rewrite K, P. auto.
  - rewrite K. destruct (Hc n) as [_ [_ [_ [_ ->]]]]. exact H.
  - rewrite K. destruct (Hc n) as [_ [_ [_ [_ ->]]]]. exact H.
  - rewrite K. destruct (Hc n) as [_ [_ [_ [_ ->]]]]. exact H.
  - destruct H. split; auto.
  - destruct H. split; auto.
  - destruct H as [H1 [H2 H3]]. split; [exact H1|]. split; [apply J; exact H2|].
    destruct (Hc n) as [-> [_ [_ [-> _]]]]. rewrite Hf. exact H3.
Qed.

Lemma CInv_core : forall s s' p c, CInv s -> same_core s s' -> pcs s' = upd (pcs s) p c -> pcok s' c ->
  (match pcs s p with Evict _ _ _ _ | Load _ _ => False | _ => True end) ->
  (forall n q, s_ex (slots s n) = Some q -> s_ex (slots s' n) = Some q) ->
  CInv s'.
Proof.
  intros s s' p c H Hs Hp Hc Hnp Hx. pose proof H as [A1 A2 A3 A4 A5 A6 A7 A8 A9 A10 A11].
  pose proof Hs as [Hk [Hf [He Hl]]].
  assert (K : forall n k, kin s' n k <-> kin s n k) by (intros; unfold kin; destruct (Hk n) as [-> _]; tauto).
  assert (P : forall n k, pend s' n k <-> pend s n k) by (intros; unfold pend; destruct (Hk n) as [_ [_ [_ [_ ->]]]]; tauto).
  assert (EF : forall k, F s' k <-> F s k) by (intros; unfold F, abs; rewrite Hf, Hl; tauto).
  constructor.
  - intros n k. rewrite K. apply A1.
  - intros n m k. rewrite !K. apply A2.
  - intros n k Hk0. rewrite P. intros Hp0. destruct (A3 n k Hk0 Hp0) as [B1 [B2 B3]].
    destruct (Hk n) as [_ [_ [_ [-> _]]]]. unfold abs in *. rewrite Hl. split; [exact B1|]. split; [exact B2|].
    intros m. rewrite K. apply B3.
  - intros n m k. rewrite !P. apply A4.
  - intros n d k. destruct (Hk n) as [_ [-> [_ [_ ->]]]]. apply A5.
  - intros n. destruct (Hk n) as [_ [_ [_ [_ ->]]]]. intros Hr. destruct (A6 n Hr) as [q [o [Q1 Q2]]].
    exists q, o. split; [apply Hx; exact Q1|]. rewrite Hp, upd_if. destruct (Z.eqb_spec q p) as [->|]; [|exact Q2].
    exfalso. destruct Q2 as [[d [k Q2]]|Q2]; rewrite Q2 in Hnp; exact Hnp.
  - intros n k Hk0. rewrite K. intros Hkin. specialize (A7 n k Hk0 Hkin).
    destruct (Hk n) as [_ [_ [-> [-> ->]]]]. unfold abs in *. rewrite Hl.
    destruct (s_ph (slots s n)); rewrite ?EF; exact A7.
  - intros k Hk0 B1 B2. rewrite EF. apply A8; auto; intros n; [rewrite <- K|rewrite <- P]; auto.
  - rewrite He, Hf. exact A9.
  - intros q. rewrite Hp, upd_if. destruct (Z.eqb_spec q p) as [->|]; [exact Hc|].
    apply (pcok_core s); auto.
  - rewrite Hl. exact A11.
Qed.


Lemma nowrite_app : forall k a b, nowrite k (a ++ b) <-> nowrite k a /\ nowrite k b.
Proof. intros. unfold nowrite. rewrite forallb_app, andb_true_iff. tauto. Qed.

Lemma content_nowrite : forall l k f, nowrite k l -> fold_left apply_ev l f k = f k.
Proof.
  induction l as [|e l IH]; intros k f H; [reflexivity|]. cbn [fold_left].
  unfold nowrite in H. cbn [forallb] in H. apply andb_true_iff in H. destruct H as [H1 H2].
  rewrite IH by exact H2. destruct e as [| p k' off len d | |]; cbn [apply_ev]; auto.
  cbn [writes_to] in H1. apply kupd_other. intros ->. rewrite key_eqb_refl in H1. discriminate.
Qed.

Lemma skipn_app_le : forall (A : Type) (l l' : list A) n, 0 <= n <= Z.of_nat (length l) ->
  skipn (Z.to_nat n) (l ++ l') = skipn (Z.to_nat n) l ++ l'.
Proof.
  intros A l l' n Hn. rewrite skipn_app. f_equal. replace (Z.to_nat n - length l)%nat with 0%nat by lia. reflexivity.
Qed.

(** Adding an event that is not a write. *)
Lemma CInv_log : forall s e, CInv s -> (forall k, writes_to k e = false) -> event_ok BS f0 (log s) e -> CInv (add_log s e).
Proof.
  intros s e H Hw He. pose proof H as [A1 A2 A3 A4 A5 A6 A7 A8 A9 A10 A11].
  assert (EA : forall k, abs (add_log s e) k = abs s k).
  { intros k. unfold abs. cbn [log add_log]. rewrite content_app. destruct e; try reflexivity.
    cbn [apply_ev]. specialize (Hw k0). cbn in Hw. rewrite key_eqb_refl in Hw. discriminate. }
  assert (EF : forall k, F (add_log s e) k <-> F s k) by (intros k; unfold F; rewrite EA; reflexivity).
  assert (J : forall m0 t a b n0, FJ s m0 t a b n0 -> FJ (add_log s e) m0 t a b n0).
  { intros m0 t a b n0 [J1 J2]. split; [cbn [log add_log]; rewrite app_length; cbn; lia|].
    intros k B1 B2 B3 B4. rewrite EF. cbn [log add_log] in B4. rewrite skipn_app_le in B4 by exact J1.
    apply nowrite_app in B4. apply (J2 k B1 B2 B3). apply B4. }
  constructor; auto.
  - intros n k Hk Hp. rewrite EA. apply (A3 n k Hk Hp).
  - intros n k Hk Hp. specialize (A7 n k Hk Hp). rewrite EA. cbn [slots add_log].
    destruct (s_ph (slots s n)); rewrite EF; exact A7.
  - intros k Hk B1 B2. rewrite EF. apply (A8 k Hk B1 B2).
  - intros p. specialize (A10 p). cbn [pcs add_log]. destruct (pcs s p); cbn [pcok] in *; auto.
    + destruct A10. split; auto.
    + destruct A10. split; auto.
    + destruct A10 as [C1 [C2 C3]]. split; [exact C1|]. split; [apply J; exact C2|exact C3].
  - cbn [log add_log]. apply consistent_app; auto.
Qed.

(** What another process relies on is kept by a step that touches only buffer [n]. *)
Definition not_touch (s s' : st) (n : Z) (c : pc) : Prop :=
  match c with
  | WaitS o m | WaitX o m => m = n -> s_key (slots s' n) = s_key (slots s n)
  | Evict o m _ _ | Load o m | Have o m _ =>
      m = n -> s_key (slots s' n) = s_key (slots s n) /\ s_ph (slots s' n) = s_ph (slots s n)
  | FClr m _ _ _ _ _ => m = n -> s_key (slots s' n) = s_key (slots s n) /\ s_data (slots s' n) = s_data (slots s n)
  | Search o _ _ _ | Victim o _ => 4 * grp (o_key o) <= n < 4 * grp (o_key o) + 4 ->
      (kin s' n (o_key o) -> kin s n (o_key o)) /\ (pend s' n (o_key o) -> pend s n (o_key o))
  | _ => True
  end.

Lemma pcok_other : forall s s' n l c,
  (forall m, m <> n -> slots s' m = slots s m) ->
  log s' = log s ++ l ->
  (forall k, 0 <= snd k -> nowrite k l -> (F s k -> F s' k) /\
       forall m, kin s m k \/ pend s m k -> (kin s' m k \/ pend s' m k) \/ F s' k) ->
  (forall m, 0 <= snd (s_key (slots s m)) -> (m = n -> s_data (slots s' n) = s_data (slots s n)) ->
       agree (file s (s_key (slots s m))) (s_data (slots s m)) -> agree (file s' (s_key (slots s m))) (s_data (slots s m))) ->
  not_touch s s' n c -> pcok s c -> pcok s' c.
Proof.
  intros s s' n l c Hs Hl Hk Hf Ht H.
  assert (J : forall m0 t a b n0, FJ s m0 t a b n0 -> FJ s' m0 t a b n0).
  { intros m0 t a b n0 [J1 J2]. split; [rewrite Hl, app_length; lia|]. intros k B1 B2 B3 B4.
    rewrite Hl, skipn_app_le in B4 by exact J1. apply nowrite_app in B4. destruct B4 as [B4 B5].
    destruct (Hk k B3 B5) as [K1 K2]. destruct (J2 k B1 B2 B3 B4) as [C|[m [M1 M2]]]; [left; auto|].
    destruct (K2 m M2) as [K3|K3]; [right; exists m; auto|left; exact K3]. }
  assert (Kn : forall m k, (m = n -> s_key (slots s' n) = s_key (slots s n)) -> kin s m k -> kin s' m k).
  { intros m k E Hm. unfold kin in *. destruct (Z.eq_dec m n) as [->|N]; [rewrite E by reflexivity; exact Hm|].
    rewrite Hs by exact N. exact Hm. }
  assert (Pn : forall m x, (m = n -> s_ph (slots s' n) = s_ph (slots s n)) -> s_ph (slots s m) = x -> s_ph (slots s' m) = x).
  { intros m x E Hm. destruct (Z.eq_dec m n) as [->|N]; [rewrite E by reflexivity; exact Hm|].
    rewrite Hs by exact N. exact Hm. }
  assert (NK : forall m k, (m = n -> (kin s' n k -> kin s n k) /\ (pend s' n k -> pend s n k)) ->
     ~ kin s m k /\ ~ pend s m k -> ~ kin s' m k /\ ~ pend s' m k).
  { intros m k E [N1 N2]. destruct (Z.eq_dec m n) as [->|N].
    - specialize (E eq_refl). tauto.
    - unfold kin, pend in *. rewrite Hs by exact N. auto. }
  destruct c; cbn [pcok not_touch] in *; auto.
  - destruct H as [H1 H2]. split; [exact H1|]. apply Kn; [intros E; apply Ht; exact E|exact H2].
  - destruct H as [H1 [H2 [H3 H4]]]. split; [exact H1|]. split; [exact H2|]. split; [exact H3|].
    intros m Hm. apply NK; [|apply H4; exact Hm]. intros ->. apply Ht. lia.
  - destruct H as [H1 H2]. split; [exact H1|]. apply Kn; [intros E; apply Ht; exact E|exact H2].
  - destruct H as [H1 [H2 H3]]. split; [exact H1|]. split; [exact H2|].
    intros m Hm. apply NK; [|apply H3; exact Hm]. intros ->. apply Ht. lia.
  - destruct H as [H1 [H2 H3]]. split; [exact H1|]. split; [apply Kn; [intros E; apply Ht; exact E|exact H2]|].
    apply Pn; [intros E; apply Ht; exact E|exact H3].
  - destruct H as [H1 [H2 H3]]. split; [exact H1|]. split; [apply Kn; [intros E; apply Ht; exact E|exact H2]|].
    apply Pn; [intros E; apply Ht; exact E|exact H3].
  - destruct H as [H1 [H2 [H3 H3w]]]. split; [exact H1|]. split; [apply Kn; [intros E; apply Ht; exact E|exact H2]|].
    split; [|exact H3w]. apply Pn; [intros E; apply Ht; exact E|exact H3].
  - destruct H as [H1 H2]. split; auto.
  - destruct H as [H1 H2]. split; auto.
  - destruct H as [H1 [H2 H3]]. split; [exact H1|]. split; [apply J; exact H2|]. intros Hw.
    destruct (Z.eq_dec n0 n) as [->|N].
    + destruct (Ht eq_refl) as [E1 E2]. rewrite E1, E2. intros Hs0. apply Hf; auto.
    + rewrite Hs by exact N. intros Hs0. apply Hf; auto. intros ->. congruence.
Qed.

Lemma busy_owner : forall s n p, LInv s -> CInv s -> s_ex (slots s n) = Some p ->
  match pcs s p with Evict _ _ _ _ | Load _ _ => False | _ => True end -> s_ph (slots s n) = Ready.
Proof.
  intros s n p HL HC Hx Hp. destruct (s_ph (slots s n)) eqn:E; auto; exfalso;
    (destruct (c_busy _ HC n ltac:(congruence)) as [q [o [Q1 Q2]]]; rewrite Hx in Q1; injection Q1 as <-;
     destruct Q2 as [[d' [k' Q2]]|Q2]; rewrite Q2 in Hp; exact Hp).
Qed.
Lemma free_ready : forall s n, CInv s -> s_ex (slots s n) = None -> s_ph (slots s n) = Ready.
Proof.
  intros s n HC Hx. destruct (s_ph (slots s n)) eqn:E; auto; exfalso;
    (destruct (c_busy _ HC n ltac:(congruence)) as [q [o [Q1 Q2]]]; congruence).
Qed.

Lemma grp_div : forall n g, 4 * g <= n < 4 * g + 4 <-> n / 4 = g.
Proof. intros. split; intros; [symmetry; apply Z.div_unique with (n - 4 * g); lia|]. subst g. pose proof (Z.div_mod n 4). pose proof (Z.mod_pos_bound n 4). lia. Qed.

Lemma valid_blk : forall o, valid_op BS o = true -> 0 <= snd (o_key o).
Proof. intros o H. unfold valid_op in H. lia. Qed.

Lemma CInv_victim : forall s p o n, LInv s -> CInv s -> pcs s p = Victim o n -> can_lock (slots s n) true = true ->
  CInv (step BS bpf G s (OStep p)).
Proof.
  intros s p o n HL H Ep Ec. cbn [step]. rewrite Ep, Ec. apply can_lock_free in Ec. destruct Ec as [Ec1 Ec2].
  specialize (Ec2 eq_refl). pose proof H as [A1 A2 A3 A4 A5 A6 A7 A8 A9 A10 A11].
  pose proof (A10 p) as Hp. rewrite Ep in Hp. cbn [pcok] in Hp. destruct Hp as [P1 [P2 P3]].
  pose proof (valid_blk o P1) as Hblk.
  set (g := grp (o_key o)) in *.
  assert (Hg : g_ex s g = Some p) by (apply (l_gex _ HL); rewrite Ep; reflexivity).
  pose proof (free_ready s n H Ec1) as Hr.
  set (s' := set_pc _ p _).
  assert (Hso : forall m, m <> n -> slots s' m = slots s m).
  { intros m Hm. unfold s'. slv. rewrite upd_if. destruct (Z.eqb_spec m n); [congruence|reflexivity]. }
  assert (Hsn : slots s' n = mkSlot (o_key o) (s_key (slots s n)) 1 false (s_data (slots s n)) (Some p)
                  (s_sh (slots s n)) (PEv (s_dirty (slots s n)) (s_key (slots s n)))).
  { unfold s'. slv. rewrite upd_if, Z.eqb_refl. reflexivity. }
  assert (Hnok : forall m, ~ kin s m (o_key o)).
  { intros m Hm. pose proof (A1 m _ Hblk Hm) as E. fold g in E. apply grp_div in E.
    destruct (P3 m E) as [Q _]. auto. }
  assert (Hnop : forall m, ~ pend s m (o_key o)).
  { intros m Hm. destruct (A3 m _ Hblk Hm) as [E _]. fold g in E. apply grp_div in E.
    destruct (P3 m E) as [_ Q]. auto. }
  assert (K : forall m k, kin s' m k <-> (m <> n /\ kin s m k) \/ (m = n /\ k = o_key o)).
  { intros m k. unfold kin. destruct (Z.eq_dec m n) as [->|N].
    - rewrite Hsn. cbn [s_key]. split; [intros <-; right; auto|]. intros [[X _]|[_ ->]]; congruence.
    - rewrite Hso by exact N. tauto. }
  assert (P : forall m k, pend s' m k <-> (m <> n /\ pend s m k) \/ (m = n /\ s_dirty (slots s n) = true /\ kin s n k)).
  { intros m k. unfold pend, kin. destruct (Z.eq_dec m n) as [->|N].
    - rewrite Hsn. cbn [s_ph]. split; [intros [= E1 E2]; right; auto|]. intros [[X _]|[_ [-> ->]]]; congruence.
    - rewrite Hso by exact N. tauto. }
  assert (EF : forall k, F s' k <-> F s k) by (intros; reflexivity).
  assert (OldF : forall k, 0 <= snd k -> kin s n k -> s_dirty (slots s n) = false -> F s k).
  { intros k Hk Hn Hd. specialize (A7 n k Hk Hn). rewrite Hr in A7. apply A7. exact Hd. }
  constructor.
  - intros m k Hk Hm. apply K in Hm. destruct Hm as [[_ Hm]|[-> ->]]; [apply A1; auto|]. fold g. apply grp_div. exact P2.
  - intros m m' k Hk Hm Hm'. apply K in Hm, Hm'. destruct Hm as [[N Hm]|[-> ->]], Hm' as [[N' Hm']|[E' E]]; subst; auto.
    + eapply A2; eauto.
    + exfalso. eapply Hnok; eauto.
    + exfalso. eapply Hnok; eauto.
  - intros m k Hk Hm. apply P in Hm. destruct Hm as [[N Hm]|[-> [Hd Hm]]].
    + destruct (A3 m k Hk Hm) as [B1 [B2 B3]]. rewrite (Hso m N). split; [exact B1|]. split; [exact B2|].
      intros m' Hm'. apply K in Hm'. destruct Hm' as [[_ Hm']|[-> ->]]; [eapply B3; eauto|eapply Hnop; eauto].
    + split; [apply A1; auto|]. specialize (A7 n k Hk Hm). rewrite Hr in A7. rewrite Hsn. cbn [s_data].
      split; [apply A7|]. intros m' Hm'. apply K in Hm'. destruct Hm' as [[N' Hm']|[-> ->]].
      * apply N'. eapply A2; eauto.
      * eapply Hnok; eauto.
  - intros m m' k Hk Hm Hm'. apply P in Hm, Hm'. destruct Hm as [[N Hm]|[-> [Hd Hm]]], Hm' as [[N' Hm']|[-> [Hd' Hm']]]; auto.
    + eapply A4; eauto.
    + destruct (A3 m k Hk Hm) as [_ [_ B]]. exfalso. eapply B; eauto.
    + destruct (A3 m' k Hk Hm') as [_ [_ B]]. exfalso. eapply B; eauto.
  - intros m d k. destruct (Z.eq_dec m n) as [->|N]; [|rewrite Hso by exact N; apply A5].
    rewrite Hsn. cbn [s_ph s_shadow]. intros [= _ ->]. reflexivity.
  - intros m. destruct (Z.eq_dec m n) as [->|N].
    + intros _. exists p, o. rewrite Hsn. split; [reflexivity|]. left. eexists _, _. unfold s'. slv.
      rewrite upd_if, Z.eqb_refl. reflexivity.
    + rewrite Hso by exact N. intros Hm. destruct (A6 m Hm) as [q [o' [Q1 Q2]]]. exists q, o'. split; [exact Q1|].
      unfold s'. slv. rewrite upd_if. destruct (Z.eqb_spec q p) as [->|]; [|exact Q2].
      exfalso. destruct Q2 as [[d [k Q2]]|Q2]; congruence.
  - intros m k Hk Hm. apply K in Hm. destruct Hm as [[N Hm]|[-> ->]].
    + rewrite Hso by exact N. apply (A7 m k Hk Hm).
    + rewrite Hsn. cbn [s_ph]. apply (A8 _ Hk Hnok Hnop).
  - intros k Hk B1 B2. rewrite EF.
    destruct (key_eqb (s_key (slots s n)) k) eqn:Ek.
    + apply key_eqb_spec in Ek. destruct (s_dirty (slots s n)) eqn:Ed; [|apply OldF; auto].
      exfalso. apply (B2 n). apply P. right. auto.
    + apply key_eqb_false in Ek. apply A8; auto.
      * intros m Hm. destruct (Z.eq_dec m n) as [->|N]; [auto|]. apply (B1 m). apply K. auto.
      * intros m Hm. destruct (Z.eq_dec m n) as [->|N]; [unfold pend in Hm; congruence|]. apply (B2 m). apply P. auto.
  - exact A9.
  - intros q. unfold s'. slv. rewrite upd_if. destruct (Z.eqb_spec q p) as [->|Nq].
    + cbn [pcok]. fold s'. split; [exact P1|]. split; [apply K; auto|]. rewrite Hsn. reflexivity.
    + apply (pcok_other s s' n [] (pcs s q)); auto.
      * unfold s'. slv. rewrite app_nil_r. reflexivity.
      * intros k Hk _. split; [apply EF|]. intros m [Hm|Hm].
        -- destruct (Z.eq_dec m n) as [->|N]; [|left; left; apply K; auto].
           destruct (s_dirty (slots s n)) eqn:Ed; [left; right; apply P; auto|right; apply OldF; auto].
        -- destruct (Z.eq_dec m n) as [->|N]; [unfold pend in Hm; congruence|]. left; right. apply P. auto.
      * pose proof (A10 q) as Hq. destruct (pcs s q) eqn:Eq; cbn [pcok not_touch] in *; auto.
        -- intros ->. exfalso. destruct Hq as [V1 V2]. pose proof (A1 n _ (valid_blk _ V1) V2) as E.
           assert (E2 : n / 4 = g) by (apply grp_div; exact P2).
           assert (In q (g_sh s g)) by (apply (l_gsh _ HL); rewrite Eq; cbn; congruence).
           rewrite (l_gxs _ HL g p Hg) in H0. exact H0.
        -- intros Hn. exfalso. assert (E2 : n / 4 = g) by (apply grp_div; exact P2).
           assert (E3 : n / 4 = grp (o_key o0)) by (apply grp_div; exact Hn).
           assert (g_ex s g = Some q) by (apply (l_gex _ HL); rewrite Eq; cbn; congruence). congruence.
        -- intros ->. exfalso. destruct Hq as [V1 V2]. pose proof (A1 n _ (valid_blk _ V1) V2) as E.
           assert (E2 : n / 4 = g) by (apply grp_div; exact P2).
           assert (g_ex s g = Some q) by (apply (l_gex _ HL); rewrite Eq; cbn; congruence). congruence.
        -- intros Hn. exfalso. assert (E2 : n / 4 = g) by (apply grp_div; exact P2).
           assert (E3 : n / 4 = grp (o_key o0)) by (apply grp_div; exact Hn).
           assert (g_ex s g = Some q) by (apply (l_gex _ HL); rewrite Eq; cbn; congruence). congruence.
        -- intros ->. exfalso. assert (s_ex (slots s n) = Some q) by (apply (l_ex _ HL); rewrite Eq; reflexivity). congruence.
        -- intros ->. exfalso. assert (s_ex (slots s n) = Some q) by (apply (l_ex _ HL); rewrite Eq; reflexivity). congruence.
        -- intros ->. exfalso. destruct ex.
           ++ assert (s_ex (slots s n) = Some q) by (apply (l_ex _ HL); rewrite Eq; reflexivity). congruence.
           ++ assert (Hi : In q (s_sh (slots s n))) by (apply (l_sh _ HL); rewrite Eq; reflexivity). rewrite Ec2 in Hi. exact Hi.
        -- intros ->. exfalso. assert (Hi : In q (s_sh (slots s n))) by (apply (l_sh _ HL); rewrite Eq; reflexivity).
           rewrite Ec2 in Hi. exact Hi.
  - exact A11.
Qed.


(** Others do not rely on a buffer that [p] holds exclusively, beyond its key. *)
Lemma excl_not_touch : forall s s' p n q, LInv s -> CInv s -> s_ex (slots s n) = Some p -> q <> p ->
  s_key (slots s' n) = s_key (slots s n) ->
  (forall k, 0 <= snd k -> pend s' n k -> pend s n k) ->
  not_touch s s' n (pcs s q).
Proof.
  intros s s' p n q HL HC Hx Hq Hk Hp. pose proof (c_pc _ HC q) as Hpc.
  destruct (pcs s q) eqn:Eq; cbn [not_touch pcok] in *; auto.
  - intros _. unfold kin. rewrite Hk. split; [auto|]. apply Hp. apply valid_blk. apply Hpc.
  - intros _. unfold kin. rewrite Hk. split; [auto|]. apply Hp. apply valid_blk. apply Hpc.
  - intros ->. assert (s_ex (slots s n) = Some q) by (apply (l_ex _ HL); rewrite Eq; reflexivity). congruence.
  - intros ->. assert (s_ex (slots s n) = Some q) by (apply (l_ex _ HL); rewrite Eq; reflexivity). congruence.
  - intros ->. exfalso. destruct ex.
    + assert (s_ex (slots s n) = Some q) by (apply (l_ex _ HL); rewrite Eq; reflexivity). congruence.
    + assert (Hi : In q (s_sh (slots s n))) by (apply (l_sh _ HL); rewrite Eq; reflexivity).
      rewrite (l_xs _ HL n p Hx) in Hi. exact Hi.
  - intros ->. exfalso. assert (Hi : In q (s_sh (slots s n))) by (apply (l_sh _ HL); rewrite Eq; reflexivity).
    rewrite (l_xs _ HL n p Hx) in Hi. exact Hi.
Qed.

Lemma busy_other : forall s p n (HL : LInv s) (HC : CInv s) m c, s_ex (slots s n) = Some p -> m <> n ->
  s_ph (slots s m) <> Ready -> exists q o, s_ex (slots s m) = Some q /\
             ((exists d k, upd (pcs s) p c q = Evict o m d k) \/ upd (pcs s) p c q = Load o m).
Proof.
  intros s p n HL HC m c Hx Hm Hr. destruct (c_busy _ HC m Hr) as [q [o [Q1 Q2]]]. exists q, o. split; [exact Q1|].
  rewrite upd_if. destruct (Z.eqb_spec q p) as [->|]; [|exact Q2].
  apply (l_ex _ HL) in Q1. apply (l_ex _ HL) in Hx. congruence.
Qed.

Lemma CInv_evict : forall s p o n d k, LInv s -> CInv s -> pcs s p = Evict o n d k ->
  CInv (step BS bpf G s (OStep p)).
Proof.
  intros s p o n d k HL H Ep. cbn [step]. rewrite Ep. pose proof H as [A1 A2 A3 A4 A5 A6 A7 A8 A9 A10 A11].
  pose proof (A10 p) as Hp. rewrite Ep in Hp. cbn [pcok] in Hp. destruct Hp as [P1 [P2 P3]].
  pose proof (valid_blk o P1) as Hblk.
  assert (Hx : s_ex (slots s n) = Some p) by (apply (l_ex _ HL); rewrite Ep; reflexivity).
  set (s' := set_pc _ p _).
  assert (Hso : forall m, m <> n -> slots s' m = slots s m).
  { intros m Hm. unfold s'. destruct d; slv; rewrite upd_if; (destruct (Z.eqb_spec m n); [congruence|reflexivity]). }
  assert (Hsn : slots s' n = mkSlot (s_key (slots s n)) (s_shadow (slots s n)) (s_use (slots s n)) (s_dirty (slots s n))
                  (s_data (slots s n)) (s_ex (slots s n)) (s_sh (slots s n)) PLd).
  { unfold s'. destruct d; slv; rewrite upd_if, Z.eqb_refl; reflexivity. }
  assert (Hf : forall k', d = false \/ k' <> k -> file s' k' = file s k').
  { intros k' Hk'. unfold s'. destruct d; slv; [|reflexivity]. apply kupd_other. destruct Hk'; [discriminate|auto]. }
  assert (Hl : log s' = log s) by (unfold s'; destruct d; reflexivity).
  assert (K : forall m k', kin s' m k' <-> kin s m k').
  { intros m k'. unfold kin. destruct (Z.eq_dec m n) as [->|N]; [rewrite Hsn; reflexivity|rewrite Hso by exact N; tauto]. }
  assert (P : forall m k', pend s' m k' <-> m <> n /\ pend s m k').
  { intros m k'. unfold pend. destruct (Z.eq_dec m n) as [->|N]; [rewrite Hsn; cbn; split; [discriminate|tauto]|].
    rewrite Hso by exact N. tauto. }
  assert (Fk : d = true -> 0 <= snd k -> F s' k).
  { intros -> Hk. destruct (A3 n k Hk P3) as [_ [B _]]. unfold F, abs, s'. slv. rewrite kupd_same. exact B. }
  assert (EF : forall k', 0 <= snd k' -> F s k' -> F s' k').
  { intros k' Hk' HF. destruct d.
    - destruct (key_eqb k' k) eqn:Ek; [apply key_eqb_spec in Ek; subst; auto|]. apply key_eqb_false in Ek.
      unfold F, abs. rewrite Hf by auto. rewrite Hl. exact HF.
    - unfold F, abs. rewrite Hf by auto. rewrite Hl. exact HF. }
  constructor.
  - intros m k'. rewrite K. apply A1.
  - intros m m' k'. rewrite !K. apply A2.
  - intros m k' Hk' Hm. apply P in Hm. destruct Hm as [N Hm]. destruct (A3 m k' Hk' Hm) as [B1 [B2 B3]].
    rewrite Hso by exact N. unfold abs. rewrite Hl. split; [exact B1|]. split; [exact B2|]. intros m'. rewrite K. apply B3.
  - intros m m' k' Hk' Hm Hm'. apply P in Hm, Hm'. eapply A4; [exact Hk'|apply Hm|apply Hm'].
  - intros m d' k'. destruct (Z.eq_dec m n) as [->|N]; [rewrite Hsn; discriminate|]. rewrite Hso by exact N. apply A5.
  - intros m Hm. destruct (Z.eq_dec m n) as [->|N].
    + exists p, o. rewrite Hsn. split; [exact Hx|]. right. unfold s'. destruct d; slv; rewrite upd_if, Z.eqb_refl; reflexivity.
    + rewrite Hso in * by exact N.
      replace (pcs s') with (upd (pcs s) p (Load o n)) by (unfold s'; destruct d; reflexivity).
      eapply busy_other; eauto.
  - intros m k' Hk'. rewrite K. intros Hm. specialize (A7 m k' Hk' Hm). destruct (Z.eq_dec m n) as [->|N].
    + rewrite Hsn. cbn [s_ph]. rewrite P3 in A7. apply EF; auto.
    + rewrite Hso by exact N. unfold abs in *. rewrite Hl. destruct (s_ph (slots s m)); auto.
      destruct A7 as [B1 B2]. split; auto.
  - intros k' Hk' B1 B2. destruct d.
    + destruct (key_eqb k' k) eqn:Ek; [apply key_eqb_spec in Ek; subst; auto|]. apply key_eqb_false in Ek.
      apply EF; auto. apply A8; auto; intros m Hm; [apply (B1 m); apply K; exact Hm|].
      apply (B2 m). apply P. split; [|exact Hm]. intros ->. unfold pend in Hm. congruence.
    + apply EF; auto. apply A8; auto; intros m Hm; [apply (B1 m); apply K; exact Hm|].
      apply (B2 m). apply P. split; [|exact Hm]. intros ->. unfold pend in Hm. congruence.
  - intros k' Hk' j. unfold s' in *. destruct d; slv; [|apply A9; exact Hk'].
    unfold kupd in Hk' at 1. destruct (key_eqb (fileof bpf k') (fileof bpf k)) eqn:Ek; [discriminate|].
    rewrite kupd_other; [apply A9; exact Hk'|]. intros ->. rewrite key_eqb_refl in Ek. discriminate.
  - intros q. replace (pcs s') with (upd (pcs s) p (Load o n)) by (unfold s'; destruct d; reflexivity).
    rewrite upd_if. destruct (Z.eqb_spec q p) as [->|Nq].
    + cbn [pcok]. rewrite K, Hsn. auto.
    + apply (pcok_other s s' n [] (pcs s q)); auto.
      * rewrite Hl, app_nil_r. reflexivity.
      * intros k' Hk' _. split; [apply EF; exact Hk'|]. intros m [Hm|Hm]; [left; left; apply K; exact Hm|].
        destruct (Z.eq_dec m n) as [->|N]; [|left; right; apply P; auto].
        right. unfold pend in Hm. rewrite P3 in Hm. injection Hm as -> ->. auto.
      * intros m Hm _ Ha. destruct d; [|rewrite Hf by auto; exact Ha].
        rewrite Hf; [exact Ha|]. right. intros E. rewrite E in Hm. destruct (A3 n k Hm P3) as [_ [_ B]]. apply (B m). exact E.
      * eapply excl_not_touch; eauto; [rewrite Hsn; reflexivity|].
        intros k' Hk' Hm. apply P in Hm. tauto.
  - rewrite Hl. exact A11.
Qed.

Lemma CInv_load : forall s p o n, LInv s -> CInv s -> pcs s p = Load o n ->
  step_ok BS bpf s (OStep p) -> CInv (step BS bpf G s (OStep p)).
Proof.
  intros s p o n HL H Ep Hok. cbn [step step_ok] in *. rewrite Ep in *. pose proof H as [A1 A2 A3 A4 A5 A6 A7 A8 A9 A10 A11].
  pose proof (A10 p) as Hp. rewrite Ep in Hp. cbn [pcok] in Hp. destruct Hp as [P1 [P2 P3]].
  pose proof (valid_blk o P1) as Hblk.
  assert (Hx : s_ex (slots s n) = Some p) by (apply (l_ex _ HL); rewrite Ep; reflexivity).
  assert (HF : F s (o_key o)).
  { specialize (A7 n _ Hblk P2). rewrite P3 in A7. exact A7. }
  destruct (o_mok o && negb (fex s (fileof bpf (o_key o)))) eqn:Em.
  - apply andb_true_iff in Em. destruct Em as [Em1 Em2]. apply negb_true_iff in Em2. specialize (Hok Em1 Em2).
    set (s' := set_pc _ p _).
    apply CInv_log; [|reflexivity|].
    2:{ cbn [event_ok]. change (log s') with (log s). intros j Hj.
      transitivity (file s (o_key o) j); [symmetry; exact (HF j Hj)|apply A9; exact Em2]. }
    assert (Hso : forall m, m <> n -> slots s' m = slots s m).
    { intros m Hm. unfold s'. slv. rewrite upd_if. destruct (Z.eqb_spec m n); [congruence|reflexivity]. }
    assert (Hsn : slots s' n = mkSlot (fst (s_key (slots s n)), -1) (fst (s_shadow (slots s n)), -1) (s_use (slots s n))
                                      (s_dirty (slots s n)) (fun _ => 0) None (s_sh (slots s n)) Ready).
    { unfold s'. slv. rewrite upd_if, Z.eqb_refl. reflexivity. }
    assert (K : forall m k, 0 <= snd k -> kin s' m k <-> m <> n /\ kin s m k).
    { intros m k Hk. unfold kin. destruct (Z.eq_dec m n) as [->|N].
      - rewrite Hsn. cbn. split; [intros <-; cbn in Hk; lia|tauto].
      - rewrite Hso by exact N. tauto. }
    assert (P : forall m k, pend s' m k <-> pend s m k).
    { intros m k. unfold pend. destruct (Z.eq_dec m n) as [->|N]; [rewrite Hsn, P3; cbn; split; discriminate|].
      rewrite Hso by exact N. tauto. }
    assert (EF : forall k, F s' k <-> F s k) by (intros; reflexivity).
    constructor.
    + intros m k Hk. rewrite K by exact Hk. intros [_ Hm]. apply A1; auto.
    + intros m m' k Hk. rewrite !K by exact Hk. intros [_ Hm] [_ Hm']. eapply A2; eauto.
    + intros m k Hk. rewrite P. intros Hm. destruct (A3 m k Hk Hm) as [B1 [B2 B3]].
      assert (N : m <> n) by (intros ->; unfold pend in Hm; congruence).
      rewrite Hso by exact N. split; [exact B1|]. split; [exact B2|]. intros m'. rewrite K by exact Hk. intros [_ B]. eapply B3; eauto.
    + intros m m' k Hk. rewrite !P. apply A4. exact Hk.
    + intros m d k. destruct (Z.eq_dec m n) as [->|N]; [rewrite Hsn; discriminate|]. rewrite Hso by exact N. apply A5.
    + intros m Hm. destruct (Z.eq_dec m n) as [->|N]; [rewrite Hsn in Hm; cbn in Hm; congruence|].
      rewrite Hso in * by exact N. change (pcs s') with (upd (pcs s) p Idle). eapply busy_other; eauto.
    + intros m k Hk. rewrite K by exact Hk. intros [N Hm]. rewrite Hso by exact N. apply (A7 m k Hk Hm).
    + intros k Hk B1 B2. rewrite EF. destruct (key_eqb k (o_key o)) eqn:Ek; [apply key_eqb_spec in Ek; subst; exact HF|].
      apply key_eqb_false in Ek. apply A8; auto; intros m Hm.
      * apply (B1 m). apply K; [exact Hk|]. split; [|exact Hm]. intros ->. unfold kin in *. congruence.
      * apply (B2 m). apply P. exact Hm.
    + exact A9.
    + intros q. change (pcs s') with (upd (pcs s) p Idle). rewrite upd_if. destruct (Z.eqb_spec q p) as [->|Nq]; [exact I|].
      apply (pcok_other s s' n [] (pcs s q)); auto.
      * unfold s'. slv. rewrite app_nil_r. reflexivity.
      * intros k Hk _. split; [apply EF|]. intros m [Hm|Hm].
        -- destruct (Z.eq_dec m n) as [->|N]; [right; unfold kin in *; rewrite EF; replace k with (o_key o) by congruence; exact HF|].
           left; left. apply K; auto.
        -- left; right. apply P. exact Hm.
      * pose proof (A10 q) as Hq. destruct (Hok q o) as [_ _]. destruct (pcs s q) eqn:Eq; cbn [pcok not_touch] in *; auto.
        -- intros ->. exfalso. destruct (Hok q o0) as [X _]. congruence.
        -- intros _. rewrite P. split; [|auto]. rewrite K by (apply valid_blk; apply Hq). tauto.
        -- intros ->. exfalso. destruct (Hok q o0) as [_ X]. congruence.
        -- intros _. rewrite P. split; [|auto]. rewrite K by (apply valid_blk; apply Hq). tauto.
        -- intros ->. assert (s_ex (slots s n) = Some q) by (apply (l_ex _ HL); rewrite Eq; reflexivity). congruence.
        -- intros ->. assert (s_ex (slots s n) = Some q) by (apply (l_ex _ HL); rewrite Eq; reflexivity). congruence.
        -- intros ->. exfalso. destruct ex.
           ++ assert (s_ex (slots s n) = Some q) by (apply (l_ex _ HL); rewrite Eq; reflexivity). congruence.
           ++ assert (Hi : In q (s_sh (slots s n))) by (apply (l_sh _ HL); rewrite Eq; reflexivity).
              rewrite (l_xs _ HL n p Hx) in Hi. exact Hi.
        -- intros ->. exfalso. assert (Hi : In q (s_sh (slots s n))) by (apply (l_sh _ HL); rewrite Eq; reflexivity).
           rewrite (l_xs _ HL n p Hx) in Hi. exact Hi.
    + exact A11.
  - set (s' := set_pc _ p _).
    assert (Hso : forall m, m <> n -> slots s' m = slots s m).
    { intros m Hm. unfold s'. slv. rewrite upd_if. destruct (Z.eqb_spec m n); [congruence|reflexivity]. }
    assert (Hsn : slots s' n = mkSlot (s_key (slots s n)) (fst (s_shadow (slots s n)), -1) (s_use (slots s n))
                                      (s_dirty (slots s n)) (file s (o_key o)) (s_ex (slots s n)) (s_sh (slots s n)) Ready).
    { unfold s'. slv. rewrite upd_if, Z.eqb_refl. reflexivity. }
    assert (K : forall m k, kin s' m k <-> kin s m k).
    { intros m k. unfold kin. destruct (Z.eq_dec m n) as [->|N]; [rewrite Hsn; reflexivity|rewrite Hso by exact N; tauto]. }
    assert (P : forall m k, pend s' m k <-> pend s m k).
    { intros m k. unfold pend. destruct (Z.eq_dec m n) as [->|N]; [rewrite Hsn, P3; cbn; split; discriminate|].
      rewrite Hso by exact N. tauto. }
    assert (EF : forall k, F s' k <-> F s k) by (intros; reflexivity).
    constructor.
    + intros m k. rewrite K. apply A1.
    + intros m m' k. rewrite !K. apply A2.
    + intros m k Hk. rewrite P. intros Hm. destruct (A3 m k Hk Hm) as [B1 [B2 B3]].
      assert (N : m <> n) by (intros ->; unfold pend in Hm; congruence).
      rewrite Hso by exact N. split; [exact B1|]. split; [exact B2|]. intros m'. rewrite K. apply B3.
    + intros m m' k. rewrite !P. apply A4.
    + intros m d k. destruct (Z.eq_dec m n) as [->|N]; [rewrite Hsn; discriminate|]. rewrite Hso by exact N. apply A5.
    + intros m Hm. destruct (Z.eq_dec m n) as [->|N]; [rewrite Hsn in Hm; cbn in Hm; congruence|].
      rewrite Hso in * by exact N. change (pcs s') with (upd (pcs s) p (Have o n true)). eapply busy_other; eauto.
    + intros m k Hk. rewrite K. intros Hm. destruct (Z.eq_dec m n) as [->|N].
      * rewrite Hsn. cbn [s_ph s_data]. assert (k = o_key o) by (unfold kin in *; congruence). subst k.
        split; [exact HF|]. intros _. exact HF.
      * rewrite Hso by exact N. apply (A7 m k Hk Hm).
    + intros k Hk B1 B2. rewrite EF. apply A8; auto; intros m Hm; [apply (B1 m); apply K|apply (B2 m); apply P]; exact Hm.
    + intros k Hk j. unfold s' in *. slv. apply A9.
      unfold kupd in Hk. destruct (key_eqb (fileof bpf k) (fileof bpf (o_key o))); [discriminate|exact Hk].
    + intros q. change (pcs s') with (upd (pcs s) p (Have o n true)). rewrite upd_if. destruct (Z.eqb_spec q p) as [->|Nq].
      * cbn [pcok]. rewrite K, Hsn. auto.
      * apply (pcok_other s s' n [] (pcs s q)); auto.
        -- unfold s'. slv. rewrite app_nil_r. reflexivity.
        -- intros k Hk _. split; [apply EF|]. intros m. rewrite K, P. auto.
        -- eapply excl_not_touch; eauto; [rewrite Hsn; reflexivity|]. intros k _. rewrite P. auto.
    + exact A11.
Qed.

Lemma put_agree : forall a b off len d, agree a b -> agree (put a off len d) (put b off len d).
Proof. intros a b off len d H j Hj. unfold put. destruct ((off <=? j) && (j <? off + len)); auto. Qed.

Lemma CInv_have_write : forall s p o n ex, LInv s -> CInv s -> pcs s p = Have o n ex -> o_write o = true ->
  step_ok BS bpf s (OStep p) -> CInv (step BS bpf G s (OStep p)).
Proof.
  intros s p o n ex HL H Ep Ew Hok. cbn [step step_ok] in *. rewrite Ep in *. rewrite Ew.
  pose proof H as [A1 A2 A3 A4 A5 A6 A7 A8 A9 A10 A11].
  pose proof (A10 p) as Hp. rewrite Ep in Hp. cbn [pcok] in Hp. destruct Hp as [P1 [P2 [P3 P4]]].
  rewrite (P4 Ew) in *. specialize (Hok Ew).
  pose proof (valid_blk o P1) as Hblk.
  assert (Hx : s_ex (slots s n) = Some p) by (apply (l_ex _ HL); rewrite Ep; reflexivity).
  set (dat := put (s_data (slots s n)) (o_off o) (o_len o) (o_dat o)) in *.
  set (s' := add_log _ _).
  assert (Hso : forall m, m <> n -> slots s' m = slots s m).
  { intros m Hm. unfold s'. slv. rewrite upd_if. destruct (Z.eqb_spec m n); [congruence|reflexivity]. }
  assert (Hsn : slots s' n = mkSlot (s_key (slots s n)) (s_shadow (slots s n)) (s_use (slots s n)) (negb (o_clean o))
                  dat None (s_sh (slots s n)) (s_ph (slots s n))).
  { unfold s'. slv. rewrite upd_if, Z.eqb_refl. reflexivity. }
  assert (K : forall m k, kin s' m k <-> kin s m k).
  { intros m k. unfold kin. destruct (Z.eq_dec m n) as [->|N]; [rewrite Hsn; reflexivity|rewrite Hso by exact N; tauto]. }
  assert (P : forall m k, pend s' m k <-> pend s m k).
  { intros m k. unfold pend. destruct (Z.eq_dec m n) as [->|N]; [rewrite Hsn; reflexivity|rewrite Hso by exact N; tauto]. }
  assert (EA : forall k, abs s' k = if key_eqb k (o_key o) then put (abs s (o_key o)) (o_off o) (o_len o) (o_dat o) else abs s k).
  { intros k. unfold abs, s'. slv. rewrite content_app. cbn [apply_ev]. unfold kupd. reflexivity. }
  assert (Hnp : forall m, ~ pend s m (o_key o)).
  { intros m Hm. destruct (A3 m _ Hblk Hm) as [_ [_ B]]. apply (B n P2). }
  pose proof (A7 n _ Hblk P2) as Hd. rewrite P3 in Hd. destruct Hd as [Hd _].
  assert (EF : forall k, k <> o_key o -> F s' k <-> F s k).
  { intros k Hk. unfold F. rewrite EA. apply key_eqb_false in Hk. rewrite Hk. reflexivity. }
  constructor.
  - intros m k. rewrite K. apply A1.
  - intros m m' k. rewrite !K. apply A2.
  - intros m k Hk. rewrite P. intros Hm. destruct (A3 m k Hk Hm) as [B1 [B2 B3]].
    assert (N : m <> n) by (intros ->; unfold pend in Hm; congruence).
    rewrite Hso by exact N. split; [exact B1|]. split.
    + rewrite EA. destruct (key_eqb k (o_key o)) eqn:Ek; [|exact B2]. apply key_eqb_spec in Ek. subst. exfalso. eapply Hnp; eauto.
    + intros m'. rewrite K. apply B3.
  - intros m m' k. rewrite !P. apply A4.
  - intros m d k. destruct (Z.eq_dec m n) as [->|N]; [rewrite Hsn; cbn; congruence|]. rewrite Hso by exact N. apply A5.
  - intros m Hm. destruct (Z.eq_dec m n) as [->|N]; [rewrite Hsn in Hm; cbn in Hm; congruence|].
    rewrite Hso in * by exact N. change (pcs s') with (upd (pcs s) p Idle). eapply busy_other; eauto.
  - intros m k Hk. rewrite K. intros Hm. destruct (Z.eq_dec m n) as [->|N].
    + assert (k = o_key o) by (unfold kin in *; congruence). subst k.
      rewrite Hsn. cbn [s_ph s_data s_dirty]. rewrite P3. rewrite EA, key_eqb_refl. split; [apply put_agree; exact Hd|].
      intros Hc. unfold F. rewrite EA, key_eqb_refl. change (file s' (o_key o)) with (file s (o_key o)).
      apply negb_false_iff in Hc. apply agree_trans with dat; [apply agree_sym; auto|]. apply put_agree. exact Hd.
    + assert (Nk : k <> o_key o) by (intros ->; apply N; eapply A2; eauto).
      rewrite Hso by exact N. specialize (A7 m k Hk Hm). rewrite EA. pose proof Nk as Nk'. apply key_eqb_false in Nk'.
      rewrite Nk'. destruct (s_ph (slots s m)); rewrite EF by exact Nk; exact A7.
  - intros k Hk B1 B2. assert (Nk : k <> o_key o) by (intros ->; apply (B1 n); apply K; exact P2).
    rewrite EF by exact Nk. apply A8; auto; intros m Hm; [apply (B1 m); apply K|apply (B2 m); apply P]; exact Hm.
  - exact A9.
  - intros q. change (pcs s') with (upd (pcs s) p Idle). rewrite upd_if. destruct (Z.eqb_spec q p) as [->|Nq]; [exact I|].
    apply (pcok_other s s' n [EvWrite p (o_key o) (o_off o) (o_len o) (o_dat o)] (pcs s q)); auto.
    + intros k Hk Hnw. unfold nowrite in Hnw. cbn in Hnw. rewrite andb_true_r in Hnw. apply negb_true_iff in Hnw.
      apply key_eqb_false in Hnw. split; [apply EF; congruence|]. intros m. rewrite K, P. auto.
    + eapply excl_not_touch; eauto; [rewrite Hsn; reflexivity|]. intros k _. rewrite P. auto.
  - apply consistent_app; [exact A11|exact I].
Qed.


Lemma shared_ready : forall s p n, LInv s -> CInv s -> own_sh (pcs s p) = Some n -> s_ex (slots s n) = None /\ s_ph (slots s n) = Ready.
Proof.
  intros s p n HL HC Ho. assert (Hi : In p (s_sh (slots s n))) by (apply (l_sh _ HL); exact Ho).
  assert (Hx : s_ex (slots s n) = None).
  { destruct (s_ex (slots s n)) as [q|] eqn:E; [|reflexivity]. rewrite (l_xs _ HL n q E) in Hi. contradiction. }
  split; [exact Hx|]. apply free_ready; auto.
Qed.

Lemma CInv_fio : forall s p n t a b n0, LInv s -> CInv s -> pcs s p = FIO n t a b n0 ->
  CInv (step BS bpf G s (OStep p)).
Proof.
  intros s p n t a b n0 HL H Ep. cbn [step]. rewrite Ep.
  pose proof H as [A1 A2 A3 A4 A5 A6 A7 A8 A9 A10 A11].
  pose proof (A10 p) as Hp. rewrite Ep in Hp. cbn [pcok] in Hp. destruct Hp as [P1 [P2 P3]].
  destruct (shared_ready s p n HL H ltac:(rewrite Ep; reflexivity)) as [Hx Hr].
  destruct (s_dirty (slots s n) && (fst (s_key (slots s n)) =? t) && (a <=? snd (s_key (slots s n))) &&
                (snd (s_key (slots s n)) <=? b)) eqn:Ed.
  - set (kk := s_key (slots s n)) in *. set (s' := set_pc _ p _).
    assert (Hl : log s' = log s) by reflexivity.
    assert (Fk : 0 <= snd kk -> F s' kk).
    { intros Hk. specialize (A7 n kk Hk eq_refl). rewrite Hr in A7. unfold F, abs, s'. slv. rewrite kupd_same. apply A7. }
    assert (EF : forall k, 0 <= snd k -> F s k -> F s' k).
    { intros k Hk HF. destruct (key_eqb k kk) eqn:Ek; [apply key_eqb_spec in Ek; subst; auto|]. apply key_eqb_false in Ek.
      unfold F, abs, s'. slv. rewrite kupd_other by exact Ek. exact HF. }
    constructor; auto.
    + intros m Hm. destruct (A6 m Hm) as [q [o [Q1 Q2]]]. exists q, o. split; [exact Q1|].
      unfold s'. slv. rewrite upd_if. destruct (Z.eqb_spec q p) as [->|]; [|exact Q2].
      exfalso. destruct Q2 as [[d [k Q2]]|Q2]; congruence.
    + intros m k Hk Hm. specialize (A7 m k Hk Hm). change (slots s') with (slots s).
      destruct (s_ph (slots s m)); auto. destruct A7 as [B1 B2]. split; auto.
    + intros k Hk j. unfold s' in *. slv.
      unfold kupd in Hk at 1. destruct (key_eqb (fileof bpf k) (fileof bpf kk)) eqn:Ek; [discriminate|].
      rewrite kupd_other; [apply A9; exact Hk|]. intros ->. rewrite key_eqb_refl in Ek. discriminate.
    + intros q. change (pcs s') with (upd (pcs s) p (FClr n t a b n0 true)). rewrite upd_if.
      destruct (Z.eqb_spec q p) as [->|Nq].
      * cbn [pcok]. split; [exact P1|]. split.
        -- split; [exact P2|]. intros k B1 B2 B3 B4. destruct (P3 k B1 B2 B3 B4) as [C|[m [M1 M2]]]; [left; apply EF; auto|].
           destruct (Z.eq_dec m n) as [->|N]; [|right; exists m; split; [lia|exact M2]].
           left. destruct M2 as [M2|M2]; [|unfold pend in M2; congruence]. unfold kin in M2. fold kk in M2. subst k. auto.
        -- intros _ _. change (slots s') with (slots s). fold kk. unfold s'. slv. rewrite kupd_same. apply agree_refl.
      * apply (pcok_other s s' n [] (pcs s q)); auto.
        -- rewrite Hl, app_nil_r. reflexivity.
        -- intros m Hm _ Ha. unfold s'. slv. destruct (key_eqb (s_key (slots s m)) kk) eqn:Ek.
           ++ apply key_eqb_spec in Ek. rewrite Ek, kupd_same. replace m with n; [apply agree_refl|].
              eapply A2; [rewrite Ek in Hm; exact Hm| |exact Ek]. reflexivity.
           ++ apply key_eqb_false in Ek. rewrite kupd_other by exact Ek. exact Ha.
        -- destruct (pcs s q); cbn [not_touch]; auto.
  - apply (CInv_core s _ p (FClr n t a b n0 false)); auto.
    + split; [|auto]. intros m. auto.
    + cbn [pcok]. split; [exact P1|]. split; [|discriminate].
      split; [exact P2|]. intros k B1 B2 B3 B4. destruct (P3 k B1 B2 B3 B4) as [C|[m [M1 M2]]]; [left; exact C|].
      destruct (Z.eq_dec m n) as [->|N]; [|right; exists m; split; [lia|exact M2]].
      left. destruct M2 as [M2|M2]; [|unfold pend in M2; congruence].
      specialize (A7 n k B3 M2). rewrite Hr in A7. unfold kin in M2. rewrite M2 in Ed. apply A7. 
      destruct (s_dirty (slots s n)); [lia|reflexivity].
    + rewrite Ep. exact I.
Qed.

Lemma CInv_fclr : forall s p n t a b n0 w, LInv s -> CInv s -> pcs s p = FClr n t a b n0 w ->
  CInv (step BS bpf G s (OStep p)).
Proof.
  intros s p n t a b n0 w HL H Ep. cbn [step]. rewrite Ep.
  pose proof H as [A1 A2 A3 A4 A5 A6 A7 A8 A9 A10 A11].
  pose proof (A10 p) as Hp. rewrite Ep in Hp. cbn [pcok] in Hp. destruct Hp as [P1 [P2 P3]].
  destruct (shared_ready s p n HL H ltac:(rewrite Ep; reflexivity)) as [Hx Hr].
  set (s' := set_pc _ p _).
  assert (Hso : forall m, m <> n -> slots s' m = slots s m).
  { intros m Hm. unfold s'. slv. rewrite upd_if. destruct (Z.eqb_spec m n); [congruence|reflexivity]. }
  assert (Hsn : slots s' n = mkSlot (s_key (slots s n)) (s_shadow (slots s n)) (s_use (slots s n))
                  (if w then false else s_dirty (slots s n)) (s_data (slots s n)) (s_ex (slots s n))
                  (without p (s_sh (slots s n))) (s_ph (slots s n))).
  { unfold s'. slv. rewrite upd_if, Z.eqb_refl. destruct w; reflexivity. }
  assert (K : forall m k, kin s' m k <-> kin s m k).
  { intros m k. unfold kin. destruct (Z.eq_dec m n) as [->|N]; [rewrite Hsn; reflexivity|rewrite Hso by exact N; tauto]. }
  assert (P : forall m k, pend s' m k <-> pend s m k).
  { intros m k. unfold pend. destruct (Z.eq_dec m n) as [->|N]; [rewrite Hsn; reflexivity|rewrite Hso by exact N; tauto]. }
  assert (EF : forall k, F s' k <-> F s k) by (intros; reflexivity).
  constructor.
  - intros m k. rewrite K. apply A1.
  - intros m m' k. rewrite !K. apply A2.
  - intros m k Hk. rewrite P. intros Hm. destruct (A3 m k Hk Hm) as [B1 [B2 B3]].
    assert (N : m <> n) by (intros ->; unfold pend in Hm; congruence).
    rewrite Hso by exact N. split; [exact B1|]. split; [exact B2|]. intros m'. rewrite K. apply B3.
  - intros m m' k. rewrite !P. apply A4.
  - intros m d k. destruct (Z.eq_dec m n) as [->|N]; [rewrite Hsn; cbn; congruence|]. rewrite Hso by exact N. apply A5.
  - intros m Hm. destruct (Z.eq_dec m n) as [->|N]; [rewrite Hsn in Hm; cbn in Hm; congruence|].
    rewrite Hso in * by exact N. destruct (A6 m Hm) as [q [o [Q1 Q2]]]. exists q, o. split; [exact Q1|].
    unfold s'. slv. rewrite upd_if. destruct (Z.eqb_spec q p) as [->|]; [|exact Q2].
    exfalso. destruct Q2 as [[d [k Q2]]|Q2]; congruence.
  - intros m k Hk. rewrite K. intros Hm. specialize (A7 m k Hk Hm). destruct (Z.eq_dec m n) as [->|N].
    + rewrite Hsn. cbn [s_ph s_data s_dirty]. rewrite Hr in *. destruct A7 as [B1 B2]. split; [exact B1|].
      destruct w; [|exact B2]. intros _. unfold kin in Hm. rewrite <- Hm in *. specialize (P3 eq_refl Hk).
      rewrite EF. eapply agree_trans; [exact P3|exact B1].
    + rewrite Hso by exact N. exact A7.
  - intros k Hk B1 B2. rewrite EF. apply A8; auto; intros m Hm; [apply (B1 m); apply K|apply (B2 m); apply P]; exact Hm.
  - exact A9.
  - intros q. change (pcs s') with (upd (pcs s) p (FAcq (n + 1) t a b n0)). rewrite upd_if.
    assert (T : forall c, not_touch s s' n c -> pcok s c -> pcok s' c).
    { intros c. apply (pcok_other s s' n [] c); auto.
      - unfold s'. slv. rewrite app_nil_r. reflexivity.
      - intros k Hk _. split; [apply EF|]. intros m. rewrite K, P. auto. }
    destruct (Z.eqb_spec q p) as [->|Nq].
    + apply T; [exact I|]. cbn [pcok]. split; [lia|exact P2].
    + apply T; auto. destruct (pcs s q); cbn [not_touch]; auto; rewrite ?Hsn, ?K, ?P; auto.
  - exact A11.
Qed.

Lemma find_slot_some : forall s k n, find_slot G s k = Some n -> kin s n k.
Proof.
  intros s k n H. unfold find_slot in H. apply find_some in H. destruct H as [_ H]. apply key_eqb_spec in H. exact H.
Qed.

Lemma find_slot_none : forall s k, find_slot G s k = None -> forall n, n / 4 = grp k -> ~ kin s n k.
Proof.
  intros s k H n Hn Hk. unfold find_slot in H. pose proof (find_none _ _ H n) as X. cbn [In] in X.
  apply grp_div in Hn. unfold kin in Hk.
  assert (Y : key_eqb (s_key (slots s n)) k = true) by (apply key_eqb_spec; exact Hk).
  rewrite X in Y; [discriminate|]. lia.
Qed.

Lemma grp_range : forall k, 0 <= grp k < G.
Proof. intros. unfold OBufModel.grp. apply Z.mod_pos_bound. exact HG. Qed.

Theorem CInv_step : forall s x, LInv s -> CInv s -> step_ok BS bpf s x -> CInv (step BS bpf G s x).
Proof.
  intros s x HL H Hok. pose proof H as [A1 A2 A3 A4 A5 A6 A7 A8 A9 A10 A11].
  destruct x as [p o|p t a b|p k d|p].
  - cbn [step]. destruct (pcs s p) eqn:Ep; auto. destruct (valid_op BS o) eqn:Ev; auto.
    apply (CInv_core s _ p (Lookup o)); auto; [split; auto|rewrite Ep; exact I].
  - cbn [step]. destruct (pcs s p) eqn:Ep; auto.
    apply (CInv_core s _ p (FAcq 0 t a b (Z.of_nat (length (log s))))); auto; [split; auto| |rewrite Ep; exact I].
    cbn [pcok]. split; [lia|]. split; [cbn [log set_pc]; lia|]. intros k B1 B2 B3 B4.
    destruct (find_slot G s k) as [n|] eqn:Ef.
    + right. exists n. apply find_slot_some in Ef. split; [|left; exact Ef].
      pose proof (A1 n k B3 Ef) as E. apply grp_div in E. pose proof (grp_range k). lia.
    + pose proof (find_slot_none s k Ef) as Nk.
      assert (NK : forall n, ~ kin s n k) by (intros n Hn; apply (Nk n); [apply A1; auto|exact Hn]).
      pose proof (grp_range k) as Hg.
      destruct (find (fun n => match s_ph (slots s n) with PEv true k' => key_eqb k' k | _ => false end)
                  [4 * grp k; 4 * grp k + 1; 4 * grp k + 2; 4 * grp k + 3]) as [n|] eqn:Eq.
      * right. exists n. apply find_some in Eq. destruct Eq as [E1 E2]. cbn [In] in E1. split; [lia|]. right. unfold pend.
        change (slots (set_pc s p (FAcq 0 t a b (Z.of_nat (length (log s)))))) with (slots s).
        destruct (s_ph (slots s n)) as [|[] k'|]; try discriminate. apply key_eqb_spec in E2. congruence.
      * left. apply (A8 k B3 NK). intros n Hn. destruct (A3 n k B3 Hn) as [E _]. apply grp_div in E.
        pose proof (find_none _ _ Eq n) as X. cbn [In] in X. unfold pend in Hn. rewrite Hn, key_eqb_refl in X.
        assert (true = false) by (apply X; lia). discriminate.
  - contradiction.
  - destruct (pcs s p) eqn:Ep.
    + cbn [step]. rewrite Ep. exact H.
    + (* Lookup *)
      cbn [step]. rewrite Ep. pose proof (A10 p) as Hp. rewrite Ep in Hp. cbn [pcok] in Hp.
      destruct (g_ex s (grp (o_key o))) eqn:Eg; auto. destruct (find_slot G s (o_key o)) as [n|] eqn:Ef.
      * apply (CInv_core s _ p (WaitS o n)); auto; [split; auto| |rewrite Ep; exact I].
        cbn [pcok]. split; [exact Hp|]. apply (find_slot_some s). exact Ef.
      * apply (CInv_core s _ p (Excl o)); auto; [split; auto|rewrite Ep; exact I].
    + (* WaitS *)
      cbn [step]. rewrite Ep. pose proof (A10 p) as Hp. rewrite Ep in Hp. cbn [pcok] in Hp.
      destruct (can_lock (slots s n) (o_write o)) eqn:Ec; auto.
      assert (Core : same_core s (set_pc (set_gsh (set_slot s n (set_use (lock (slots s n) (o_write o) p) (s_use (slots s n) + 1)))
                               (grp (o_key o)) (without p (g_sh s (grp (o_key o))))) p (Have o n (o_write o)))).
      { split; [|auto]. intros m. slv. rewrite upd_if. destruct (Z.eqb_spec m n) as [->|]; [|auto].
        destruct (o_write o); slv; auto. }
      apply can_lock_free in Ec. destruct Ec as [Ec1 Ec2].
      eapply (CInv_core s _ p (Have o n (o_write o))); eauto; [ |rewrite Ep; exact I|].
      * eapply pcok_core; [exact Core|]. cbn [pcok]. destruct Hp as [B1 B2]. repeat split; auto. apply free_ready; auto.
      * intros m q. slv. rewrite upd_if. destruct (Z.eqb_spec m n) as [->|]; [congruence|auto].
    + (* Excl *)
      cbn [step]. rewrite Ep. pose proof (A10 p) as Hp. rewrite Ep in Hp. cbn [pcok] in Hp.
      destruct (g_ex s (grp (o_key o))) eqn:Eg; auto. destruct (g_sh s (grp (o_key o))) eqn:Eh; auto.
      eapply (CInv_core s _ p (Search o (4 * grp (o_key o)) (4 * grp (o_key o)) 0)); auto; [split; auto| |rewrite Ep; exact I].
      cbn [pcok]. split; [exact Hp|]. split; [lia|]. split; [lia|]. intros m Hm. lia.
    + (* Search *)
      cbn [step]. rewrite Ep. pose proof (A10 p) as Hp. rewrite Ep in Hp. cbn [pcok] in Hp. destruct Hp as [V [P2 [P3 P4]]].
      destruct (n =? 4 * grp (o_key o) + 4) eqn:En.
      { apply (CInv_core s _ p (Victim o vic)); auto; [split; auto| |rewrite Ep; exact I].
        cbn [pcok]. split; [exact V|]. split; [lia|]. intros m Hm. apply P4. lia. }
      destruct (key_eqb (s_key (slots s n)) (o_key o)) eqn:Ek.
      { apply (CInv_core s _ p (WaitX o n)); auto; [split; auto| |rewrite Ep; exact I].
        cbn [pcok]. split; [exact V|]. apply key_eqb_spec in Ek. exact Ek. }
      destruct (key_eqb (s_shadow (slots s n)) (o_key o) && negb (can_lock (slots s n) false)) eqn:Es; auto.
      set (pick := (n =? 4 * grp (o_key o)) || (s_use (slots s n) <? vuse)).
      set (c := Search o (n + 1) (if pick then n else vic) (if pick then s_use (slots s n) else vuse)).
      assert (Core : same_core s (set_pc (set_slot s n (set_use (slots s n) (s_use (slots s n) / 2))) p c)).
      { split; [|auto]. intros m. slv. rewrite upd_if. destruct (Z.eqb_spec m n) as [->|]; slv; auto. }
      eapply (CInv_core s _ p c); eauto; [ |rewrite Ep; exact I|].
      * eapply pcok_core; [exact Core|]. unfold c. cbn [pcok]. split; [exact V|]. split; [lia|].
        split; [destruct pick eqn:Epk; unfold pick in Epk; lia|]. intros m Hm. destruct (Z.eq_dec m n) as [->|N]; [|apply P4; lia].
        split; [intros X; apply key_eqb_false in Ek; auto|]. intros X.
        pose proof (A5 n true (o_key o) X) as Esh.
        destruct (A6 n ltac:(unfold pend in X; congruence)) as [q [o' [Q1 _]]].
        rewrite Esh, key_eqb_refl in Es. unfold can_lock in Es. rewrite Q1 in Es. discriminate.
      * intros m q. slv. rewrite upd_if. destruct (Z.eqb_spec m n) as [->|]; slv; auto.
    + (* WaitX *)
      cbn [step]. rewrite Ep. pose proof (A10 p) as Hp. rewrite Ep in Hp. cbn [pcok] in Hp.
      destruct (can_lock (slots s n) (o_write o)) eqn:Ec; auto.
      assert (Core : same_core s (set_pc (set_gex (set_slot s n (set_use (lock (slots s n) (o_write o) p) (s_use (slots s n) + 1)))
                               (grp (o_key o)) None) p (Have o n (o_write o)))).
      { split; [|auto]. intros m. slv. rewrite upd_if. destruct (Z.eqb_spec m n) as [->|]; [|auto].
        destruct (o_write o); slv; auto. }
      apply can_lock_free in Ec. destruct Ec as [Ec1 Ec2].
      eapply (CInv_core s _ p (Have o n (o_write o))); eauto; [ |rewrite Ep; exact I|].
      * eapply pcok_core; [exact Core|]. cbn [pcok]. destruct Hp as [B1 B2]. repeat split; auto. apply free_ready; auto.
      * intros m q. slv. rewrite upd_if. destruct (Z.eqb_spec m n) as [->|]; [congruence|auto].
    + (* Victim *)
      destruct (can_lock (slots s n) true) eqn:Ec.
      * eapply CInv_victim; eauto.
      * cbn [step]. rewrite Ep, Ec. exact H.
    + eapply CInv_evict; eauto.
    + eapply CInv_load; eauto.
    + (* Have *)
      destruct (o_write o) eqn:Ew; [eapply CInv_have_write; eauto|].
      cbn [step]. rewrite Ep, Ew. pose proof (A10 p) as Hp. rewrite Ep in Hp. cbn [pcok] in Hp. destruct Hp as [V [P2 [P3 P4]]].
      pose proof (valid_blk _ V) as Hblk. pose proof (A7 n _ Hblk P2) as Hd. rewrite P3 in Hd. destruct Hd as [Hd _].
      set (s' := set_pc _ p Idle).
      apply CInv_log; [|reflexivity|].
      * pose proof (LInv_step s (OStep p) HL) as HL'.
        assert (Hso : forall m, m <> n -> slots s' m = slots s m).
        { intros m Hm. unfold s'. slv. rewrite upd_if. destruct (Z.eqb_spec m n); [congruence|reflexivity]. }
        assert (Hsn : s_key (slots s' n) = s_key (slots s n) /\ s_shadow (slots s' n) = s_shadow (slots s n) /\
           s_dirty (slots s' n) = s_dirty (slots s n) /\ s_data (slots s' n) = s_data (slots s n) /\
           s_ph (slots s' n) = s_ph (slots s n)).
        { unfold s'. slv. rewrite upd_if, Z.eqb_refl. destruct ex; slv; auto. }
        assert (Core : same_core s s').
        { split; [|auto]. intros m. destruct (Z.eq_dec m n) as [->|N]; [exact Hsn|]. rewrite Hso by exact N. auto. }
        destruct (Bool.bool_dec ex true) as [->|Nex].
        -- assert (Hx : s_ex (slots s n) = Some p) by (apply (l_ex _ HL); rewrite Ep; reflexivity).
           constructor.
           ++ intros m k. unfold kin. destruct Core as [Hc _]. destruct (Hc m) as [-> _]. apply A1.
           ++ intros m m' k. unfold kin. destruct Core as [Hc _]. destruct (Hc m) as [-> _]. destruct (Hc m') as [-> _]. apply A2.
           ++ intros m k. unfold pend, kin. destruct Core as [Hc _]. destruct (Hc m) as [_ [_ [_ [-> ->]]]]. intros B1 B2.
              destruct (A3 m k B1 B2) as [C1 [C2 C3]]. split; [exact C1|]. split; [exact C2|]. intros m'.
              destruct (Hc m') as [-> _]. apply C3.
           ++ intros m m' k. unfold pend. destruct Core as [Hc _]. destruct (Hc m) as [_ [_ [_ [_ ->]]]].
              destruct (Hc m') as [_ [_ [_ [_ ->]]]]. apply A4.
           ++ intros m d k. destruct Core as [Hc _]. destruct (Hc m) as [_ [-> [_ [_ ->]]]]. apply A5.
           ++ intros m Hm. destruct (Z.eq_dec m n) as [->|N]; [destruct Hsn as [_ [_ [_ [_ Hsn]]]]; congruence|].
              rewrite Hso in * by exact N. change (pcs s') with (upd (pcs s) p Idle). eapply busy_other; eauto.
           ++ intros m k Hk. unfold kin. destruct Core as [Hc _]. destruct (Hc m) as [-> [_ [-> [-> ->]]]]. apply A7. exact Hk.
           ++ intros k Hk B1 B2. apply (A8 k Hk).
              ** intros m Hm. apply (B1 m). unfold kin. destruct Core as [Hc _]. destruct (Hc m) as [-> _]. exact Hm.
              ** intros m Hm. apply (B2 m). unfold pend. destruct Core as [Hc _]. destruct (Hc m) as [_ [_ [_ [_ ->]]]]. exact Hm.
           ++ exact A9.
           ++ intros q. change (pcs s') with (upd (pcs s) p Idle). rewrite upd_if. destruct (Z.eqb_spec q p); [exact I|].
              apply (pcok_core s); auto.
           ++ exact A11.
        -- apply (CInv_core s s' p Idle); auto; [exact I|rewrite Ep; exact I|].
           intros m q Hm. destruct (Z.eq_dec m n) as [->|N]; [|rewrite Hso by exact N; exact Hm].
           unfold s'. slv. rewrite upd_if, Z.eqb_refl. destruct ex; [congruence|]. slv. exact Hm.
      * cbn [event_ok]. change (log s') with (log s). intros j Hj. apply Hd. unfold valid_op in V. lia.
    + (* FAcq *)
      cbn [step]. rewrite Ep. pose proof (A10 p) as Hp. rewrite Ep in Hp. cbn [pcok] in Hp. destruct Hp as [P1 [P2 P3]].
      destruct (n =? 4 * G) eqn:En.
      * apply CInv_log; [|reflexivity|].
        -- apply (CInv_core s _ p Idle); auto; [split; auto|exact I|rewrite Ep; exact I].
        -- cbn [event_ok log set_pc]. intros blk B0 B1 B2.
           destruct (P3 (t, blk) eq_refl B1 B0 B2) as [C|[m [M1 M2]]]; [exact C|]. exfalso.
           assert (E : m / 4 = grp (t, blk)).
           { destruct M2 as [M2|M2]; [apply (A1 m (t, blk) B0 M2)|apply (A3 m (t, blk) B0 M2)]. }
           apply grp_div in E. pose proof (grp_range (t, blk)). lia.
      * destruct (can_lock (slots s n) false) eqn:Ec; auto.
        assert (Core : same_core s (set_pc (set_slot s n (lock (slots s n) false p)) p (FIO n t a b n0))).
        { split; [|auto]. intros m. slv. rewrite upd_if. destruct (Z.eqb_spec m n) as [->|]; slv; auto. }
        eapply (CInv_core s _ p (FIO n t a b n0)); eauto; [ |rewrite Ep; exact I|].
        -- eapply pcok_core; [exact Core|]. cbn [pcok]. split; [lia|]. split; [exact P2|exact P3].
        -- intros m q. slv. rewrite upd_if. destruct (Z.eqb_spec m n) as [->|]; slv; auto.
    + eapply CInv_fio; eauto.
    + eapply CInv_fclr; eauto.
    + cbn [step_ok] in Hok. rewrite Ep in Hok. contradiction.
    + cbn [step_ok] in Hok. rewrite Ep in Hok. contradiction.
    + cbn [step_ok] in Hok. rewrite Ep in Hok. contradiction.
Qed.


Lemma run_LInv : forall ops s, LInv s -> LInv (run (step BS bpf G) s ops).
Proof. intros ops s H. apply (run_inv _ _ (step BS bpf G) LInv); [intros; apply LInv_step; auto|exact H]. Qed.

Lemma direct_final : forall s p k d, LInv s -> CInv s -> 0 <= snd k -> pcs s p = Idle ->
  (forall q, ~ in_group G (grp k) (pcs s q)) ->
  let s' := exec BS bpf G s (IDirect p k d) in
  (forall n, slots s' n = match find_slot G s k with
                          | Some m => if n =? m then set_data (slots s m) d false else slots s n
                          | None => slots s n end) /\
  file s' = kupd (file s) k d /\ fex s' = kupd (fex s) (fileof bpf k) true /\
  (forall q, pcs s' q = pcs s q) /\ log s' = log s ++ [EvWrite p k 0 BS d].
Proof.
  intros s p k d HL H Hk Hp Hn. cbn [exec]. cbv zeta.
  assert (Gx : g_ex s (grp k) = None).
  { destruct (g_ex s (grp k)) as [q|] eqn:E; [|reflexivity]. apply (l_gex _ HL) in E. exfalso. apply (Hn q).
    destruct (pcs s q); try discriminate; injection E as E; exact E. }
  assert (Sl : forall n, kin s n k -> can_lock (slots s n) true = true).
  { intros n Hkin. unfold can_lock. destruct (s_ex (slots s n)) as [q|] eqn:E.
    - exfalso. apply (l_ex _ HL) in E. apply (Hn q). pose proof (c_pc _ H q) as Hq. pose proof (c_grp _ H n k Hk Hkin) as G1.
      destruct (pcs s q) eqn:Eq; try discriminate; cbn [pcok own_ex in_group] in *.
      + injection E as ->. destruct Hq as [V [Q _]]. rewrite <- (c_grp _ H n _ (valid_blk _ V) Q). exact G1.
      + injection E as ->. destruct Hq as [V [Q _]]. rewrite <- (c_grp _ H n _ (valid_blk _ V) Q). exact G1.
      + destruct ex; [|discriminate]. injection E as ->. destruct Hq as [V [Q _]]. rewrite <- (c_grp _ H n _ (valid_blk _ V) Q). exact G1.
    - destruct (s_sh (slots s n)) as [|q l] eqn:E2; [reflexivity|]. exfalso.
      assert (Hi : In q (s_sh (slots s n))) by (rewrite E2; left; reflexivity).
      apply (l_sh _ HL) in Hi. apply (Hn q). pose proof (c_pc _ H q) as Hq. pose proof (c_grp _ H n k Hk Hkin) as G1.
      destruct (pcs s q) eqn:Eq; try discriminate; cbn [pcok own_sh in_group] in *; auto.
      destruct ex; [discriminate|]. injection Hi as ->. destruct Hq as [V [Q _]].
      rewrite <- (c_grp _ H n _ (valid_blk _ V) Q). exact G1. }
  unfold run. cbn [fold_left].
  assert (E1 : step BS bpf G s (ODirect p k d) = set_pc s p (D1 k d)).
  { cbn [step]. rewrite Hp. replace (0 <=? snd k) with true by lia. reflexivity. }
  rewrite E1. clear E1.
  destruct (find_slot G s k) as [m|] eqn:Ef.
  - pose proof (find_slot_some _ _ _ Ef) as Hm. pose proof (Sl m Hm) as Hc.
    assert (E2 : step BS bpf G (set_pc s p (D1 k d)) (OStep p) =
                 set_pc (set_gsh (set_pc s p (D1 k d)) (grp k) (p :: g_sh s (grp k))) p (D2 k d m)).
    { cbn [step]. cbn [pcs set_pc g_ex]. rewrite upd_same. rewrite Gx.
      change (find_slot G (set_pc s p (D1 k d)) k) with (find_slot G s k). rewrite Ef. reflexivity. }
    rewrite E2. clear E2.
    set (s2 := set_pc _ p (D2 k d m)).
    assert (E3 : step BS bpf G s2 (OStep p) =
       set_pc (set_gsh (set_slot s2 m (set_data (slots s m) d false)) (grp k) (without p (g_sh s2 (grp k)))) p (D3 k d)).
    { cbn [step]. unfold s2 at 1. cbn [pcs set_pc]. rewrite upd_same.
      change (slots s2 m) with (slots s m). rewrite Hc. reflexivity. }
    rewrite E3. clear E3. set (s3 := set_pc _ p (D3 k d)).
    assert (E4 : step BS bpf G s3 (OStep p) = add_log (set_pc (write_file bpf s3 k d) p Idle) (EvWrite p k 0 BS d)).
    { cbn [step]. unfold s3 at 1. cbn [pcs set_pc]. rewrite upd_same. reflexivity. }
    rewrite E4. clear E4. split; [|split; [reflexivity|split; [reflexivity|split; [|reflexivity]]]].
    + intros n. unfold s3, s2. slv. rewrite upd_if. reflexivity.
    + intros q. unfold s3, s2. slv. rewrite !upd_if. destruct (Z.eqb_spec q p) as [->|]; auto.
  - assert (E2 : step BS bpf G (set_pc s p (D1 k d)) (OStep p) = set_pc (set_pc s p (D1 k d)) p (D3 k d)).
    { cbn [step]. cbn [pcs set_pc g_ex]. rewrite upd_same. rewrite Gx.
      change (find_slot G (set_pc s p (D1 k d)) k) with (find_slot G s k). rewrite Ef. reflexivity. }
    rewrite E2. clear E2. set (s3 := set_pc _ p (D3 k d)).
    assert (E4 : step BS bpf G s3 (OStep p) = add_log (set_pc (write_file bpf s3 k d) p Idle) (EvWrite p k 0 BS d)).
    { cbn [step]. unfold s3 at 1. cbn [pcs set_pc]. rewrite upd_same. reflexivity. }
    rewrite E4. clear E4. set (s4 := add_log _ _).
    assert (E5 : step BS bpf G s4 (OStep p) = s4).
    { cbn [step]. unfold s4 at 1. cbn [pcs set_pc add_log]. rewrite upd_same. reflexivity. }
    rewrite E5. split; [|split; [reflexivity|split; [reflexivity|split; [|reflexivity]]]].
    + intros n. reflexivity.
    + intros q. unfold s4, s3. slv. rewrite !upd_if. destruct (Z.eqb_spec q p) as [->|]; auto.
Qed.

Lemma put_all : forall a d, agree (put a 0 BS d) d.
Proof. intros a d j Hj. unfold put. replace ((0 <=? j) && (j <? 0 + BS)) with true by lia. f_equal. lia. Qed.

Lemma CInv_direct : forall s p k d, LInv s -> CInv s -> 0 <= snd k -> pcs s p = Idle ->
  (forall q, ~ in_group G (grp k) (pcs s q)) -> CInv (exec BS bpf G s (IDirect p k d)).
Proof.
  intros s p k d HL H Hk Hp Hn.
  destruct (direct_final s p k d HL H Hk Hp Hn) as [Es [Ef [Ex [Ep El]]]].
  set (s' := exec _ _ _ _ _) in *. clearbody s'.
  pose proof H as [A1 A2 A3 A4 A5 A6 A7 A8 A9 A10 A11].
  assert (SK : forall n, s_key (slots s' n) = s_key (slots s n) /\ s_shadow (slots s' n) = s_shadow (slots s n) /\
            s_ph (slots s' n) = s_ph (slots s n) /\ s_ex (slots s' n) = s_ex (slots s n) /\
            (~ kin s n k -> slots s' n = slots s n)).
  { intros n. rewrite Es. destruct (find_slot G s k) as [m|] eqn:E; [|auto].
    destruct (Z.eqb_spec n m) as [->|]; slv; auto. repeat split; auto.
    intros X. exfalso. apply X. eapply find_slot_some; eauto. }
  assert (K : forall m k', kin s' m k' <-> kin s m k') by (intros; unfold kin; destruct (SK m) as [-> _]; tauto).
  assert (P : forall m k', pend s' m k' <-> pend s m k') by (intros; unfold pend; destruct (SK m) as [_ [_ [-> _]]]; tauto).
  assert (EA : forall k', abs s' k' = if key_eqb k' k then put (abs s k) 0 BS d else abs s k').
  { intros k'. unfold abs. rewrite El, content_app. reflexivity. }
  assert (Fk : F s' k).
  { unfold F. rewrite EA, key_eqb_refl, Ef, kupd_same. apply agree_sym. apply put_all. }
  assert (EF : forall k', k' <> k -> F s' k' <-> F s k').
  { intros k' Nk. unfold F. rewrite EA, Ef, kupd_other by exact Nk. apply key_eqb_false in Nk. rewrite Nk. reflexivity. }
  assert (NP : forall n, ~ pend s n k).
  { intros n Hm. destruct (A3 n k Hk Hm) as [G1 _]. destruct (A6 n) as [q [o [Q1 Q2]]]; [unfold pend in Hm; congruence|].
    apply (Hn q). pose proof (A10 q) as Hq.
    destruct Q2 as [[d' [k' Q2]]|Q2]; rewrite Q2 in *; cbn [pcok in_group] in *; destruct Hq as [V [Q _]];
      rewrite <- (A1 n _ (valid_blk _ V) Q); exact G1. }
  constructor.
  - intros m k'. rewrite K. apply A1.
  - intros m m' k'. rewrite !K. apply A2.
  - intros m k' Hk'. rewrite P. intros Hm. destruct (A3 m k' Hk' Hm) as [B1 [B2 B3]].
    assert (Nk : k' <> k) by (intros ->; eapply NP; eauto).
    split; [exact B1|]. split; [|intros m'; rewrite K; apply B3].
    rewrite EA. pose proof Nk as Nk'. apply key_eqb_false in Nk'. rewrite Nk'.
    destruct (SK m) as [_ [_ [_ [_ E]]]]. destruct (key_eqb (s_key (slots s m)) k) eqn:Ek.
    + exfalso. apply key_eqb_spec in Ek. destruct (A6 m) as [q [o [Q1 Q2]]]; [unfold pend in Hm; congruence|].
      apply (Hn q). pose proof (A1 m k Hk Ek) as G1. pose proof (A10 q) as Hq.
      destruct Q2 as [[d' [k'' Q2]]|Q2]; rewrite Q2 in *; cbn [pcok in_group] in *; destruct Hq as [V [Q _]];
        rewrite <- (A1 m _ (valid_blk _ V) Q); exact G1.
    + apply key_eqb_false in Ek. rewrite E by exact Ek. exact B2.
  - intros m m' k'. rewrite !P. apply A4.
  - intros m d' k'. destruct (SK m) as [_ [-> [-> _]]]. apply A5.
  - intros m. destruct (SK m) as [_ [_ [-> [-> _]]]]. intros Hm. destruct (A6 m Hm) as [q [o Q]]. exists q, o. rewrite Ep. exact Q.
  - intros m k' Hk'. rewrite K. intros Hm. specialize (A7 m k' Hk' Hm). destruct (key_eqb k' k) eqn:Ek.
    + apply key_eqb_spec in Ek. subst k'. destruct (s_ph (slots s' m)); auto. split; [|auto].
      rewrite EA, key_eqb_refl. rewrite Es. destruct (find_slot G s k) as [m'|] eqn:E.
      * assert (m = m') by (eapply A2; eauto; apply (find_slot_some _ _ _ E)). subst m'. rewrite Z.eqb_refl. slv.
        apply agree_sym. apply put_all.
      * exfalso. eapply find_slot_none; eauto.
    + rewrite EA, Ek. apply key_eqb_false in Ek.
      destruct (SK m) as [_ [_ [_ [_ E]]]]. rewrite E by (unfold kin in *; congruence).
      destruct (s_ph (slots s m)); rewrite EF by exact Ek; exact A7.
  - intros k' Hk' B1 B2. destruct (key_eqb k' k) eqn:Ek; [apply key_eqb_spec in Ek; subst; exact Fk|].
    apply key_eqb_false in Ek. rewrite EF by exact Ek. apply A8; auto; intros m Hm; [apply (B1 m); apply K|apply (B2 m); apply P]; exact Hm.
  - intros k' Hk' j. rewrite Ex in Hk'. rewrite Ef. unfold kupd in Hk' at 1.
    destruct (key_eqb (fileof bpf k') (fileof bpf k)) eqn:Ek; [discriminate|].
    rewrite kupd_other; [apply A9; exact Hk'|]. intros ->. rewrite key_eqb_refl in Ek. discriminate.
  - intros q. rewrite Ep. pose proof (A10 q) as Hq. pose proof (Hn q) as Hnq.
    assert (Ph : forall n, s_ph (slots s' n) = s_ph (slots s n)) by (intros n; apply SK).
    destruct (pcs s q); cbn [pcok in_group] in *; auto; try (exfalso; apply Hnq; exact I); rewrite ?K, ?Ph; auto.
    + destruct Hq as [V [Q2 [Q3 Q4]]]. split; [exact V|]. split; [exact Q2|]. split; [exact Q3|].
      intros m Hm. rewrite K, P. apply Q4; auto.
    + destruct Hq as [V [Q2 Q3]]. split; [exact V|]. split; [exact Q2|]. intros m Hm. rewrite K, P. apply Q3; auto.
  - rewrite El. apply consistent_app; [exact A11|exact I].
Qed.

Lemma exec_LInv : forall s i, LInv s -> LInv (exec BS bpf G s i).
Proof. intros s [x|p k d] H; cbn [exec]; [apply LInv_step; exact H|apply run_LInv; exact H]. Qed.

Theorem schedule_inv : forall l s, LInv s -> CInv s -> schedule_ok BS bpf G s l ->
  let s' := fold_left (exec BS bpf G) l s in LInv s' /\ CInv s'.
Proof.
  induction l as [|i l IH]; intros s HL H Hok; cbn [fold_left]; [auto|]. cbn [schedule_ok] in Hok. destruct Hok as [Hi Hr].
  apply IH; auto.
  - apply exec_LInv. exact HL.
  - destruct i as [x|p k d].
    + cbn [exec]. apply CInv_step; auto.
    + destruct Hi as [H1 [H2 H3]]. apply (CInv_direct s p k d); auto.
Qed.

End Proofs.

Theorem cache_consistent : forall BS bpf G f0 ex l, 0 < G -> files_ok bpf f0 ex ->
  schedule_ok BS bpf G (init f0 ex) l ->
  consistent BS f0 (log (fold_left (exec BS bpf G) l (init f0 ex))).
Proof.
  intros BS bpf G f0 ex l HG Hf Hok.
  destruct (schedule_inv BS bpf G HG f0 l (init f0 ex)) as [_ H]; auto.
  - apply LInv_init.
  - apply CInv_init. exact Hf.
  - apply (c_log _ _ _ _ _ H).
Qed.

(** At rest every dirty byte is either in a buffer or in the file: reading through the
    cache now (whatever is resident) gives the last values written. *)
Theorem cache_file_or_buffer : forall BS bpf G f0 ex l k, 0 < G -> files_ok bpf f0 ex ->
  schedule_ok BS bpf G (init f0 ex) l -> 0 <= snd k ->
  let s := fold_left (exec BS bpf G) l (init f0 ex) in (forall p, pcs s p = Idle) ->
  agree BS (match find_slot G s k with Some n => s_data (slots s n) | None => file s k end) (content f0 (log s) k).
Proof.
  intros BS bpf G f0 ex l k HG Hf Hok Hk s Hi.
  destruct (schedule_inv BS bpf G HG f0 l (init f0 ex)) as [HL H]; auto; [apply LInv_init|apply CInv_init; exact Hf|].
  fold s in HL, H.
  assert (Hr : forall n, s_ph (slots s n) = Ready).
  { intros n. destruct (s_ph (slots s n)) eqn:E; auto; exfalso;
      (destruct (c_busy _ _ _ _ _ H n ltac:(congruence)) as [p [o [_ Q]]]; destruct Q as [[d [k' Q]]|Q]; rewrite Hi in Q; discriminate). }
  destruct (find_slot G s k) as [n|] eqn:E.
  - apply find_slot_some in E. pose proof (c_key _ _ _ _ _ H n k Hk E) as Q. rewrite Hr in Q. apply Q.
  - apply (c_free _ _ _ _ _ H k Hk); intros n Hn.
    + apply (find_slot_none G f0 s k E n); [|exact Hn]. apply (c_grp _ _ _ _ _ H n k Hk Hn).
    + unfold pend in Hn. rewrite Hr in Hn. discriminate.
Qed.
