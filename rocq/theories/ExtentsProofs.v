From Coq Require Import ZArith List Bool Lia Permutation.
From Coq Require Import ZifyBool ZifyNat ZifyN.
From Verif Require Import Base ExtentsModel.
Import ListNotations.
Open Scope Z_scope.

(** ** Sums over lists *)
Fixpoint sumf {A} (f : A -> Z) (l : list A) : Z :=
  match l with [] => 0 | h :: t => f h + sumf f t end.

Lemma sumf_app : forall A (f : A -> Z) a b, sumf f (a ++ b) = sumf f a + sumf f b.
Proof. induction a; intros; cbn [app sumf]; [lia|rewrite IHa; lia]. Qed.

Lemma sumf_set_nth : forall A (f : A -> Z) l i x y,
  nth_error l i = Some x -> sumf f (set_nth l i y) = sumf f l - f x + f y.
Proof.
  induction l as [|h t IH]; intros [|i] x y H; cbn in H; try discriminate.
  - injection H as ->. cbn [set_nth sumf]. lia.
  - cbn [set_nth sumf]. rewrite (IH _ _ _ H). lia.
Qed.

Lemma sumf_ge0 : forall A (f : A -> Z) l, (forall x, In x l -> 0 <= f x) -> 0 <= sumf f l.
Proof.
  induction l as [|h t IH]; intros H; cbn [sumf]; [lia|].
  assert (0 <= f h) by (apply H; left; reflexivity).
  assert (0 <= sumf f t) by (apply IH; intros; apply H; right; assumption). lia.
Qed.

Lemma sumf_ge_elem : forall A (f : A -> Z) l x,
  (forall y, In y l -> 0 <= f y) -> In x l -> f x <= sumf f l.
Proof.
  induction l as [|h t IH]; intros x H Hx; [inversion Hx|]. cbn [sumf].
  assert (0 <= f h) by (apply H; left; reflexivity).
  assert (0 <= sumf f t) by (apply sumf_ge0; intros; apply H; right; assumption).
  destruct Hx as [->|Hx]; [lia|].
  assert (f x <= sumf f t) by (apply IH; [intros; apply H; right; assumption|assumption]). lia.
Qed.

Lemma sumf_le : forall A (f g : A -> Z) l, (forall x, In x l -> f x <= g x) -> sumf f l <= sumf g l.
Proof.
  induction l as [|h t IH]; intros H; cbn [sumf]; [lia|].
  assert (f h <= g h) by (apply H; left; reflexivity).
  assert (sumf f t <= sumf g t) by (apply IH; intros; apply H; right; assumption). lia.
Qed.

Lemma sumf_le_except : forall A (f g : A -> Z) l i x,
  nth_error l i = Some x -> (forall y, In y l -> f y <= g y) ->
  sumf f l - f x <= sumf g l - g x.
Proof.
  induction l as [|h t IH]; intros [|i] x H Hle; cbn in H; try discriminate; cbn [sumf].
  - injection H as ->.
    assert (sumf f t <= sumf g t) by (apply sumf_le; intros; apply Hle; right; assumption). lia.
  - assert (f h <= g h) by (apply Hle; left; reflexivity).
    assert (sumf f t - f x <= sumf g t - g x)
      by (apply (IH i); [assumption|intros; apply Hle; right; assumption]). lia.
Qed.

Lemma In_set_nth : forall A (l : list A) i y z, In z (set_nth l i y) -> z = y \/ In z l.
Proof.
  induction l as [|h t IH]; intros [|i] y z H; cbn in H; auto.
  - destruct H; auto. right; right; assumption.
  - destruct H as [->|H]; [right; left; reflexivity|].
    destruct (IH _ _ _ H); auto. right; right; assumption.
Qed.

Lemma nth_set_nth_same : forall A (l : list A) i x y,
  nth_error l i = Some x -> nth_error (set_nth l i y) i = Some y.
Proof. induction l; intros [|i] x y H; cbn in *; try discriminate; eauto. Qed.

Lemma nth_set_nth_other : forall A (l : list A) i j y,
  i <> j -> nth_error (set_nth l i y) j = nth_error l j.
Proof. induction l; intros [|i] [|j] y H; cbn; auto; try congruence. Qed.

(** ** Extents *)
Definition elen (e : ext) : Z := snd e.

Lemma ext_eqb_spec : forall a b, ext_eqb a b = true <-> a = b.
Proof.
  intros [a1 a2] [b1 b2]. unfold ext_eqb. cbn [fst snd].
  rewrite andb_true_iff, !Z.eqb_eq. split; [intros [-> ->]; reflexivity|].
  intros E. injection E as -> ->. auto.
Qed.

Lemma ext_eqb_refl : forall a, ext_eqb a a = true.
Proof. intros. apply ext_eqb_spec. reflexivity. Qed.

Lemma mem_In : forall e l, mem e l = true <-> In e l.
Proof.
  intros e l. unfold mem. rewrite existsb_exists. split.
  - intros [x [Hx E]]. apply ext_eqb_spec in E. subst. exact Hx.
  - intros H. exists e. split; [exact H|apply ext_eqb_refl].
Qed.

Lemma sumf_del : forall (f : ext -> Z) e l, In e l -> sumf f (del e l) = sumf f l - f e.
Proof.
  induction l as [|h t IH]; intros H; [inversion H|]. cbn [del].
  destruct (ext_eqb e h) eqn:E.
  - apply ext_eqb_spec in E. subst. cbn [sumf]. lia.
  - destruct H as [->|H]; [rewrite ext_eqb_refl in E; discriminate|].
    cbn [sumf]. rewrite IH by exact H. lia.
Qed.

Lemma In_del : forall x e l, In x (del e l) -> In x l.
Proof.
  induction l as [|h t IH]; intros H; [inversion H|]. cbn [del] in H.
  destruct (ext_eqb e h); [right; exact H|].
  destruct H as [->|H]; [left; reflexivity|right; auto].
Qed.

Definition cover (b : Z) (e : ext) : Z := if (fst e <=? b) && (b <? fst e + snd e) then 1 else 0.
Definition offis (o : Z) (e : ext) : Z := if fst e =? o then 1 else 0.

Lemma cover_01 : forall b e, 0 <= cover b e <= 1.
Proof. intros. unfold cover. destruct (_ && _); lia. Qed.
Lemma offis_01 : forall b e, 0 <= offis b e <= 1.
Proof. intros. unfold offis. destruct (_ =? _); lia. Qed.

Lemma cover_split : forall b o L n, 0 <= n <= L ->
  cover b (o, L) = cover b (o, n) + cover b (o + n, L - n).
Proof.
  intros. unfold cover. cbn [fst snd].
  destruct ((o <=? b) && (b <? o + L)) eqn:E1; destruct ((o <=? b) && (b <? o + n)) eqn:E2;
    destruct ((o + n <=? b) && (b <? o + n + (L - n))) eqn:E3; lia.
Qed.

Lemma offis_le_cover : forall o e, 0 < snd e -> offis o e <= cover o e.
Proof.
  intros o [x l] H. unfold offis, cover. cbn [fst snd] in *.
  destruct (x =? o) eqn:E; destruct ((x <=? o) && (o <? x + l)) eqn:E2; lia.
Qed.

Lemma has_off_sum : forall o l, has_off o l = true <-> 1 <= sumf (offis o) l.
Proof.
  induction l as [|h t IH]; cbn [sumf].
  - cbn. split; [discriminate|lia].
  - unfold has_off in *. cbn [existsb]. rewrite orb_true_iff, IH.
    assert (0 <= sumf (offis o) t)
      by (apply sumf_ge0; intros; apply offis_01).
    unfold offis at 2. destruct (fst h =? o); split; intros; try lia.
Qed.

Lemma del_off_del : forall e l, In e l -> sumf (offis (fst e)) l <= 1 ->
  del_off (fst e) l = del e l.
Proof.
  induction l as [|h t IH]; intros Hin Hs; [inversion Hin|]. cbn [sumf] in Hs.
  assert (Ht : 0 <= sumf (offis (fst e)) t)
    by (apply sumf_ge0; intros; apply offis_01).
  cbn [del_off del]. destruct (Z.eqb_spec (fst h) (fst e)) as [E|E].
  - destruct (ext_eqb e h) eqn:Eq; [reflexivity|].
    destruct Hin as [->|Hin]; [rewrite ext_eqb_refl in Eq; discriminate|].
    exfalso.
    assert (offis (fst e) e <= sumf (offis (fst e)) t)
      by (apply sumf_ge_elem; [intros; apply offis_01|exact Hin]).
    assert (offis (fst e) e = 1) by (unfold offis; rewrite Z.eqb_refl; reflexivity).
    assert (offis (fst e) h = 1) by (unfold offis; rewrite E, Z.eqb_refl; reflexivity). lia.
  - destruct (ext_eqb e h) eqn:Eq.
    + apply ext_eqb_spec in Eq. subst. contradiction.
    + destruct Hin as [->|Hin]; [contradiction|]. f_equal. apply IH; [exact Hin|].
      pose proof (offis_01 (fst e) h). lia.
Qed.

(** ** Ownership of a backend in the middle of an operation *)
Definition own (pc : epc) : list ext :=
  match pc with
  | EIdle | GExtend _ | GFind _ => []
  | GGot o L _ | GDel o L _ | GPut o L _ => [(o, L)]
  | FScan e | FDelR e _ _ => [e]
  | FDelL e _ rt => e :: opt_list rt
  | FUndoR e r => [e; r]
  | FOffR e lf rt | FOffL e lf rt | FInsOff e lf rt => e :: opt_list lf ++ opt_list rt
  | FInsLen e lf rt => [merged e lf rt]
  end.

Definition rest (o L n : Z) : list ext := if L - n >? 0 then [(o + n, L - n)] else [].

Definition pend (pc : epc) : list ext :=
  match pc with
  | EIdle | GExtend _ | GFind _ | FScan _ | FDelR _ _ _ => []
  | GGot o L _ => [(o, L)]
  | GDel o L n => (o, L) :: rest o L n
  | GPut o L n => [(o + n, L - n)]
  | FDelL _ _ rt => opt_list rt
  | FUndoR _ r => [r]
  | FOffR _ lf rt => opt_list lf ++ opt_list rt
  | FOffL _ lf _ => opt_list lf
  | FInsOff _ _ _ => []
  | FInsLen e lf rt => [merged e lf rt]
  end.

(** Blocks counted in numFreeBlocks but absent from the (len,off) index. *)
Definition wt (pc : epc) : Z :=
  match pc with
  | EIdle | GExtend _ | GFind _ => 0
  | GGot _ L n | GDel _ L n | GPut _ L n => L - n
  | _ => sumf elen (own pc)
  end.

Definition adj (e : ext) (lf rt : option ext) : Prop :=
  match lf with Some (lo, ll) => lo + ll = fst e | None => True end /\
  match rt with Some (ro, _) => ro = fst e + snd e | None => True end.

Definition pos (e : ext) : Prop := 0 < snd e.
Definition opos (o : option ext) : Prop := match o with Some e => pos e | None => True end.

Definition pcwf (pc : epc) : Prop :=
  match pc with
  | EIdle => True
  | GExtend n | GFind n => 0 < n
  | GGot _ L n | GDel _ L n => 0 < n <= L
  | GPut _ L n => 0 < n < L
  | FScan e => pos e
  | FDelR e lf rt => pos e /\ adj e lf rt
  | FDelL e lf rt => pos e /\ opos rt /\ adj e lf rt
  | FUndoR e r => pos e /\ pos r /\ fst r = fst e + snd e
  | FOffR e lf rt | FOffL e lf rt | FInsOff e lf rt | FInsLen e lf rt =>
      pos e /\ opos lf /\ opos rt /\ adj e lf rt
  end.

Record EInv (s : est) : Prop := {
  ei_cov : forall b, sumf (cover b) (e_lenoff s) + sumf (cover b) (e_used s)
             + sumf (fun pc => sumf (cover b) (own pc)) (e_thr s)
             = if (0 <=? b) && (b <? e_filelen s) then 1 else 0;
  ei_off : forall f, sumf f (e_offlen s)
             = sumf f (e_lenoff s) + sumf (fun pc => sumf f (pend pc)) (e_thr s);
  ei_num : e_numfree s = sumf elen (e_lenoff s) + sumf wt (e_thr s);
  ei_pos : (forall e, In e (e_lenoff s) -> pos e) /\ (forall e, In e (e_used s) -> pos e);
  ei_wf : forall pc, In pc (e_thr s) -> pcwf pc;
  ei_len : 0 <= e_filelen s;
  ei_fatal : e_fatal s = false
}.

Lemma cover_merged : forall b e lf rt, pos e -> opos lf -> opos rt -> adj e lf rt ->
  cover b (merged e lf rt) = sumf (cover b) (e :: opt_list lf ++ opt_list rt).
Proof.
  intros b [o l] lf rt He Hl Hr [A1 A2]. unfold pos, opos in *. cbn [fst snd] in *.
  destruct lf as [[lo ll]|]; destruct rt as [[ro rl]|]; cbn [merged opt_list app sumf fst snd elen] in *;
    unfold pos, cover in *; cbn [fst snd] in *;
    repeat match goal with |- context [if ?c then _ else _] => destruct c eqn:? end; lia.
Qed.

Lemma snd_merged : forall e lf rt,
  snd (merged e lf rt) = sumf elen (e :: opt_list lf ++ opt_list rt).
Proof.
  intros [o l] [[lo ll]|] [[ro rl]|]; cbn [merged opt_list app sumf fst snd elen]; lia.
Qed.

Lemma pend_le_own : forall o pc, pcwf pc ->
  sumf (offis o) (pend pc) <= sumf (cover o) (own pc).
Proof.
  intros o pc H.
  assert (Hg : forall l, (forall e, In e l -> pos e) -> sumf (offis o) l <= sumf (cover o) l)
    by (intros l Hl; apply sumf_le; intros x Hx; apply offis_le_cover; apply Hl; exact Hx).
  assert (H1 : forall l, 0 <= sumf (cover o) l)
    by (intros; apply sumf_ge0; intros; apply cover_01).
  destruct pc; cbn [own pend pcwf] in *; try apply H1.
  - apply Hg. intros e [<-|[]]. unfold pos. cbn. lia.
  - unfold rest. cbn [sumf]. unfold offis, cover. destruct (L - n >? 0) eqn:E; cbn [sumf fst snd];
      repeat match goal with |- context [if ?c then _ else _] => destruct c eqn:? end; lia.
  - cbn [sumf]. unfold offis, cover. cbn [fst snd].
    repeat match goal with |- context [if ?c then _ else _] => destruct c eqn:? end; lia.
  - destruct H as [He [Hr _]]. cbn [sumf].
    assert (sumf (offis o) (opt_list rt) <= sumf (cover o) (opt_list rt)).
    { apply Hg. destruct rt; cbn; intros x Hx; [destruct Hx as [<-|[]]; exact Hr|contradiction]. }
    pose proof (cover_01 o e). lia.
  - destruct H as [He [Hr _]]. cbn [sumf].
    pose proof (offis_le_cover o rt Hr). pose proof (cover_01 o e). lia.
  - destruct H as [He [Hl [Hr _]]]. cbn [sumf].
    assert (sumf (offis o) (opt_list lf ++ opt_list rt) <= sumf (cover o) (opt_list lf ++ opt_list rt)).
    { apply Hg. intros x Hx. apply in_app_or in Hx.
      destruct lf, rt; cbn in Hx; destruct Hx as [Hx|Hx];
        repeat (destruct Hx as [<-|Hx]); try contradiction; assumption. }
    pose proof (cover_01 o e). lia.
  - destruct H as [He [Hl [Hr _]]]. cbn [sumf]. rewrite sumf_app.
    assert (sumf (offis o) (opt_list lf) <= sumf (cover o) (opt_list lf)).
    { apply Hg. destruct lf; cbn; intros x Hx; [destruct Hx as [<-|[]]; exact Hl|contradiction]. }
    pose proof (cover_01 o e). pose proof (H1 (opt_list rt)). lia.
  - destruct H as [He [Hl [Hr Ha]]]. cbn [sumf].
    assert (Hp : pos (merged e lf rt)).
    { unfold pos. rewrite snd_merged. cbn [sumf elen]. unfold pos, opos in *.
      destruct lf, rt; cbn [opt_list app sumf elen] in *; unfold pos, elen in *; lia. }
    pose proof (offis_le_cover o _ Hp). lia.
Qed.

(** At most one (off,len) entry per offset, counting what backend i may still
    add inside its own region. *)
Lemma offlen_bound : forall s i pc o, EInv s -> nth_error (e_thr s) i = Some pc ->
  sumf (offis o) (e_offlen s) - sumf (offis o) (pend pc) <= 1 - sumf (cover o) (own pc).
Proof.
  intros s i pc o H Hi. destruct H as [Hc Ho Hn [Hp1 Hp2] Hw Hl Hf].
  rewrite Ho.
  assert (sumf (offis o) (e_lenoff s) <= sumf (cover o) (e_lenoff s)).
  { apply sumf_le. intros e He. apply offis_le_cover. apply Hp1. exact He. }
  assert (0 <= sumf (cover o) (e_used s)) by (apply sumf_ge0; intros; apply cover_01).
  pose proof (sumf_le_except _ (fun pc => sumf (offis o) (pend pc))
                (fun pc => sumf (cover o) (own pc)) (e_thr s) i pc Hi) as Hx.
  cbv beta in Hx.
  assert (Hx' : forall y, In y (e_thr s) -> sumf (offis o) (pend y) <= sumf (cover o) (own y))
    by (intros y Hy; apply pend_le_own; apply Hw; exact Hy).
  specialize (Hx Hx'). specialize (Hc o). destruct (_ && _) in Hc; lia.
Qed.

Definition eqi (e x : ext) : Z := if ext_eqb e x then 1 else 0.
Lemma eqi_01 : forall e x, 0 <= eqi e x <= 1.
Proof. intros. unfold eqi. destruct (ext_eqb e x); lia. Qed.

Lemma In_sum_eqi : forall e l, In e l <-> 1 <= sumf (eqi e) l.
Proof.
  induction l as [|h t IH]; cbn [sumf In]; [split; [contradiction|lia]|].
  rewrite IH. assert (0 <= sumf (eqi e) t) by (apply sumf_ge0; intros; apply eqi_01).
  unfold eqi at 2. destruct (ext_eqb e h) eqn:E.
  - apply ext_eqb_spec in E. subst. split; [lia|auto].
  - split; [|lia]. intros [->|?]; [rewrite ext_eqb_refl in E; discriminate|lia].
Qed.

Lemma pend_in_offlen : forall s i pc e, EInv s -> nth_error (e_thr s) i = Some pc ->
  In e (pend pc) -> In e (e_offlen s).
Proof.
  intros s i pc e H Hi He. apply In_sum_eqi. rewrite (ei_off _ H).
  apply In_sum_eqi in He.
  assert (0 <= sumf (eqi e) (e_lenoff s)) by (apply sumf_ge0; intros; apply eqi_01).
  assert (sumf (eqi e) (pend pc) <= sumf (fun pc => sumf (eqi e) (pend pc)) (e_thr s)).
  { apply (sumf_ge_elem _ (fun pc => sumf (eqi e) (pend pc))).
    - intros y _. apply sumf_ge0; intros; apply eqi_01.
    - eapply nth_error_In; eauto. }
  lia.
Qed.

(** Generic preservation. *)
Lemma EInv_upd : forall s i pc pc' lo' ol' fl' nf' us',
  EInv s -> nth_error (e_thr s) i = Some pc ->
  (forall b, sumf (cover b) lo' + sumf (cover b) us' + sumf (cover b) (own pc')
             - (if (0 <=? b) && (b <? fl') then 1 else 0)
           = sumf (cover b) (e_lenoff s) + sumf (cover b) (e_used s) + sumf (cover b) (own pc)
             - (if (0 <=? b) && (b <? e_filelen s) then 1 else 0)) ->
  (forall f, sumf f ol' - sumf f lo' - sumf f (pend pc')
           = sumf f (e_offlen s) - sumf f (e_lenoff s) - sumf f (pend pc)) ->
  nf' - sumf elen lo' - wt pc' = e_numfree s - sumf elen (e_lenoff s) - wt pc ->
  (forall e, In e lo' -> pos e) -> (forall e, In e us' -> pos e) -> pcwf pc' ->
  0 <= fl' ->
  EInv (mkEst lo' ol' fl' nf' us' (set_nth (e_thr s) i pc') false).
Proof.
  intros s i pc pc' lo' ol' fl' nf' us' H Hi C1 C2 C3 C4 C5 C6 C7.
  destruct H as [Hc Ho Hn [Hp1 Hp2] Hw Hl Hf].
  constructor; cbn [e_lenoff e_offlen e_filelen e_numfree e_used e_thr e_fatal].
  - intros b. rewrite (sumf_set_nth _ _ _ _ _ pc' Hi). specialize (C1 b). specialize (Hc b). lia.
  - intros f. rewrite (sumf_set_nth _ _ _ _ _ pc' Hi). specialize (C2 f). specialize (Ho f). lia.
  - rewrite (sumf_set_nth _ _ _ _ _ pc' Hi). lia.
  - split; assumption.
  - intros q Hq. apply In_set_nth in Hq. destruct Hq as [->|Hq]; auto.
  - exact C7.
  - reflexivity.
Qed.

Lemma rm_offlen_ok : forall s i pc e, EInv s -> nth_error (e_thr s) i = Some pc ->
  In e (pend pc) -> sumf (offis (fst e)) (pend pc) <= sumf (cover (fst e)) (own pc) ->
  rm_offlen s e = with_offlen s (del e (e_offlen s)) /\ In e (e_offlen s).
Proof.
  intros s i pc e H Hi He Hle.
  pose proof (pend_in_offlen s i pc e H Hi He) as Hin.
  pose proof (offlen_bound s i pc (fst e) H Hi) as Hb.
  split; [|exact Hin]. unfold rm_offlen.
  assert (Hh : has_off (fst e) (e_offlen s) = true).
  { apply has_off_sum.
    assert (offis (fst e) e <= sumf (offis (fst e)) (e_offlen s))
      by (apply sumf_ge_elem; [intros; apply offis_01|exact Hin]).
    assert (offis (fst e) e = 1) by (unfold offis; rewrite Z.eqb_refl; reflexivity). lia. }
  rewrite Hh. f_equal. apply del_off_del; [exact Hin|lia].
Qed.

Lemma ins_offlen_ok : forall s i pc e, EInv s -> nth_error (e_thr s) i = Some pc ->
  sumf (offis (fst e)) (pend pc) < sumf (cover (fst e)) (own pc) ->
  ins_offlen s e = with_offlen s (e :: e_offlen s).
Proof.
  intros s i pc e H Hi Hlt.
  pose proof (offlen_bound s i pc (fst e) H Hi) as Hb.
  unfold ins_offlen. destruct (has_off (fst e) (e_offlen s)) eqn:Hh; [|reflexivity].
  apply has_off_sum in Hh. lia.
Qed.

Lemma ins_lenoff_ok : forall s i pc e, EInv s -> nth_error (e_thr s) i = Some pc ->
  1 <= sumf (cover (fst e)) (own pc) ->
  ins_lenoff s e = with_lenoff s (e :: e_lenoff s).
Proof.
  intros s i pc e H Hi Hlt. unfold ins_lenoff.
  destruct (mem e (e_lenoff s)) eqn:Hm; [|reflexivity]. exfalso.
  apply mem_In in Hm. destruct H as [Hc Ho Hn [Hp1 Hp2] Hw Hl Hf].
  assert (cover (fst e) e <= sumf (cover (fst e)) (e_lenoff s))
    by (apply sumf_ge_elem; [intros; apply cover_01|exact Hm]).
  assert (1 <= cover (fst e) e).
  { pose proof (offis_le_cover (fst e) e (Hp1 e Hm)).
    unfold offis in H0. rewrite Z.eqb_refl in H0. lia. }
  assert (0 <= sumf (cover (fst e)) (e_used s)) by (apply sumf_ge0; intros; apply cover_01).
  assert (sumf (cover (fst e)) (own pc) <= sumf (fun pc => sumf (cover (fst e)) (own pc)) (e_thr s)).
  { apply (sumf_ge_elem _ (fun pc => sumf (cover (fst e)) (own pc))).
    - intros y _. apply sumf_ge0; intros; apply cover_01.
    - eapply nth_error_In; eauto. }
  specialize (Hc (fst e)). destruct (_ && _) in Hc; lia.
Qed.

Lemma EInv_init : EInv einit.
Proof.
  constructor; cbn; try tauto; try reflexivity; try lia.
  intros b. destruct ((0 <=? b) && (b <? 0)) eqn:E; [lia|reflexivity].
Qed.

Lemma cover_start : forall e, pos e -> cover (fst e) e = 1.
Proof. intros [o l] H. unfold cover, pos in *. cbn [fst snd] in *.
  destruct ((o <=? o) && (o <? o + l)) eqn:E; lia. Qed.

Ltac covs := unfold cover, offis; cbn [fst snd];
  repeat match goal with |- context [if ?c then _ else _] => destruct c eqn:? end; lia.

Lemma EInv_plain : forall s i pc, EInv s -> nth_error (e_thr s) i = Some pc ->
  EInv (plain_step s i pc).
Proof.
  intros s i pc H Hi.
  assert (Hwf : pcwf pc) by (apply (ei_wf _ H); eapply nth_error_In; eauto).
  pose proof (ei_pos _ H) as [Hp1 Hp2]. pose proof (ei_len _ H) as Hlen.
  pose proof (ei_fatal _ H) as Hfat.
  assert (Hnn : forall b l, 0 <= sumf (cover b) l)
    by (intros; apply sumf_ge0; intros; apply cover_01).
  destruct pc; cbn [plain_step pcwf] in *; try exact H.
  - (* GExtend *)
    unfold with_thr, with_used, with_filelen.
    cbn [e_lenoff e_offlen e_filelen e_numfree e_used e_thr e_fatal]. rewrite Hfat.
    apply (EInv_upd s i (GExtend n) EIdle); auto; cbn [elen fst snd own pend wt pcwf sumf]; try lia.
    + intros b. unfold cover at 2. cbn [fst snd].
      repeat match goal with |- context [if ?c then _ else _] => destruct c eqn:? end; lia.
    + intros e [<-|He]; [unfold pos; cbn; lia|auto].
  - (* GGot *)
    destruct (L - n >? 0) eqn:E.
    + rewrite (ins_offlen_ok s i (GGot o L n)); auto.
      2:{ cbn [own pend sumf]. covs. }
      unfold with_thr, with_offlen.
      cbn [e_lenoff e_offlen e_filelen e_numfree e_used e_thr e_fatal]. rewrite Hfat.
      apply (EInv_upd s i (GGot o L n) (GDel o L n)); auto;
        cbn [elen fst snd own pend wt pcwf sumf rest]; try lia.
      intros f. unfold rest. rewrite E. cbn [sumf]. lia.
    + unfold with_thr. rewrite Hfat.
      apply (EInv_upd s i (GGot o L n) (GDel o L n)); auto;
        cbn [elen fst snd own pend wt pcwf sumf]; try lia.
      intros f. unfold rest. rewrite E. cbn [sumf]. lia.
  - (* GDel *)
    destruct (rm_offlen_ok s i (GDel o L n) (o, L)) as [Er Hin]; auto.
    { cbn [pend]. left. reflexivity. }
    { apply pend_le_own. exact Hwf. }
    rewrite Er. destruct (L - n >? 0) eqn:E.
    + unfold with_thr, with_offlen.
      cbn [e_lenoff e_offlen e_filelen e_numfree e_used e_thr e_fatal]. rewrite Hfat.
      apply (EInv_upd s i (GDel o L n) (GPut o L n)); auto;
        cbn [elen fst snd own pend wt pcwf sumf]; try lia.
      intros f. rewrite sumf_del by exact Hin. unfold rest. rewrite E. cbn [sumf]. lia.
    + unfold with_thr, with_offlen, with_used.
      cbn [e_lenoff e_offlen e_filelen e_numfree e_used e_thr e_fatal]. rewrite Hfat.
      apply (EInv_upd s i (GDel o L n) EIdle); auto;
        cbn [elen fst snd own pend wt pcwf sumf]; try lia.
      * intros b. replace n with L by lia. lia.
      * intros f. rewrite sumf_del by exact Hin. unfold rest. rewrite E. cbn [sumf]. lia.
      * intros e [<-|He]; [unfold pos; cbn; lia|auto].
  - (* GPut *)
    rewrite (ins_lenoff_ok s i (GPut o L n)); auto.
    2:{ cbn [own sumf]. covs. }
    unfold with_thr, with_lenoff, with_used.
    cbn [e_lenoff e_offlen e_filelen e_numfree e_used e_thr e_fatal]. rewrite Hfat.
    apply (EInv_upd s i (GPut o L n) EIdle); auto; cbn [elen fst snd own pend wt pcwf sumf]; try lia.
    + intros b. rewrite (cover_split b o L n) by lia. lia.
    + intros e [<-|He]; [unfold pos; cbn; lia|auto].
    + intros e [<-|He]; [unfold pos; cbn; lia|auto].
  - (* FDelR *)
    destruct Hwf as [He Ha]. destruct rt as [r|].
    + destruct (mem r (e_lenoff s)) eqn:Em.
      * apply mem_In in Em.
        unfold with_thr, with_lenoff.
        cbn [e_lenoff e_offlen e_filelen e_numfree e_used e_thr e_fatal]. rewrite Hfat.
        apply (EInv_upd s i (FDelR e lf (Some r)) (FDelL e lf (Some r))); auto;
          cbn [elen fst snd own pend wt pcwf sumf opt_list].
        -- intros b. rewrite sumf_del by exact Em. unfold elen in *. lia.
        -- intros f. rewrite sumf_del by exact Em. unfold elen in *. lia.
        -- rewrite sumf_del by exact Em. unfold elen in *. lia.
        -- intros x Hx. apply Hp1. eapply In_del; eauto.
        -- split; [exact He|]. split; [|exact Ha]. apply Hp1. exact Em.
      * unfold with_thr. rewrite Hfat.
        apply (EInv_upd s i (FDelR e lf (Some r)) (FScan e)); auto;
          cbn [elen fst snd own pend wt pcwf sumf]; try lia; try exact He; reflexivity.
    + unfold with_thr. rewrite Hfat.
      apply (EInv_upd s i (FDelR e lf None) (FDelL e lf None)); auto;
        cbn [elen fst snd own pend wt pcwf sumf opt_list opos]; try lia; auto.
  - (* FDelL *)
    destruct Hwf as [He [Hr Ha]]. destruct lf as [l|].
    + destruct (mem l (e_lenoff s)) eqn:Em.
      * apply mem_In in Em.
        unfold with_thr, with_lenoff.
        cbn [e_lenoff e_offlen e_filelen e_numfree e_used e_thr e_fatal]. rewrite Hfat.
        apply (EInv_upd s i (FDelL e (Some l) rt) (FOffR e (Some l) rt)); auto;
          cbn [elen fst snd own pend wt pcwf sumf opt_list app].
        -- intros b. rewrite sumf_del by exact Em. unfold elen in *. lia.
        -- intros f. rewrite sumf_del by exact Em. unfold elen in *. lia.
        -- rewrite sumf_del by exact Em. unfold elen in *. lia.
        -- intros x Hx. apply Hp1. eapply In_del; eauto.
        -- split; [exact He|]. split; [apply Hp1; exact Em|]. split; [exact Hr|exact Ha].
      * destruct rt as [r|].
        -- unfold with_thr. rewrite Hfat.
           apply (EInv_upd s i (FDelL e (Some l) (Some r)) (FUndoR e r)); auto;
             cbn [elen fst snd own pend wt pcwf sumf opt_list]; try lia.
           split; [exact He|]. split; [exact Hr|].
           destruct Ha as [_ Ha]. destruct r. exact Ha.
        -- unfold with_thr. rewrite Hfat.
           apply (EInv_upd s i (FDelL e (Some l) None) (FScan e)); auto;
             cbn [elen fst snd own pend wt pcwf sumf opt_list]; try lia; try exact He; reflexivity.
    + unfold with_thr. rewrite Hfat.
      apply (EInv_upd s i (FDelL e None rt) (FOffR e None rt)); auto;
        cbn [elen fst snd own pend wt pcwf sumf opt_list opos app]; try lia; auto.
  - (* FUndoR *)
    destruct Hwf as [He [Hr Ha]].
    rewrite (ins_lenoff_ok s i (FUndoR e rt)); auto.
    2:{ cbn [own sumf]. rewrite (cover_start rt Hr). pose proof (cover_01 (fst rt) e). lia. }
    unfold with_thr, with_lenoff.
    cbn [e_lenoff e_offlen e_filelen e_numfree e_used e_thr e_fatal]. rewrite Hfat.
    apply (EInv_upd s i (FUndoR e rt) (FScan e)); auto; cbn [elen fst snd own pend wt pcwf sumf]; try lia.
    intros x [<-|Hx]; [exact Hr|auto].
  - (* FOffR *)
    pose proof Hwf as [He [Hl [Hr Ha]]]. destruct rt as [r|].
    + destruct (rm_offlen_ok s i (FOffR e lf (Some r)) r) as [Er Hin]; auto.
      { cbn [pend opt_list]. apply in_or_app. right. left. reflexivity. }
      { apply pend_le_own. exact Hwf. }
      rewrite Er. unfold with_thr, with_offlen.
      cbn [e_lenoff e_offlen e_filelen e_numfree e_used e_thr e_fatal]. rewrite Hfat.
      apply (EInv_upd s i (FOffR e lf (Some r)) (FOffL e lf (Some r))); auto;
        cbn [own pend wt pcwf]; try lia.
      intros f. rewrite sumf_del by exact Hin. rewrite sumf_app. cbn [opt_list sumf]. lia.
    + unfold with_thr. rewrite Hfat.
      apply (EInv_upd s i (FOffR e lf None) (FOffL e lf None)); auto;
        cbn [own pend wt pcwf]; try lia.
      intros f. rewrite sumf_app. cbn [opt_list sumf]. lia.
  - (* FOffL *)
    pose proof Hwf as [He [Hl [Hr Ha]]]. destruct lf as [l|].
    + destruct (rm_offlen_ok s i (FOffL e (Some l) rt) l) as [Er Hin]; auto.
      { cbn [pend opt_list]. left. reflexivity. }
      { apply pend_le_own. exact Hwf. }
      rewrite Er. unfold with_thr, with_offlen.
      cbn [e_lenoff e_offlen e_filelen e_numfree e_used e_thr e_fatal]. rewrite Hfat.
      apply (EInv_upd s i (FOffL e (Some l) rt) (FInsOff e (Some l) rt)); auto;
        cbn [own pend wt pcwf]; try lia.
      intros f. rewrite sumf_del by exact Hin. cbn [opt_list sumf]. lia.
    + unfold with_thr. rewrite Hfat.
      apply (EInv_upd s i (FOffL e None rt) (FInsOff e None rt)); auto;
        cbn [own pend wt pcwf]; try lia.
  - (* FInsOff *)
    pose proof Hwf as [He [Hl [Hr Ha]]].
    rewrite (ins_offlen_ok s i (FInsOff e lf rt)); auto.
    2:{ cbn [own pend]. rewrite <- cover_merged by assumption. cbn [sumf].
        rewrite cover_start; [lia|]. unfold pos. rewrite snd_merged.
        cbn [sumf elen]. unfold pos, opos in *.
        destruct lf, rt; cbn [opt_list app sumf elen] in *; unfold pos, elen in *; lia. }
    unfold with_thr, with_offlen.
    cbn [e_lenoff e_offlen e_filelen e_numfree e_used e_thr e_fatal]. rewrite Hfat.
    apply (EInv_upd s i (FInsOff e lf rt) (FInsLen e lf rt)); auto.
    + intros b. cbn [own]. rewrite <- cover_merged by assumption. cbn [sumf]. lia.
    + intros f. cbn [pend sumf]. lia.
    + cbn [wt own]. rewrite <- snd_merged. cbn [sumf]. unfold elen. lia.
  - (* FInsLen *)
    pose proof Hwf as [He [Hl [Hr Ha]]].
    assert (Hpm : pos (merged e lf rt)).
    { unfold pos. rewrite snd_merged. cbn [sumf elen]. unfold pos, opos in *.
      destruct lf, rt; cbn [opt_list app sumf elen] in *; unfold pos, elen in *; lia. }
    rewrite (ins_lenoff_ok s i (FInsLen e lf rt)); auto.
    2:{ cbn [own sumf]. rewrite (cover_start _ Hpm). lia. }
    unfold with_thr, with_lenoff.
    cbn [e_lenoff e_offlen e_filelen e_numfree e_used e_thr e_fatal]. rewrite Hfat.
    apply (EInv_upd s i (FInsLen e lf rt) EIdle); auto; cbn [elen fst snd own pend wt pcwf sumf]; try lia.
    intros x [<-|Hx]; [exact Hpm|auto].
Qed.

Lemma decide_adj : forall e c1 c2 lf rt, decide_merge e c1 c2 = (lf, rt) -> adj e lf rt.
Proof.
  intros [o l] c1 c2 lf rt H. unfold decide_merge in H. unfold adj. cbn [fst snd].
  destruct c1 as [[co cl]|]; [|injection H as <- <-; auto].
  destruct (Z.eqb_spec co (o + l)) as [E|E]; cbn [negb] in H.
  - destruct c2 as [[do dl]|]; [|injection H as <- <-; auto].
    destruct (Z.eqb_spec (do + dl) o); injection H as <- <-; auto.
  - destruct (Z.eqb_spec (co + cl) o); injection H as <- <-; auto.
Qed.

Lemma EInv_step : forall s o, EInv s -> EInv (estep s o).
Proof.
  intros s o H.
  pose proof (ei_pos _ H) as [Hp1 Hp2]. pose proof (ei_len _ H) as Hlen.
  pose proof (ei_fatal _ H) as Hfat.
  destruct o as [|i n|i|i e|i e|i c1 c2|i]; cbn [estep].
  - destruct H as [Hc Ho Hn Hp Hw Hl Hf].
    constructor; cbn [e_lenoff e_offlen e_filelen e_numfree e_used e_thr e_fatal sumf own pend wt];
      try assumption; try lia.
    intros pc [<-|Hpc]; [exact I|auto].
  - destruct (nth_error (e_thr s) i) as [pc|] eqn:Hi; [|exact H].
    destruct pc; try exact H.
    destruct (n >? 0) eqn:En; [|exact H].
    unfold with_thr. rewrite Hfat.
    apply (EInv_upd s i EIdle); auto; destruct (e_numfree s <? n);
      cbn [elen fst snd own pend wt pcwf sumf]; try lia.
  - destruct (nth_error (e_thr s) i) as [pc|] eqn:Hi; [|exact H].
    destruct pc; try exact H.
    assert (Hwf : pcwf (GFind n)) by (apply (ei_wf _ H); eapply nth_error_In; eauto).
    unfold with_thr. rewrite Hfat.
    apply (EInv_upd s i (GFind n)); auto.
  - destruct (nth_error (e_thr s) i) as [pc|] eqn:Hi; [|exact H].
    destruct pc; try exact H.
    assert (Hwf : pcwf (GFind n)) by (apply (ei_wf _ H); eapply nth_error_In; eauto).
    destruct (mem e (e_lenoff s) && (n <=? snd e)) eqn:E; [|exact H].
    apply andb_true_iff in E. destruct E as [Em En]. apply mem_In in Em.
    unfold with_thr, with_lenoff, with_numfree.
    cbn [e_lenoff e_offlen e_filelen e_numfree e_used e_thr e_fatal]. rewrite Hfat.
    apply (EInv_upd s i (GFind n)); auto; cbn [elen fst snd own pend wt pcwf sumf] in *; unfold elen in *; try lia.
    + intros b. rewrite sumf_del by exact Em. destruct e. cbn [fst snd]. lia.
    + intros f. rewrite sumf_del by exact Em. destruct e. cbn [fst snd]. lia.
    + rewrite sumf_del by exact Em. unfold elen in *. lia.
    + intros x Hx. apply Hp1. eapply In_del; eauto.
  - destruct (nth_error (e_thr s) i) as [pc|] eqn:Hi; [|exact H].
    destruct pc; try exact H.
    destruct (mem e (e_used s)) eqn:Em; [|exact H]. apply mem_In in Em.
    unfold with_thr, with_used, with_numfree.
    cbn [e_lenoff e_offlen e_filelen e_numfree e_used e_thr e_fatal]. rewrite Hfat.
    apply (EInv_upd s i EIdle); auto; cbn [elen fst snd own pend wt pcwf sumf] in *; unfold elen in *; try lia.
    + intros b. rewrite sumf_del by exact Em. unfold elen in *. lia.
    + intros x Hx. apply Hp2. eapply In_del; eauto.
    + apply Hp2. exact Em.
  - destruct (nth_error (e_thr s) i) as [pc|] eqn:Hi; [|exact H].
    destruct pc; try exact H.
    assert (Hwf : pcwf (FScan e)) by (apply (ei_wf _ H); eapply nth_error_In; eauto).
    destruct (decide_merge e c1 c2) as [lf rt] eqn:Ed. apply decide_adj in Ed.
    unfold with_thr. rewrite Hfat.
    apply (EInv_upd s i (FScan e)); auto; cbn [elen fst snd own pend wt pcwf sumf] in *; unfold elen in *; try lia.
    split; assumption.
  - destruct (nth_error (e_thr s) i) as [pc|] eqn:Hi; [|exact H].
    apply EInv_plain; assumption.
Qed.

Lemma EInv_run : forall ops, EInv (run estep einit ops).
Proof. intros. apply run_inv; [exact EInv_step|exact EInv_init]. Qed.
