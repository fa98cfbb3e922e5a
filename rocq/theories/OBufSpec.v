(** What the block cache promises (properties C30, C31): the log of calls, in the order
    they took effect, is that of plain memory. *)
From Coq Require Import ZArith List Bool.
From Verif Require Import Base OBufModel.
Import ListNotations.
Open Scope Z_scope.

(** Contents of every block after a log of calls, starting from [f]. *)
Definition apply_ev (f : key -> bytes) (e : event) : key -> bytes :=
  match e with
  | EvWrite _ k off len d => kupd f k (put (f k) off len d)
  | _ => f
  end.
Definition content (f : key -> bytes) (l : list event) : key -> bytes := fold_left apply_ev l f.

Definition writes_to (k : key) (e : event) : bool :=
  match e with EvWrite _ k' _ _ _ => key_eqb k' k | _ => false end.

Definition agree (BS : Z) (a b : bytes) : Prop := forall j, 0 <= j < BS -> a j = b j.

(** [e] is right after [pre]: a read returns the last values written; a call that found
    no file concerns a block that was never written; at the end of a flush the file
    holds every block of its range that was not written since the flush began. *)
Definition event_ok (BS : Z) (f : key -> bytes) (pre : list event) (e : event) : Prop :=
  match e with
  | EvRead _ k off len r => forall j, 0 <= j < len -> r j = content f pre k (off + j)
  | EvWrite _ _ _ _ _ => True
  | EvMiss _ k => agree BS (content f pre k) (fun _ => 0)
  | EvSync _ t a b n0 g => forall blk, 0 <= blk -> a <= blk <= b ->
      forallb (fun e => negb (writes_to (t, blk) e)) (skipn (Z.to_nat n0) pre) = true ->
      agree BS (g (t, blk)) (content f pre (t, blk))
  end.
Definition consistent (BS : Z) (f : key -> bytes) (l : list event) : Prop :=
  forall pre e post, l = pre ++ e :: post -> event_ok BS f pre e.

(** The initial files are sane: what does not exist reads as zeros. *)
Definition files_ok (bpf : Z) (f : key -> bytes) (ex : key -> bool) : Prop :=
  forall k, ex (fileof bpf k) = false -> forall j, f k j = 0.

(** The obligations of callers.  A write with mark_clean repeats what is in the file
    (o_buffers.c:336-342).  A missing_ok call does not find the file missing while another
    process waits for the buffer it is loading (the race of C31).  Direct writes are
    only done when no one uses the cache. *)
Definition step_ok (BS bpf : Z) (s : st) (x : op) : Prop :=
  match x with
  | OStep p =>
      match pcs s p with
      | Load o n => o_mok o = true -> fex s (fileof bpf (o_key o)) = false ->
                    forall q o', pcs s q <> WaitS o' n /\ pcs s q <> WaitX o' n
      | Have o n _ => o_write o = true -> o_clean o = true ->
                      agree BS (put (s_data (slots s n)) (o_off o) (o_len o) (o_dat o)) (file s (o_key o))
      | D1 _ _ | D2 _ _ _ | D3 _ _ => False
      | _ => True
      end
  | ODirect _ _ _ => False
  | _ => True
  end.

(** [c] is inside a call that concerns group [g] (o_buffers.c:231), or a flush. *)
Definition in_group (G g : Z) (c : pc) : Prop :=
  match c with
  | Idle => False
  | Lookup o | WaitS o _ | Excl o | Search o _ _ _ | WaitX o _ | Victim o _ | Evict o _ _ _ | Load o _ | Have o _ _ =>
      grp G (o_key o) = g
  | _ => True
  end.

(** A schedule is a list of single steps, and of direct page writes done while no one
    else is inside a call concerning a block of the same group. *)
Inductive item := IOp (x : op) | IDirect (p : Z) (k : key) (d : bytes).

Definition exec (BS bpf G : Z) (s : st) (i : item) : st :=
  match i with
  | IOp x => step BS bpf G s x
  | IDirect p k d => run (step BS bpf G) s [ODirect p k d; OStep p; OStep p; OStep p]
  end.

Fixpoint schedule_ok (BS bpf G : Z) (s : st) (l : list item) : Prop :=
  match l with
  | [] => True
  | i :: r =>
      match i with
      | IOp x => step_ok BS bpf s x
      | IDirect p k _ => 0 <= snd k /\ pcs s p = Idle /\ forall q, ~ in_group G (grp G k) (pcs s q)
      end /\ schedule_ok BS bpf G (exec BS bpf G s i) r
  end.

(** Calls without the special options. *)
Definition plain_op (x : op) : bool :=
  match x with
  | OStart _ o => negb (o_mok o) && negb (o_clean o)
  | ODirect _ _ _ => false
  | _ => true
  end.

(** The parts of a call over several blocks follow each other: they cover exactly the
    [size] bytes from byte [off] of tag [tag], each part inside one block, and the
    part that starts [ptr] bytes into the call takes its data from there. *)
Fixpoint covers (BS tag : Z) (buf : bytes) (off size ptr : Z) (l : list bop) : Prop :=
  match l with
  | [] => size = 0
  | o :: r =>
      fst (o_key o) = tag /\ snd (o_key o) * BS + o_off o = off /\
      0 <= o_off o /\ 0 < o_len o /\ o_off o + o_len o <= BS /\
      (forall j, o_dat o j = buf (ptr + j)) /\
      covers BS tag buf (off + o_len o) (size - o_len o) (ptr + o_len o) r
  end.

(** Byte [x] of tag [tag] of the whole file set. *)
Definition byte_at (BS : Z) (f : key -> bytes) (tag x : Z) : Z := f (tag, x / BS) (x mod BS).
