(** * GenClientSpec: hand-written implementations over any storage, what they may do and where
    the output must be.  Vocabulary of ClientSpec.v. *)
From Verif Require Import Base Types Storage Serializer Spec Client ClientSpec GenStorage GenSpec GenSerSpec.
Local Open Scope N_scope.

(** An implementation that makes no calls on the storage itself, does not panic, and pushes no
    empty slices but those of zero-sized types. *)
Definition plain_slice (l : layout) (n : N) : bool := (l_size l =? 0) || (0 <? n).
Fixpoint plain (s : step) : bool :=
  match s with
  | SPush _ l _ n body => plain_slice l n && forallb plain body
  | SPushPlain _ l _ n | SRaw l _ n => plain_slice l n
  | SStore _ | SPanic => false
  | _ => true
  end.

(** An implementation that pushes no empty slices but those of zero-sized types and makes storage calls
    the storage's contract decides (GenSpec.v); it may panic. *)
Fixpoint proper {P : Params} (empties : bool) (s : step) : Prop :=
  match s with
  | SPush _ l _ n body => plain_slice l n = true /\
      (fix all (ss : list step) : Prop := match ss with [] => True | s :: ss' => proper empties s /\ all ss' end) body
  | SPushPlain _ l _ n | SRaw l _ n => plain_slice l n = true
  | SStore o => op_in_contract empties o
  | _ => True
  end.
Definition root_proper {P : Params} (empties : bool) (r : layout * N * list step) : Prop := Forall (proper empties) (snd r).

(** Values (layout, address) with the calls of their serialize_data: the positions they go to and
    the position after them, [cur] being that before. *)
Section GenClientSpec.
Context {P : Params}.
Variable k : kind.
Variable E : tenv.
Variable m : mem.

Fixpoint roots_pos (cur : N) (rs : list (layout * N * list step)) : list N :=
  match rs with
  | [] => []
  | (l, _, ss) :: rs' => push_start cur l :: roots_pos (steps_end E (push_end cur l 1) ss) rs'
  end.
Fixpoint roots_end (cur : N) (rs : list (layout * N * list step)) : N :=
  match rs with
  | [] => cur
  | (l, _, ss) :: rs' => roots_end (steps_end E (push_end cur l 1) ss) rs'
  end.
(** Every value has its image, one after the other from position [cur] on. *)
Fixpoint regions (Mo : mem) (B : N) (cur : N) (rs : list (layout * N * list step)) : Prop :=
  match rs with
  | [] => True
  | (l, a, ss) :: rs' =>
      region k E m Mo B (push_start cur l) a (l_size l) (push_end cur l 1) ss /\
      regions Mo B (steps_end E (push_end cur l 1) ss) rs'
  end.

(** What became of several values, as [attempts] of ClientSpec.v: a value has its image, at the
    next position for its layout, or there was a panic.  Then its implementation panics, or the
    storage's reserve refused a request that is part of this value's output; and the output
    goes on at some later position. *)
Inductive g_attempts {St} (I : storage_impl St) (inv : St -> Prop) (Mo : mem) (B : N) :
    N -> list (layout * N * list step) -> list (N * option N) -> N -> Prop :=
| GA_nil b : g_attempts I inv Mo B b [] [] b
| GA_some b l a ss rs outs e :
    region k E m Mo B (push_start b l) a (l_size l) (push_end b l 1) ss ->
    g_attempts I inv Mo B (steps_end E (push_end b l 1) ss) rs outs e ->
    g_attempts I inv Mo B b ((l, a, ss) :: rs) ((b, Some (push_start b l)) :: outs) e
| GA_none b l a ss rs outs e b' :
    (existsb may_panic ss = true \/
     exists x, refused_within I inv b (steps_end E (push_end b l 1) ss) x) ->
    b <= b' -> g_attempts I inv Mo B b' rs outs e ->
    g_attempts I inv Mo B b ((l, a, ss) :: rs) ((b, None) :: outs) e.
End GenClientSpec.

Definition root_plain (r : layout * N * list step) : Prop := forallb plain (snd r) = true.
