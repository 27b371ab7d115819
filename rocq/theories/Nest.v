(** * Nest: which calls of serialize_data a call of serialize_data makes, and how deep they nest (C99). *)
From Coq Require Import Arith.
From Verif Require Import Base Types Storage Serializer Serialize Client Spec Derive DeriveSpec
  GenStorage GenSerializer Mixed Deleg.
Local Open Scope N_scope.

Section Nest.
Context {P : Params} {L : Lexer}.
Variable pg : program.
Variable m : mem.
Notation E := (pr_env pg).

(** The values a call of a hand-written body hands on (serialize.rs:97-102), the value being processed lying at [a]; those of
    the body of a push_and_process_slice (serializer.rs:333-342) too. *)
Fixpoint handed (a : N) (s : step) : list (ty * N) :=
  match s with
  | SPush _ _ tp _ body => flat_map (handed tp) body
  | SField off t _ => [(t, a + off)]
  | _ => []
  end.
(** Each of the fields of a struct, a tuple or a variant (multiples.rs:22-26, structs.rs:25-29, enums.rs:106-115). *)
Definition each_field (fs : list (N * ty)) (a : N) : list (ty * N) := map (fun f => (snd f, a + fst f)) fs.
(** Each of [n] values side by side (ptrs.rs:69-71, multiples.rs:9-11). *)
Definition each_elem (t : ty) (n : nat) (a : N) : list (ty * N) :=
  map (fun i => (t, a + N.of_nat i * size_of E t)) (seq 0 n).
(** What a generated statement for a field calls: the field's own impl, or a proxy (structs.rs:56-73). *)
Definition through (c : callee) (t : ty) (a : N) : list (ty * N) :=
  match c with
  | CSerialize => [(t, a)]
  | CWith w => flat_map (handed a) (pr_with pg w t m a)
  end.
Definition each_statement (i : input) (v : option nat) (fs : list (N * ty)) (a : N) : list (ty * N) :=
  match generated i v with
  | Some cs => flat_map (fun c => match nth_error fs (snd c) with Some (off, t) => through (fst c) t (a + off) | None => [] end) cs
  | None => []
  end.
Definition each_of_variant (d : discr) (vss : list (list (N * ty))) (a : N) (f : nat -> list (N * ty) -> list (ty * N)) : list (ty * N) :=
  match read_discr m a d with
  | Some v => match nth_error vss v with Some fs => f v fs | None => [] end
  | None => []
  end.

(** The calls of serialize_data (type, address) which serialize_data of the [t] at [a] makes itself: what is behind a Box or
    in a Vec unless it has size 0 (ptrs.rs:12-29, :37-73), the elements of an array, the fields of a struct, a tuple, a variant,
    and what the program's own impls call. *)
Definition callees (x : ty * N) : list (ty * N) :=
  let (t, a) := x in
  match t with
  | TPrim _ _ | TString _ => []
  | TBox t' => if size_of E t' =? 0 then [] else match read_word m a with Some p => [(t', p)] | None => [] end
  | TVec vl t' =>
      if size_of E t' =? 0 then []
      else match read_word m (a + len_off vl), read_word m (a + ptr_off vl) with
           | Some len, Some p => each_elem t' (N.to_nat len) p
           | _, _ => []
           end
  | TArray t' n => each_elem t' (N.to_nat n) a
  | TStruct _ fs => each_field fs a
  | TEnum _ d vss => each_of_variant d vss a (fun _ fs => each_field fs a)
  | TNamed id =>
      match impl_for pg id, E id with
      | IHand h, _ => flat_map (handed a) (h m a)
      | IDerived i, Some (TStruct _ fs) => each_statement i None fs a
      | IDerived i, Some (TEnum _ d vss) => each_of_variant d vss a (fun v fs => each_statement i (Some v) fs a)
      | _, _ => []
      end
  end.

(** At most [n] calls are active at once. *)
Inductive nested : nat -> ty * N -> Prop :=
| Nested n x : (forall y, In y (callees x) -> nested n y) -> nested (S n) x.

(** Calls that go round in a circle, or on forever: each of them makes another of them. *)
Definition goes_on (S : ty * N -> Prop) : Prop := forall x, S x -> exists y, In y (callees x) /\ S y.
End Nest.

(** The methods of a storage come to an end: return, panic or abort. *)
Definition storage_ends {St} (R : ra_impl St) : Prop :=
  (forall n s, i_set_pos (r_st R) n s <> OutOfFuel) /\
  (forall l n d sz s, i_push_slice_unchecked (r_st R) l n d sz s <> OutOfFuel) /\
  (forall n s, i_reserve (r_st R) n s <> OutOfFuel) /\
  (forall s, i_shrink_to_fit (r_st R) s <> OutOfFuel) /\
  (forall pos l n d s, r_write_slice R pos l n d s <> OutOfFuel) /\
  (forall sh pos s, r_correct_ptr R sh pos s <> OutOfFuel).
