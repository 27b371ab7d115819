(** * Mixed: programs whose types mix derived, built-in and hand-written implementations.

    A program's named types get their Serialize impl from derive(Serialize), whose generated code
    (Derive.v) is run here field by field, or are implemented by hand (Client.v); fields may go through a
    #[ser_with] proxy.  Box, Vec, String, arrays, tuples and Option of such types are the crate's
    own impls (Serialize.v), which call those of the types they are made of. *)
From Coq Require Import Arith.
From Verif Require Import Base Types Storage Serializer Serialize Client Spec ClientSpec Derive DeriveSpec.
Local Open Scope N_scope.

Section Mixed.
Context {P : Params} {L : Lexer}.

(** [pr_env]: the named types and their layouts.
    [pr_derived id]: the declaration, if it has #[derive(Serialize)].
    [pr_hand id]: a hand-written impl of Serialize (serialize.rs:97-102): the calls serialize_data makes for the value
      at an address of a memory, those made for it by other hand-written impls it calls included ([SField]: a field
      of a type without any).
    [pr_with w t]: the impl of SerializeWith<t> for the proxy [w] (serialize.rs:137-142), likewise. *)
Record program := mkProgram {
  pr_env : tenv;
  pr_derived : nat -> option input;
  pr_hand : nat -> option (mem -> N -> list step);
  pr_with : path -> ty -> mem -> N -> list step
}.

Variable pg : program.
Variable k : kind.
Variable m : mem.
Variable sf : nat.      (* bounds the nesting of the fields hand-written impls delegate to *)
Notation E := (pr_env pg).

(** ** Running the program *)

(** structs.rs:56-73, enums.rs:106-115: one generated statement, on a field of type [t] at [a]. *)
Definition callee_run (rec : ty -> N -> M zs unit) (c : callee) (t : ty) (a : N) : M zs unit :=
  match c with
  | CSerialize => rec t a
  | CWith w => run_steps k E m sf a (pr_with pg w t m a)
  end.
(** The statements, one after the other; a call names the index of a field (Derive.v). *)
Fixpoint exec (rec : ty -> N -> M zs unit) (fs : list (N * ty)) (a : N) (cs : list call) : M zs unit :=
  match cs with
  | [] => ret tt
  | (c, n) :: cs' =>
      match nth_error fs n with
      | Some (off, t) => callee_run rec c t (a + off) ;;; exec rec fs a cs'
      | None => panics PAssert
      end
  end.

(** The calls made by what the macro generates for the declaration (ser_raw_derive/src/lib.rs:22-31),
    for a value in variant [v].  [None]: it does not compile. *)
Definition generated (i : input) (v : option nat) : option (list call) :=
  match derive_serialize i with
  | MacroPanic => None
  | Gen im =>
      match i_data i, v with
      | DStruct fs, None => run_struct fs (im_body im)
      | DEnum vs, Some n =>
          match nth_error vs n with Some v => run_enum v (im_body im) | None => None end
      | _, _ => None
      end
  end.
Definition exec_derived (rec : ty -> N -> M zs unit) (i : input) (v : option nat) (fs : list (N * ty)) (a : N) : M zs unit :=
  match generated i v with
  | Some cs => exec rec fs a cs
  | None => panics PAssert
  end.

(** What a named type is serialized by. *)
Inductive impl_of := IDerived (i : input) | IHand (h : mem -> N -> list step) | INone.
Definition impl_for (id : nat) : impl_of :=
  match pr_hand pg id with
  | Some h => IHand h
  | None => match pr_derived pg id with Some i => IDerived i | None => INone end
  end.

(** <T as Serialize>::serialize_data: as Serialize.ser_data (primitives.rs:9, ptrs.rs:12-104, multiples.rs:8-26,
    other.rs:8-12), except for the types of the program. *)
Fixpoint mx_data (fuel : nat) (t : ty) (a : N) : M zs unit :=
  match fuel with
  | O => fun _ => OutOfFuel
  | S fuel' =>
      match t with
      | TPrim _ _ => ret tt
      | TBox t' => ser_box k E m t' a (mx_data fuel')
      | TVec vl t' => ser_vec k E m vl t' a (mx_data fuel')
      | TString vl => ser_string k m vl a
      | TArray t' n => for_elems (N.to_nat n) a (size_of E t') (mx_data fuel' t')
      | TStruct _ fs => for_fields fs a (mx_data fuel')
      | TEnum _ d vss =>
          match read_discr m a d with
          | Some v =>
              match nth_error vss v with
              | Some fs => for_fields fs a (mx_data fuel')
              | None => ub
              end
          | None => ub
          end
      | TNamed id =>
          match impl_for id, E id with
          | IHand h, _ => run_steps k E m sf a (h m a)
          | IDerived i, Some (TStruct _ fs) => exec_derived (mx_data fuel') i None fs a
          | IDerived i, Some (TEnum _ d vss) =>
              match read_discr m a d with
              | Some v =>
                  match nth_error vss v with
                  | Some fs => exec_derived (mx_data fuel') i (Some v) fs a
                  | None => ub
                  end
              | None => ub
              end
          | _, _ => panics PAssert
          end
      end
  end.

(** serializer.rs:260-269 serialize_value, :217-221 serialize *)
Definition mx_serialize_value (fuel : nat) (t : ty) (a : N) : M zs N :=
  serialize_value_with k (slice_at m (layout_of E t) a 1) (mx_data fuel t a).
Definition mx_serialize (fuel : nat) (t : ty) (a : N) : M zs N :=
  pos <- mx_serialize_value fuel t a ;;
  finalize k ;;;
  ret pos.

(** ** Which programs compile *)

(** The declaration has the fields the type has; the macro accepts it; in a struct, #[ser_with] is used as documented. *)
Inductive fits (i : input) : ty -> Prop :=
| F_struct l fs dfs im :
    i_data i = DStruct dfs -> legal_fields dfs -> length (field_list dfs) = length fs ->
    derive_serialize i = Gen im -> (forall f, In f (field_list dfs) -> exists c, wanted f c) ->
    fits i (TStruct l fs)
| F_enum l d vss vs im :
    i_data i = DEnum vs -> legal_variants vs ->
    Forall2 (fun v fs => length (field_list (v_fields v)) = length fs) vs vss ->
    derive_serialize i = Gen im ->
    fits i (TEnum l d vss).
Definition program_ok : Prop := forall id d, E id = Some d ->
  match impl_for id with
  | IHand _ => True
  | IDerived i => fits i d
  | INone => False
  end.

(** ** The calls a value makes

    [makes t a ss]: serializing the [t] at [a] makes the calls [ss] (offsets from [a]). *)

(** The calls of a part of the value, at offset [d]. *)
Definition shift (d : N) (s : step) : step :=
  match s with
  | SPush off l tp n body => SPush (d + off) l tp n body
  | SPushPlain off l tp n => SPushPlain (d + off) l tp n
  | SOver off l data => SOver (d + off) l data
  | SField off t v => SField (d + off) t v
  | SRaw _ _ _ | SStore _ | SPanic => s
  end.

(** The header of an emptied Vec: capacity 0, dangling pointer (ptrs.rs:219-276). *)
Definition emptied (vl : vlay) (dangle : N) : list step :=
  match vl with
  | CPL => [SOver 0 two_words_layout (two_words 0 dangle)]
  | PCL => [SOver 0 two_words_layout (two_words dangle 0)]
  | LCP => [SOver pW two_words_layout (two_words 0 dangle)]
  | LPC => [SOver pW two_words_layout (two_words dangle 0)]
  | CLP | PLC => [SOver (cap_off vl) usize_layout (word_src 0); SOver (ptr_off vl) usize_layout (word_src dangle)]
  end.
(** What is overwritten in the header of a Vec with this capacity and length. *)
Definition header_calls (vl : vlay) (dangle cap len : N) : list step :=
  if cap =? len then [] else if len =? 0 then emptied vl dangle else [SOver (cap_off vl) usize_layout (word_src len)].

Inductive makes : ty -> N -> list step -> Prop :=
| K_prim l ok a : makes (TPrim l ok) a []
| K_box t a p ss :
    size_of E t <> 0 -> read_word m a = Some p -> makes t p ss ->
    makes (TBox t) a [SPush 0 (layout_of E t) p 1 ss]
| K_box_zst t a : size_of E t = 0 -> makes (TBox t) a []
| K_vec vl t a p cap len ss :
    size_of E t <> 0 -> read_word m (a + cap_off vl) = Some cap -> read_word m (a + ptr_off vl) = Some p ->
    read_word m (a + len_off vl) = Some len -> len <> 0 ->
    makes_elems t (N.to_nat len) 0 p ss ->
    makes (TVec vl t) a (header_calls vl (align_of E t) cap len ++ [SPush (ptr_off vl) (layout_of E t) p len ss])
| K_vec_empty vl t a cap :
    size_of E t <> 0 -> read_word m (a + cap_off vl) = Some cap -> read_word m (a + len_off vl) = Some 0 ->
    makes (TVec vl t) a (header_calls vl (align_of E t) cap 0)
| K_vec_zst vl t a : size_of E t = 0 -> makes (TVec vl t) a []
| K_string vl a p cap len :
    read_word m (a + cap_off vl) = Some cap -> read_word m (a + ptr_off vl) = Some p ->
    read_word m (a + len_off vl) = Some len -> len <> 0 ->
    makes (TString vl) a (header_calls vl 1 cap len ++ [SPushPlain (ptr_off vl) u8_layout p len])
| K_string_empty vl a cap :
    read_word m (a + cap_off vl) = Some cap -> read_word m (a + len_off vl) = Some 0 ->
    makes (TString vl) a (header_calls vl 1 cap 0)
| K_array t n a ss : makes_elems t (N.to_nat n) 0 a ss -> makes (TArray t n) a ss
| K_struct l fs a ss : makes_fields fs (map (fun _ => CSerialize) fs) a ss -> makes (TStruct l fs) a ss
| K_enum l d vss a v fs ss :
    read_discr m a d = Some v -> nth_error vss v = Some fs ->
    makes_fields fs (map (fun _ => CSerialize) fs) a ss -> makes (TEnum l d vss) a ss
| K_hand id h a : impl_for id = IHand h -> makes (TNamed id) a (h m a)
(** A derived struct: each field in order, by its own impl or by the proxy it is annotated with. *)
| K_derived id i l fs dfs cs a ss :
    impl_for id = IDerived i -> E id = Some (TStruct l fs) -> i_data i = DStruct dfs ->
    Forall2 wanted (field_list dfs) cs -> makes_fields fs cs a ss ->
    makes (TNamed id) a ss
(** A derived enum: the fields of the variant the value is in (#[ser_with] is ignored there, C36_enum_ignores). *)
| K_derived_enum id i l d vss v fs a ss :
    impl_for id = IDerived i -> E id = Some (TEnum l d vss) ->
    read_discr m a d = Some v -> nth_error vss v = Some fs ->
    makes_fields fs (map (fun _ => CSerialize) fs) a ss ->
    makes (TNamed id) a ss
(** [makes_elems t n off a ss]: [n] values from offset [off] on. *)
with makes_elems : ty -> nat -> N -> N -> list step -> Prop :=
| KE_nil t off a : makes_elems t O off a []
| KE_cons t n off a s1 s2 :
    makes t (a + off) s1 -> makes_elems t n (off + size_of E t) a s2 ->
    makes_elems t (S n) off a (map (shift off) s1 ++ s2)
with makes_fields : list (N * ty) -> list callee -> N -> list step -> Prop :=
| KF_nil a : makes_fields [] [] a []
| KF_own off t fs cs a s1 s2 :
    makes t (a + off) s1 -> makes_fields fs cs a s2 ->
    makes_fields ((off, t) :: fs) (CSerialize :: cs) a (map (shift off) s1 ++ s2)
| KF_with off t fs w cs a s2 :
    makes_fields fs cs a s2 ->
    makes_fields ((off, t) :: fs) (CWith w :: cs) a (map (shift off) (pr_with pg w t m (a + off)) ++ s2).

(** The hand-written implementations keep to the rules (ClientSpec.v) on the values of their types. *)
Definition keeps_rules (t : ty) (ss : mem -> N -> list step) : Prop :=
  forall a v, repr E any_header m t a v -> a + size_of E t <= umod ->
    steps_ok E m sf (size_of E t) (align_of E t) a (ss m a).
(** [w] is the proxy of some field of type [t]. *)
Definition proxied (w : path) (t : ty) : Prop :=
  exists id i l fs dfs n f off, impl_for id = IDerived i /\ E id = Some (TStruct l fs) /\ i_data i = DStruct dfs /\
    nth_error (field_list dfs) n = Some f /\ annotated f w /\ nth_error fs n = Some (off, t).
Definition well_behaved : Prop :=
  (forall id h, impl_for id = IHand h -> keeps_rules (TNamed id) h) /\
  (forall w t, proxied w t -> keeps_rules t (pr_with pg w t)).

End Mixed.
