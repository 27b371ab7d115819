(** * Deleg: hand-written implementations that hand parts of their value on to other implementations.

    The most usual body of a hand-written serialize_data is [self.field.serialize_data(serializer)]
    for some fields and something of its own for others.  In Mixed.v such a call ([SField]) runs the crate's own impls
    only; here it runs the impl the program has for the field's type, be it the crate's, derived or
    again hand-written, to any depth. *)
From Coq Require Import Arith.
From Verif Require Import Base Types Storage Serializer Serialize Client Spec ClientSpec Derive DeriveSpec
  GenStorage GenSerializer GenClient Mixed PropMixedSession.
Local Open Scope N_scope.

(** ** Running the program *)
Section Run.
Context {P : Params} {L : Lexer}.
Variable pg : program.
Variable k : kind.
Variable m : mem.
Notation E := (pr_env pg).

(** One call of a hand-written serialize_data (serialize.rs:97-102, :137-142); [rec] is serialize_data of the types of the
    program. *)
Fixpoint dx_step (rec : ty -> N -> M zs unit) (a : N) (s : step) : M zs unit :=
  match s with
  | SPush off l tp n body =>
      ad <- addr_from_ref_offset k a off ;;
      push_and_process_slice k (slice_at m l tp n) ad
        ((fix go (ss : list step) : M zs unit :=
            match ss with
            | [] => ret tt
            | s :: ss' => dx_step rec tp s ;;; go ss'
            end) body) ;;;
      ret tt
  | SField off t _ => rec t (a + off)
  | _ => run_step k E m 0 a s
  end.
Fixpoint dx_steps (rec : ty -> N -> M zs unit) (a : N) (ss : list step) : M zs unit :=
  match ss with
  | [] => ret tt
  | s :: ss' => dx_step rec a s ;;; dx_steps rec a ss'
  end.

(** Generated statements (structs.rs:56-73, enums.rs:106-115). *)
Definition dx_callee (rec : ty -> N -> M zs unit) (c : callee) (t : ty) (a : N) : M zs unit :=
  match c with
  | CSerialize => rec t a
  | CWith w => dx_steps rec a (pr_with pg w t m a)
  end.
Fixpoint dx_exec (rec : ty -> N -> M zs unit) (fs : list (N * ty)) (a : N) (cs : list call) : M zs unit :=
  match cs with
  | [] => ret tt
  | (c, n) :: cs' =>
      match nth_error fs n with
      | Some (off, t) => dx_callee rec c t (a + off) ;;; dx_exec rec fs a cs'
      | None => panics PAssert
      end
  end.
Definition dx_derived (rec : ty -> N -> M zs unit) (i : input) (v : option nat) (fs : list (N * ty)) (a : N) : M zs unit :=
  match generated i v with
  | Some cs => dx_exec rec fs a cs
  | None => panics PAssert
  end.

(** <T as Serialize>::serialize_data, as Mixed.mx_data (primitives.rs:9, ptrs.rs:12-104, multiples.rs:8-26, other.rs:8-12 and
    the program's own impls). *)
Fixpoint dx_data (fuel : nat) (t : ty) (a : N) : M zs unit :=
  match fuel with
  | O => fun _ => OutOfFuel
  | S fuel' =>
      match t with
      | TPrim _ _ => ret tt
      | TBox t' => ser_box k E m t' a (dx_data fuel')
      | TVec vl t' => ser_vec k E m vl t' a (dx_data fuel')
      | TString vl => ser_string k m vl a
      | TArray t' n => for_elems (N.to_nat n) a (size_of E t') (dx_data fuel' t')
      | TStruct _ fs => for_fields fs a (dx_data fuel')
      | TEnum _ d vss =>
          match read_discr m a d with
          | Some v =>
              match nth_error vss v with
              | Some fs => for_fields fs a (dx_data fuel')
              | None => ub
              end
          | None => ub
          end
      | TNamed id =>
          match impl_for pg id, E id with
          | IHand h, _ => dx_steps (dx_data fuel') a (h m a)
          | IDerived i, Some (TStruct _ fs) => dx_derived (dx_data fuel') i None fs a
          | IDerived i, Some (TEnum _ d vss) =>
              match read_discr m a d with
              | Some v =>
                  match nth_error vss v with
                  | Some fs => dx_derived (dx_data fuel') i (Some v) fs a
                  | None => ub
                  end
              | None => ub
              end
          | _, _ => panics PAssert
          end
      end
  end.

(** serializer.rs:260-269 serialize_value, :217-221 serialize *)
Definition dx_serialize_value (fuel : nat) (t : ty) (a : N) : M zs N :=
  serialize_value_with k (slice_at m (layout_of E t) a 1) (dx_data fuel t a).
Definition dx_serialize (fuel : nat) (t : ty) (a : N) : M zs N :=
  pos <- dx_serialize_value fuel t a ;;
  finalize k ;;;
  ret pos.
(** Many values, each under catch_unwind, then finalize (serializer.rs:260-269, :491, :503-505; as PropMixedSession.mx_session). *)
Fixpoint dx_attempt_all (fuel : nat) (xs : list (ty * N)) : M zs (list (N * option N)) :=
  match xs with
  | [] => ret []
  | (t, a) :: xs' =>
      b <- ser_pos ;;
      r <- catch (dx_serialize_value fuel t a) ;;
      outs <- dx_attempt_all fuel xs' ;;
      ret ((b, r) :: outs)
  end.
Definition dx_session (fuel : nat) (xs : list (ty * N)) : M zs (list (N * option N)) :=
  outs <- dx_attempt_all fuel xs ;;
  finalize k ;;;
  ret outs.
End Run.

(** ** The same over any storage (GenSerializer.v) *)
Section GenRun.
Context {P : Params} {L : Lexer}.
Context {St : Type}.
Variable R : ra_impl St.
Variable pg : program.
Variable k : kind.
Variable m : mem.
Notation E := (pr_env pg).

(** serialize.rs:97-102, :137-142 *)
Fixpoint g_dx_step (rec : ty -> N -> M (gz St) unit) (a : N) (s : step) : M (gz St) unit :=
  match s with
  | SPush off l tp n body =>
      ad <- addr_from_ref_offset k a off ;;
      g_push_and_process_slice R k (slice_at m l tp n) ad
        ((fix go (ss : list step) : M (gz St) unit :=
            match ss with
            | [] => ret tt
            | s :: ss' => g_dx_step rec tp s ;;; go ss'
            end) body) ;;;
      ret tt
  | SField off t _ => rec t (a + off)
  | _ => g_run_step R k E m 0 a s
  end.
Fixpoint g_dx_steps (rec : ty -> N -> M (gz St) unit) (a : N) (ss : list step) : M (gz St) unit :=
  match ss with
  | [] => ret tt
  | s :: ss' => g_dx_step rec a s ;;; g_dx_steps rec a ss'
  end.
(** structs.rs:56-73, enums.rs:106-115 *)
Definition g_dx_callee (rec : ty -> N -> M (gz St) unit) (c : callee) (t : ty) (a : N) : M (gz St) unit :=
  match c with
  | CSerialize => rec t a
  | CWith w => g_dx_steps rec a (pr_with pg w t m a)
  end.
Fixpoint g_dx_exec (rec : ty -> N -> M (gz St) unit) (fs : list (N * ty)) (a : N) (cs : list call) : M (gz St) unit :=
  match cs with
  | [] => ret tt
  | (c, n) :: cs' =>
      match nth_error fs n with
      | Some (off, t) => g_dx_callee rec c t (a + off) ;;; g_dx_exec rec fs a cs'
      | None => panics PAssert
      end
  end.
Definition g_dx_derived (rec : ty -> N -> M (gz St) unit) (i : input) (v : option nat) (fs : list (N * ty)) (a : N) : M (gz St) unit :=
  match generated i v with
  | Some cs => g_dx_exec rec fs a cs
  | None => panics PAssert
  end.
(** primitives.rs:9, ptrs.rs:12-104, multiples.rs:8-26, other.rs:8-12 and the program's own impls *)
Fixpoint g_dx_data (fuel : nat) (t : ty) (a : N) : M (gz St) unit :=
  match fuel with
  | O => fun _ => OutOfFuel
  | S fuel' =>
      match t with
      | TPrim _ _ => ret tt
      | TBox t' => g_ser_box R k E m t' a (g_dx_data fuel')
      | TVec vl t' => g_ser_vec R k E m vl t' a (g_dx_data fuel')
      | TString vl => g_ser_string R k m vl a
      | TArray t' n => g_for_elems (N.to_nat n) a (size_of E t') (g_dx_data fuel' t')
      | TStruct _ fs => g_for_fields fs a (g_dx_data fuel')
      | TEnum _ d vss =>
          match read_discr m a d with
          | Some v =>
              match nth_error vss v with
              | Some fs => g_for_fields fs a (g_dx_data fuel')
              | None => ub
              end
          | None => ub
          end
      | TNamed id =>
          match impl_for pg id, E id with
          | IHand h, _ => g_dx_steps (g_dx_data fuel') a (h m a)
          | IDerived i, Some (TStruct _ fs) => g_dx_derived (g_dx_data fuel') i None fs a
          | IDerived i, Some (TEnum _ d vss) =>
              match read_discr m a d with
              | Some v =>
                  match nth_error vss v with
                  | Some fs => g_dx_derived (g_dx_data fuel') i (Some v) fs a
                  | None => ub
                  end
              | None => ub
              end
          | _, _ => panics PAssert
          end
      end
  end.
(** serializer.rs:260-269 serialize_value several times on the same serializer, then finalize (serializer.rs:491). *)
Fixpoint g_dx_values (fuel : nat) (vs : list (ty * N)) : M (gz St) (list N) :=
  match vs with
  | [] => ret []
  | (t, a) :: vs' =>
      pos <- g_serialize_value_with R k (slice_at m (layout_of E t) a 1) (g_dx_data fuel t a) ;;
      ps <- g_dx_values fuel vs' ;;
      ret (pos :: ps)
  end.
Definition g_dx_all (fuel : nat) (vs : list (ty * N)) : M (gz St) (list N) :=
  ps <- g_dx_values fuel vs ;;
  g_finalize R k ;;;
  ret ps.
(** Many values, each under catch_unwind, then finalize (serializer.rs:260-269, :491, :503-505; as [dx_session]). *)
Fixpoint g_dx_attempt_all (fuel : nat) (vs : list (ty * N)) : M (gz St) (list (N * option N)) :=
  match vs with
  | [] => ret []
  | (t, a) :: vs' =>
      b <- gets (fun z => i_pos (r_st R) (gz_st z)) ;;
      r <- g_catch (g_serialize_value_with R k (slice_at m (layout_of E t) a 1) (g_dx_data fuel t a)) ;;
      outs <- g_dx_attempt_all fuel vs' ;;
      ret ((b, r) :: outs)
  end.
Definition g_dx_session (fuel : nat) (vs : list (ty * N)) : M (gz St) (list (N * option N)) :=
  outs <- g_dx_attempt_all fuel vs ;;
  g_finalize R k ;;;
  ret outs.
End GenRun.

(** ** Specification *)
Section Spec.
Context {P : Params} {L : Lexer}.
Variable pg : program.
Variable m : mem.
Notation E := (pr_env pg).

(** The rules for hand-written impls (ClientSpec.v): what one hands on are valid values inside the value it
    was given or inside a slice it pushed, and nested less deep than its own value; a proxy may hand on the field itself. *)
Definition hands_on_well (more : nat) (t : ty) (ss : mem -> N -> list step) : Prop :=
  forall a v, repr E any_header m t a v -> a + size_of E t <= umod ->
    steps_ok E m (more + vdepth v) (size_of E t) (align_of E t) a (ss m a).
Definition delegates_well : Prop :=
  (forall id h, impl_for pg id = IHand h -> hands_on_well 0 (TNamed id) h) /\
  (forall w t, proxied pg w t -> hands_on_well 1 t (pr_with pg w t)).

(** *** The calls, those of the parts handed on written out *)
Definition cat_calls (x y : option (list step)) : option (list step) :=
  match x, y with Some a, Some b => Some (a ++ b) | _, _ => None end.
Definition at_off (off : N) (x : option (list step)) : option (list step) := option_map (map (shift off)) x.
(** [rec t a]: the calls for the [t] at [a]. *)
Fixpoint expand (rec : ty -> N -> option (list step)) (a : N) (s : step) : option (list step) :=
  match s with
  | SPush off l tp n body =>
      match (fix go (ss : list step) : option (list step) :=
               match ss with
               | [] => Some []
               | s :: ss' => cat_calls (expand rec tp s) (go ss')
               end) body with
      | Some b => Some [SPush off l tp n b]
      | None => None
      end
  | SField off t _ => at_off off (rec t (a + off))
  | _ => Some [s]
  end.
Fixpoint expands (rec : ty -> N -> option (list step)) (a : N) (ss : list step) : option (list step) :=
  match ss with
  | [] => Some []
  | s :: ss' => cat_calls (expand rec a s) (expands rec a ss')
  end.
Fixpoint calls_elems (rec : ty -> N -> option (list step)) (t : ty) (n : nat) (off a : N) : option (list step) :=
  match n with
  | O => Some []
  | S n' => cat_calls (at_off off (rec t (a + off))) (calls_elems rec t n' (off + size_of E t) a)
  end.
(** Of the statements generated for some fields. *)
Definition calls_field (rec : ty -> N -> option (list step)) (c : callee) (t : ty) (a : N) : option (list step) :=
  match c with
  | CSerialize => rec t a
  | CWith w => expands rec a (pr_with pg w t m a)
  end.
Fixpoint calls_fields (rec : ty -> N -> option (list step)) (fs : list (N * ty)) (cs : list callee) (a : N) : option (list step) :=
  match fs, cs with
  | [], [] => Some []
  | (off, t) :: fs', c :: cs' => cat_calls (at_off off (calls_field rec c t (a + off))) (calls_fields rec fs' cs' a)
  | _, _ => None
  end.
Definition own_calls_of (rec : ty -> N -> option (list step)) (fs : list (N * ty)) (a : N) : option (list step) :=
  calls_fields rec fs (map (fun _ => CSerialize) fs) a.
Definition variant_calls (rec : ty -> N -> option (list step)) (d : discr) (vss : list (list (N * ty))) (a : N) : option (list step) :=
  match read_discr m a d with
  | Some v => match nth_error vss v with Some fs => own_calls_of rec fs a | None => None end
  | None => None
  end.
(** The calls serializing the [t] at [a] makes, values nested less deep than [fuel]. *)
Fixpoint calls (fuel : nat) (t : ty) (a : N) : option (list step) :=
  match fuel with
  | O => None
  | S fuel' =>
      match t with
      | TPrim _ _ => Some []
      | TBox t' =>
          if size_of E t' =? 0 then Some []
          else match read_word m a with
               | Some p =>
                   match calls fuel' t' p with
                   | Some ss => Some [SPush 0 (layout_of E t') p 1 ss]
                   | None => None
                   end
               | None => None
               end
      | TVec vl t' =>
          if size_of E t' =? 0 then Some []
          else match read_word m (a + cap_off vl), read_word m (a + ptr_off vl), read_word m (a + len_off vl) with
               | Some cap, Some p, Some len =>
                   if len =? 0 then Some (header_calls vl (align_of E t') cap 0)
                   else match calls_elems (calls fuel') t' (N.to_nat len) 0 p with
                        | Some ss => Some (header_calls vl (align_of E t') cap len ++ [SPush (ptr_off vl) (layout_of E t') p len ss])
                        | None => None
                        end
               | _, _, _ => None
               end
      | TString vl =>
          match read_word m (a + cap_off vl), read_word m (a + ptr_off vl), read_word m (a + len_off vl) with
          | Some cap, Some p, Some len =>
              if len =? 0 then Some (header_calls vl 1 cap 0)
              else Some (header_calls vl 1 cap len ++ [SPushPlain (ptr_off vl) u8_layout p len])
          | _, _, _ => None
          end
      | TArray t' n => calls_elems (calls fuel') t' (N.to_nat n) 0 a
      | TStruct _ fs => own_calls_of (calls fuel') fs a
      | TEnum _ d vss => variant_calls (calls fuel') d vss a
      | TNamed id =>
          match impl_for pg id, E id with
          | IHand h, _ => expands (calls fuel') a (h m a)
          | IDerived i, Some (TStruct _ fs) =>
              match generated i None with
              | Some cs => calls_fields (calls fuel') fs (map fst cs) a
              | None => None
              end
          | IDerived i, Some (TEnum _ d vss) => variant_calls (calls fuel') d vss a
          | _, _ => None
          end
      end
  end.
End Spec.

(** The program with all that is handed on written out (to depth [F]). *)
Definition or_panic (o : option (list step)) : list step := match o with Some ss => ss | None => [SPanic] end.
Definition written_out {P : Params} {L : Lexer} (pg : program) (m : mem) (F : nat) : program := {|
  pr_env := pr_env pg;
  pr_derived := pr_derived pg;
  pr_hand := fun id =>
    match pr_hand pg id with
    | Some h => Some (fun _ a => or_panic (expands (calls pg m F) a (h m a)))
    | None => None
    end;
  pr_with := fun w t _ a => or_panic (expands (calls pg m F) a (pr_with pg w t m a)) |}.
