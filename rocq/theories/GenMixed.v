(** * GenMixed: programs whose types mix derived, built-in and hand-written implementations (Mixed.v),
    with a serializer over any storage (GenSerializer.v, GenClient.v). *)
From Coq Require Import Arith.
From Verif Require Import Base Types Storage Serializer Serialize Client Spec ClientSpec Derive DeriveSpec
  GenStorage GenSerializer GenClient GenClientSpec Mixed.
Local Open Scope N_scope.

Section GenMixed.
Context {P : Params} {L : Lexer}.
Context {St : Type}.
Variable R : ra_impl St.
Variable pg : program.
Variable k : kind.
Variable m : mem.
Variable sf : nat.
Notation E := (pr_env pg).

(** structs.rs:56-73, enums.rs:106-115: one generated statement, on a field of type [t] at [a]. *)
Definition g_callee_run (rec : ty -> N -> M (gz St) unit) (c : callee) (t : ty) (a : N) : M (gz St) unit :=
  match c with
  | CSerialize => rec t a
  | CWith w => g_run_steps R k E m sf a (pr_with pg w t m a)
  end.
(** The statements, one after the other (structs.rs:25-29, enums.rs:106-115). *)
Fixpoint g_exec (rec : ty -> N -> M (gz St) unit) (fs : list (N * ty)) (a : N) (cs : list call) : M (gz St) unit :=
  match cs with
  | [] => ret tt
  | (c, n) :: cs' =>
      match nth_error fs n with
      | Some (off, t) => g_callee_run rec c t (a + off) ;;; g_exec rec fs a cs'
      | None => panics PAssert
      end
  end.
(** What the macro generates for the declaration (ser_raw_derive/src/lib.rs:22-31), run. *)
Definition g_exec_derived (rec : ty -> N -> M (gz St) unit) (i : input) (v : option nat) (fs : list (N * ty)) (a : N)
  : M (gz St) unit :=
  match generated i v with
  | Some cs => g_exec rec fs a cs
  | None => panics PAssert
  end.

(** <T as Serialize>::serialize_data (primitives.rs:9, ptrs.rs:12-104, multiples.rs:8-26, other.rs:8-12, and the
    program's own impls). *)
Fixpoint g_mx_data (fuel : nat) (t : ty) (a : N) : M (gz St) unit :=
  match fuel with
  | O => fun _ => OutOfFuel
  | S fuel' =>
      match t with
      | TPrim _ _ => ret tt
      | TBox t' => g_ser_box R k E m t' a (g_mx_data fuel')
      | TVec vl t' => g_ser_vec R k E m vl t' a (g_mx_data fuel')
      | TString vl => g_ser_string R k m vl a
      | TArray t' n => g_for_elems (N.to_nat n) a (size_of E t') (g_mx_data fuel' t')
      | TStruct _ fs => g_for_fields fs a (g_mx_data fuel')
      | TEnum _ d vss =>
          match read_discr m a d with
          | Some v =>
              match nth_error vss v with
              | Some fs => g_for_fields fs a (g_mx_data fuel')
              | None => ub
              end
          | None => ub
          end
      | TNamed id =>
          match impl_for pg id, E id with
          | IHand h, _ => g_run_steps R k E m sf a (h m a)
          | IDerived i, Some (TStruct _ fs) => g_exec_derived (g_mx_data fuel') i None fs a
          | IDerived i, Some (TEnum _ d vss) =>
              match read_discr m a d with
              | Some v =>
                  match nth_error vss v with
                  | Some fs => g_exec_derived (g_mx_data fuel') i (Some v) fs a
                  | None => ub
                  end
              | None => ub
              end
          | _, _ => panics PAssert
          end
      end
  end.

(** serializer.rs:260-269 serialize_value several times on the same serializer, then finalize (serializer.rs:491). *)
Fixpoint g_mx_values (fuel : nat) (vs : list (ty * N)) : M (gz St) (list N) :=
  match vs with
  | [] => ret []
  | (t, a) :: vs' =>
      pos <- g_serialize_value_with R k (slice_at m (layout_of E t) a 1) (g_mx_data fuel t a) ;;
      ps <- g_mx_values fuel vs' ;;
      ret (pos :: ps)
  end.
Definition g_mx_all (fuel : nat) (vs : list (ty * N)) : M (gz St) (list N) :=
  ps <- g_mx_values fuel vs ;;
  g_finalize R k ;;;
  ret ps.
(** serializer.rs:217-221 serialize *)
Definition g_mx_serialize (fuel : nat) (t : ty) (a : N) : M (gz St) N :=
  pos <- g_serialize_value_with R k (slice_at m (layout_of E t) a 1) (g_mx_data fuel t a) ;;
  g_finalize R k ;;;
  ret pos.
End GenMixed.

(** The hand-written implementations of the program make no calls on the storage itself, do not panic and push no empty
    slices (GenClientSpec.v). *)
Definition plain_program {P : Params} (pg : program) (m : mem) : Prop :=
  (forall id h a, impl_for pg id = IHand h -> forallb plain (h m a) = true) /\
  (forall w t a, forallb plain (pr_with pg w t m a) = true).

(** Programs whose hand-written impls and proxies are proper ones (GenClientSpec.v): storage calls and panics allowed. *)
Definition proper_program {P : Params} (empties : bool) (pg : program) (m : mem) : Prop :=
  (forall id h a, impl_for pg id = IHand h -> Forall (proper empties) (h m a)) /\
  (forall w t a, Forall (proper empties) (pr_with pg w t m a)).
