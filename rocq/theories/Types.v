(** * Types: a universe of the Rust types ser_raw can serialize, with the
    memory layouts an arbitrary compiler may choose for them, and values. *)
From Verif Require Import Base.
Local Open Scope N_scope.

(** mem::size_of::<T>() and mem::align_of::<T>(). *)
Record layout := mkLayout { l_size : N; l_align : N }.

(** The six possible orders of the three words (capacity, pointer, length) of
    a Vec<T> / String; named by the order of the fields in memory. *)
Inductive vlay := CPL | CLP | PCL | PLC | LCP | LPC.

Definition cap_ix (vl : vlay) : N :=
  match vl with CPL | CLP => 0 | PCL | LCP => 1 | PLC | LPC => 2 end.
Definition ptr_ix (vl : vlay) : N :=
  match vl with PCL | PLC => 0 | CPL | LPC => 1 | CLP | LCP => 2 end.
Definition len_ix (vl : vlay) : N :=
  match vl with LCP | LPC => 0 | CLP | PLC => 1 | CPL | PCL => 2 end.

(** How the compiler encodes the variant of an enum:
    [DSingle k]: only variant [k] can occur, nothing is stored;
    [DTag off sz vals]: an integer of [sz] bytes at [off]; variant [k] has tag [vals[k]];
    [DNiche off sz df ns]: the integer at [off] selects a variant through [ns],
      any other value means the variant [df] that really stores data there. *)
Inductive discr :=
| DSingle (k : nat)
| DTag (off sz : N) (vals : list N)
| DNiche (off sz : N) (df : nat) (ns : list (N * nat)).

(** Serializable types.
    [TPrim l ok]: the types of serialize_impls/primitives.rs:14-48 (integers,
      NonZero*, floats, bool, char, ()), [ok] telling which bit patterns are valid.
    [TStruct]: structs with derive(Serialize) and tuples (multiples.rs:15-62):
      fields in declaration order with their byte offsets.
    [TEnum]: enums with derive(Serialize), and Option (other.rs:3-13).
    [TNamed]: a user-defined type looked up in an environment (for recursive types). *)
Inductive ty :=
| TPrim (l : layout) (ok : N -> bool)
| TBox (t : ty)
| TVec (vl : vlay) (t : ty)
| TString (vl : vlay)
| TArray (t : ty) (n : N)
| TStruct (l : layout) (fs : list (N * ty))
| TEnum (l : layout) (d : discr) (vs : list (list (N * ty)))
| TNamed (id : nat).

Definition tenv := nat -> option ty.

Definition resolve (E : tenv) (t : ty) : ty :=
  match t with
  | TNamed id => match E id with Some d => d | None => t end
  | _ => t
  end.

Section Layouts.
Context {P : Params}.

Definition usize_layout : layout := mkLayout pW pW.
Definition u8_layout : layout := mkLayout 1 1.

(** size_of / align_of.  A Box<T> (T: Sized) is one word, Vec and String three. *)
Fixpoint layout_of (E : tenv) (t : ty) : layout :=
  match t with
  | TPrim l _ => l
  | TBox _ => usize_layout
  | TVec _ _ | TString _ => mkLayout (3 * pW) pW
  | TArray t n => mkLayout (l_size (layout_of E t) * n) (l_align (layout_of E t))
  | TStruct l _ => l
  | TEnum l _ _ => l
  | TNamed id =>
      match E id with
      | Some (TStruct l _) => l
      | Some (TEnum l _ _) => l
      | _ => mkLayout 0 1
      end
  end.

Definition size_of E t := l_size (layout_of E t).
Definition align_of E t := l_align (layout_of E t).

Definition cap_off (vl : vlay) := cap_ix vl * pW.
Definition ptr_off (vl : vlay) := ptr_ix vl * pW.
Definition len_off (vl : vlay) := len_ix vl * pW.

Fixpoint index_of (n : N) (l : list N) : option nat :=
  match l with
  | [] => None
  | x :: l' => if x =? n then Some O else option_map S (index_of n l')
  end.
Fixpoint assoc (n : N) (l : list (N * nat)) : option nat :=
  match l with
  | [] => None
  | (x, k) :: l' => if x =? n then Some k else assoc n l'
  end.

(** Rust: the variant of the enum stored at address [a]. *)
Definition read_discr (m : mem) (a : N) (d : discr) : option nat :=
  match d with
  | DSingle k => Some k
  | DTag off sz vals =>
      match read_int m (a + off) sz with
      | Some n => index_of n vals
      | None => None
      end
  | DNiche off sz df ns =>
      match read_int m (a + off) sz with
      | Some n => match assoc n ns with Some k => Some k | None => Some df end
      | None => None
      end
  end.

End Layouts.

(** Values, as mathematical trees: what two Rust values that compare equal share. *)
Inductive val :=
| VPrim (n : N)
| VBox (v : val)
| VVec (vs : list val)
| VString (bs : list N)
| VArray (vs : list val)
| VStruct (vs : list val)
| VEnum (k : nat) (vs : list val).
