(** * DeriveSpec: what a user means by a legal declaration, an annotated field, and
    "visits each field once, in order". *)
From Coq Require Import String.
From Verif Require Import Base Types Derive.
Local Open Scope N_scope.

(** What Unicode and Rust guarantee about identifiers: '#' is no part of one, what
    can start one can continue one, ASCII letters, digits and '_' are as usual. *)
Definition lexer_ok {L : Lexer} : Prop :=
  xid_continue hash = false /\
  (forall c, xid_start c = true -> xid_continue c = true) /\
  (forall c, (97 <= c <= 122 \/ 65 <= c <= 90) -> xid_start c = true) /\
  (forall c, 48 <= c <= 57 -> xid_continue c = true) /\
  xid_continue 95 = true.

Section DeriveSpec.
Context {L : Lexer}.

(** A name the lexer accepts; r#name is legal too. *)
Definition legal_ident (i : ident) : Prop := valid_name (id_name i) = true.

(** rustc: an attribute parsed as a meta has the attribute's path. *)
Definition legal_attr (a : attr) : Prop :=
  forall m, a_meta a = Some m -> meta_path m = a_path a.

(** rustc: named fields have distinct names (r#x and x are the same name), tuple
    fields have none. *)
Definition legal_fields (fs : fields) : Prop :=
  (forall f a, In f (field_list fs) -> In a (f_attrs f) -> legal_attr a) /\
  match fs with
  | FNamed l =>
      exists ids, map f_ident l = map Some ids /\ Forall legal_ident ids /\ NoDup (map id_name ids)
  | FUnnamed l => Forall (fun f => f_ident f = None) l
  | FUnit => True
  end.

Definition legal_variants (vs : list variant) : Prop :=
  Forall (fun v => legal_ident (v_ident v) /\ legal_fields (v_fields v)) vs /\
  NoDup (map (fun v => id_name (v_ident v)) vs).

(** The attributes of a field written #[name ...]. *)
Definition carries (s : str) (a : attr) : Prop := get_ident (a_path a) = Some (mkIdent false s).

(** [f] has no #[ser_with] attribute. *)
Definition unannotated (f : field) : Prop :=
  forall a, In a (f_attrs f) -> ~ carries (str_of "ser_with") a.

(** [f] has one #[ser_with] attribute, and it is #[ser_with(w)]. *)
Definition annotated (f : field) (w : path) : Prop :=
  exists pre a post p,
    f_attrs f = pre ++ a :: post /\
    carries (str_of "ser_with") a /\
    a_meta a = Some (MList p [NMeta (MPath w)]) /\
    (forall b, In b (pre ++ post) -> ~ carries (str_of "ser_with") b).

(** How a field should be serialized. *)
Inductive wanted (f : field) : callee -> Prop :=
| W_own : unannotated f -> wanted f CSerialize
| W_with w : annotated f w -> wanted f (CWith w).

(** The calls visit the fields [0 .. n-1], each once, in this order. *)
Definition visits_all (n : nat) (cs : list call) : Prop := map snd cs = seq 0 n.

(** [cs] serializes the fields [l] in order, each as it should be. *)
Definition serializes (l : list field) (cs : list call) : Prop :=
  visits_all (length l) cs /\
  Forall2 wanted l (map fst cs).

Definition has_fields (v : variant) : Prop := field_list (v_fields v) <> [].

(** Some field name of the variant is a raw identifier. *)
Definition raw_field (v : variant) : Prop :=
  match v_fields v with
  | FNamed l => exists f i, In f l /\ f_ident f = Some i /\ id_raw i = true
  | _ => False
  end.

(** ** For derive(Serializer) *)

(** Exactly one field carries #[tag], once: the field [f], with the attribute [a]. *)
Definition only_tagged (tag : str) (l : list field) (f : field) (a : attr) : Prop :=
  exists pre post pa qa,
    l = pre ++ f :: post /\
    f_attrs f = pa ++ a :: qa /\
    carries tag a /\
    (forall b, In b (pa ++ qa) -> ~ carries tag b) /\
    (forall g b, In g (pre ++ post) -> In b (f_attrs g) -> ~ carries tag b).

Definition kind_name (k : ser_kind) : str :=
  match k with
  | KPureCopy => str_of "pure_copy"
  | KPosTracking => str_of "pos_tracking"
  | KPtrOffset => str_of "ptr_offset"
  | KComplete => str_of "complete"
  end.

(** The struct has exactly one attribute #[ser_type(name of k)] and no other
    #[ser_type] attribute. *)
Definition declares_kind (i : input) (k : ser_kind) : Prop :=
  exists pre a post p q x,
    i_attrs i = pre ++ a :: post /\
    carries (str_of "ser_type") a /\
    a_meta a = Some (MList p [NMeta (MPath q)]) /\
    get_ident q = Some x /\ id_raw x = false /\ id_name x = kind_name k /\
    (forall b, In b (pre ++ post) -> ~ carries (str_of "ser_type") b).

(** Which extra fields each kind of serializer needs. *)
Definition needs_pos_mapping (k : ser_kind) : bool :=
  match k with KPureCopy => false | _ => true end.
Definition needs_ptrs (k : ser_kind) : bool :=
  match k with KComplete => true | _ => false end.

(** The field used, when one is needed. *)
Definition uses_field (needed : bool) (tag : str) (l : list field) (o : option ident) : Prop :=
  if needed then exists f a i, only_tagged tag l f a /\ f_ident f = Some i /\ o = Some i
  else o = None.

End DeriveSpec.
