(** * Generics: the headers of the impls that derive(Serialize) and derive(Serializer) generate.

    Which types and serializers a generated impl covers.  Bounds, where predicates and the types
    of const parameters are opaque: a number, the generic parameters it mentions, and whether
    it holds for given arguments (class [Traits], arbitrary).  Attributes on parameters are not
    modelled. *)
From Coq Require Import String.
From Verif Require Import Base Types Derive.

(** Names of generic parameters: lifetimes and other names are different name spaces. *)
Definition gname : Type := bool * str.              (* true: lifetime *)
Definition gname_eqb (a b : gname) : bool :=
  Bool.eqb (fst a) (fst b) && list_eqb (snd a) (snd b).

(** syn::GenericParam.  [gp_bounds]: the bounds of a lifetime or type, the type of a const. *)
Inductive gkind := GLife | GType | GConst.
Record gparam := mkGP { gp_kind : gkind; gp_id : str; gp_bounds : list nat; gp_default : option nat }.
Definition gp_name (p : gparam) : gname :=
  (match gp_kind p with GLife => true | _ => false end, gp_id p).
(** syn::Generics: parameters and the predicates of the where clause. *)
Record generics := mkGenerics { g_params : list gparam; g_where : list nat }.

(** A parameter of an impl header: bound [None] is ::ser_raw::Serializer. *)
Record hparam := mkHP { hp_kind : gkind; hp_id : str; hp_bounds : list (option nat); hp_default : option nat }.
Definition hp_name (p : hparam) : gname :=
  (match hp_kind p with GLife => true | _ => false end, hp_id p).

(** impl<h_params> Trait<h_trait> for h_self<h_args> where h_where *)
Record header := mkHeader {
  h_params : list hparam;
  h_trait : list gname;
  h_self : ident;
  h_args : list gname;
  h_where : list nat
}.

Definition is_life (k : gkind) : bool := match k with GLife => true | _ => false end.

Definition to_hparam (p : gparam) : hparam :=
  mkHP (gp_kind p) (gp_id p) (map Some (gp_bounds p)) (gp_default p).

(** syn 1: ImplGenerics prints lifetimes before the other parameters, without defaults. *)
Definition impl_generics (l : list hparam) : list hparam :=
  filter (fun p => is_life (hp_kind p)) l ++
  map (fun p => mkHP (hp_kind p) (hp_id p) (hp_bounds p) None)
    (filter (fun p => negb (is_life (hp_kind p))) l).
(** syn 1: TypeGenerics prints the names, lifetimes first. *)
Definition type_generics (l : list gparam) : list gname :=
  map gp_name (filter (fun p => is_life (gp_kind p)) l) ++
  map gp_name (filter (fun p => negb (is_life (gp_kind p))) l).

Definition s_name : str := str_of "__S".

(** ser_raw_derive/src/lib.rs:34-48  get_generics: __S: ::ser_raw::Serializer + the bound, added
    to the end of the parameters. *)
Definition get_generics (attrs : list attr) (g : generics) : expansion (list hparam) :=
  let* b := get_ser_bound attrs in
  let generic_param := mkHP GType s_name (None :: match b with Some b => [Some b] | None => [] end) None in
  Gen (map to_hparam (g_params g) ++ [generic_param]).

(** ser_raw_derive/src/structs.rs:20-25, enums.rs:43-48 *)
Definition serialize_header (i : input) (g : generics) : expansion header :=
  let* ps := get_generics (i_attrs i) g in
  Gen (mkHeader (impl_generics ps) [(false, s_name)] (i_ident i) (type_generics (g_params g)) (g_where g)).

(** ser_raw_derive_serializer/src/lib.rs:47, :60 (impl Serializer), ser_types/ptr_offset.rs:47-73,
    complete.rs:68-90, pos_tracking.rs:48-56 (the other impls): all have the same header. *)
Definition serializer_header (i : input) (g : generics) : header :=
  mkHeader (impl_generics (map to_hparam (g_params g))) [] (i_ident i) (type_generics (g_params g)) (g_where g).

(** ** What Rust makes of declarations and headers *)

(** A lifetime, a type, a constant. *)
Inductive garg := ALife (n : nat) | AType (n : nat) | AConst (n : nat).

Class Traits := {
  mentions : nat -> list gname;                       (* the parameters a bound names *)
  holds : nat -> list (option garg) -> garg -> Prop;  (* arg: bound, given what it names *)
  where_mentions : nat -> list gname;
  where_holds : nat -> list (option garg) -> Prop;
  is_serializer : nat -> Prop                         (* type: ::ser_raw::Serializer *)
}.

Section Meaning.
Context {T : Traits}.

Definition env := list (gname * garg).
Fixpoint look (n : gname) (e : env) : option garg :=
  match e with
  | [] => None
  | (m, a) :: e' => if gname_eqb n m then Some a else look n e'
  end.
Definition kind_of (a : garg) : gkind :=
  match a with ALife _ => GLife | AType _ => GType | AConst _ => GConst end.
Definition bound_holds (e : env) (a : garg) (b : nat) : Prop :=
  holds b (map (fun n => look n e) (mentions b)) a.
Definition wheres_hold (e : env) (ws : list nat) : Prop :=
  Forall (fun w => where_holds w (map (fun n => look n e) (where_mentions w))) ws.
Definition hbound_holds (e : env) (a : garg) (b : option nat) : Prop :=
  match b with
  | Some b => bound_holds e a b
  | None => match a with AType t => is_serializer t | _ => False end
  end.

(** The arguments [args] may be given to a type declared with the generics [g]: [e] binds the
    parameters to them, in order. *)
Definition instantiates (g : generics) (args : list garg) (e : env) : Prop :=
  map kind_of args = map gp_kind (g_params g) /\
  e = combine (map gp_name (g_params g)) args /\
  Forall2 (fun p a => Forall (bound_holds e a) (gp_bounds p)) (g_params g) args /\
  wheres_hold e (g_where g).

(** The impl is there for the trait arguments [ta] and the type [h_self<args>]: some choice of its
    parameters that meets their bounds and the where clause. *)
Definition covers (h : header) (ta args : list garg) : Prop :=
  exists vs e,
    map kind_of vs = map hp_kind (h_params h) /\
    e = combine (map hp_name (h_params h)) vs /\
    Forall2 (fun p a => Forall (hbound_holds e a) (hp_bounds p)) (h_params h) vs /\
    wheres_hold e (h_where h) /\
    map (fun n => look n e) (h_trait h) = map Some ta /\
    map (fun n => look n e) (h_args h) = map Some args.

(** rustc: parameter names are distinct, lifetimes come first, only names in scope are mentioned;
    in an impl there are no defaults, and each parameter occurs in the trait or the type
    (E0207 otherwise). *)
Definition lifetimes_first (l : list gkind) : Prop :=
  exists a b, l = a ++ b /\ Forall (fun k => k = GLife) a /\ Forall (fun k => k <> GLife) b.
Definition legal_generics (g : generics) : Prop :=
  NoDup (map gp_name (g_params g)) /\
  lifetimes_first (map gp_kind (g_params g)) /\
  (forall p b, In p (g_params g) -> In b (gp_bounds p) -> incl (mentions b) (map gp_name (g_params g))) /\
  (forall w, In w (g_where g) -> incl (where_mentions w) (map gp_name (g_params g))) /\
  (forall p, In p (g_params g) -> gp_kind p = GLife -> gp_default p = None).
Definition legal_header (h : header) : Prop :=
  NoDup (map hp_name (h_params h)) /\
  lifetimes_first (map hp_kind (h_params h)) /\
  (forall p b, In p (h_params h) -> In (Some b) (hp_bounds p) -> incl (mentions b) (map hp_name (h_params h))) /\
  (forall w, In w (h_where h) -> incl (where_mentions w) (map hp_name (h_params h))) /\
  (forall p, In p (h_params h) -> hp_default p = None) /\
  (forall p, In p (h_params h) -> In (hp_name p) (h_trait h ++ h_args h)).

End Meaning.
