(** * Derive: model of the two derive macros, ser_raw_derive/src/*.rs and
    ser_raw_derive_serializer/src/*.rs.

    A macro is a function from a parsed declaration (the syn AST, reduced to what
    the macros look at) to the code it generates, or a panic, which the compiler
    reports as an error.  The generated code is given a meaning by [run_struct]
    and [run_enum]: the serialize_data calls it makes, in order.
    Spans are not modelled; generics and where clauses are in Generics.v. *)
From Coq Require Import Ascii String Decimal.
From Verif Require Import Base Types.
Local Open Scope N_scope.

(** ** Identifiers *)

(** Strings are lists of Unicode code points. *)
Definition str := list N.
Definition str_of (s : string) : str :=
  map (fun c => N_of_ascii c) (list_ascii_of_string s).

(** Unicode's XID_Start and XID_Continue, which Rust's lexer uses. *)
Class Lexer := { xid_start : N -> bool; xid_continue : N -> bool }.

(** proc_macro2::Ident: a name, possibly written r#name. *)
Record ident := mkIdent { id_raw : bool; id_name : str }.

Definition list_eqb (a b : str) : bool :=
  if list_eq_dec N.eq_dec a b then true else false.

(** proc_macro2: Ident::to_string prints the r# of a raw identifier. *)
Definition hash : N := 35.
Definition ident_to_string (i : ident) : str :=
  if id_raw i then 114 :: hash :: id_name i else id_name i.

(** proc_macro2: Ident == str compares the printed form. *)
Definition ident_is (i : ident) (s : str) : bool := list_eqb (ident_to_string i) s.
Definition ident_eqb (a b : ident) : bool := list_eqb (ident_to_string a) (ident_to_string b).

(** Result of running a macro. *)
Inductive expansion (A : Type) := Gen (a : A) | MacroPanic.
Arguments Gen {A} _.
Arguments MacroPanic {A}.
Definition ebind {A B} (x : expansion A) (f : A -> expansion B) : expansion B :=
  match x with Gen a => f a | MacroPanic => MacroPanic end.
Notation "'let*' x := m 'in' k" := (ebind m (fun x => k))
  (at level 200, x name, m at level 100, k at level 200).

Fixpoint emap {A B} (f : A -> expansion B) (l : list A) : expansion (list B) :=
  match l with
  | [] => Gen []
  | x :: l' => let* y := f x in let* ys := emap f l' in Gen (y :: ys)
  end.

Section Macros.
Context {L : Lexer}.

Definition valid_name (s : str) : bool :=
  match s with
  | [] => false
  | c :: cs => (xid_start c || (c =? 95)) && forallb xid_continue cs
  end.

(** proc_macro2: Ident::new panics on a string that is not an identifier. *)
Definition ident_new (s : str) : expansion ident :=
  if valid_name s then Gen (mkIdent false s) else MacroPanic.

(** ** The AST (syn 1) *)

(** syn::Path: leading "::", and segments with or without arguments such as <T>. *)
Record path := mkPath { p_colon : bool; p_segs : list (ident * bool) }.

(** syn: Path::get_ident, Path::is_ident *)
Definition get_ident (p : path) : option ident :=
  match p_colon p, p_segs p with
  | false, [(i, false)] => Some i
  | _, _ => None
  end.
Definition path_is (p : path) (s : str) : bool :=
  match get_ident p with Some i => ident_is i s | None => false end.

(** syn::Meta and NestedMeta. *)
Inductive meta :=
| MPath (p : path)
| MList (p : path) (nested : list nested)
| MNameValue (p : path)
with nested :=
| NMeta (m : meta)
| NLit.

Definition meta_path (m : meta) : path :=
  match m with MPath p => p | MList p _ => p | MNameValue p => p end.

(** Types and trait bounds are opaque to the macros, except for one test:
    whether a type is in parentheses. *)
Inductive mty := TyParen (t : mty) | TyOther (n : nat).
Definition tbound := nat.

(** syn::Attribute, with what its three parsers answer on it. *)
Record attr := mkAttr {
  a_path : path;
  a_meta : option meta;        (* parse_meta().ok() *)
  a_type : option mty;         (* parse2::<Type>(tokens).ok() *)
  a_bound : option tbound      (* parse_args::<TraitBound>().ok() *)
}.

Record field := mkField { f_ident : option ident; f_attrs : list attr; f_ty : mty }.
Inductive fields :=
| FNamed (l : list field)
| FUnnamed (l : list field)
| FUnit.
Definition field_list (fs : fields) : list field :=
  match fs with FNamed l => l | FUnnamed l => l | FUnit => [] end.

Record variant := mkVariant { v_ident : ident; v_fields : fields }.
Inductive data := DStruct (fs : fields) | DEnum (vs : list variant) | DUnion (fs : list field).
Record input := mkInput { i_attrs : list attr; i_ident : ident; i_data : data }.

(** ** Generated code *)

(** self.name, self.0, or a variable bound by a pattern. *)
Inductive expr := ESelfNamed (i : ident) | ESelfIndex (n : nat) | EVar (i : ident).
(** Serialize::serialize_data, or <Path as SerializeWith>::serialize_data_with. *)
Inductive callee := CSerialize | CWith (p : path).
(** callee(target, arg); *)
Record stmt := mkStmt { s_callee : callee; s_target : expr; s_arg : ident }.

(** Patterns Self::V(a, b) and Self::V { f: a, g: b }, and the wildcard. *)
Inductive pat := PTuple (v : ident) (vars : list ident)
               | PNamed (v : ident) (binds : list (ident * ident))
               | PWild.
Record arm := mkArm { arm_pat : pat; arm_body : list stmt }.

(** The body of serialize_data. *)
Inductive body := BStmts (l : list stmt) | BEmpty | BMatch (l : list arm).

(** The generated impl: its body, and the bounds of __S. *)
Record impl := mkImpl { im_bound : option tbound; im_body : body }.

(** ** ser_raw_derive/src/structs.rs *)

Definition serializer_name : str := str_of "serializer".
Definition serializer_ident : ident := mkIdent false serializer_name.
Definition ser_with_name : str := str_of "ser_with".

(** structs.rs:76-82  the metas of get_with *)
Definition with_metas (f : field) : list meta :=
  filter (fun m => path_is (meta_path m) ser_with_name)
    (flat_map (fun a => match a_meta a with Some m => [m] | None => [] end) (f_attrs f)).

(** structs.rs:75-103  get_with *)
Definition get_with (f : field) : expansion (option path) :=
  match with_metas f with
  | [] => Gen None
  | [MList _ [NMeta (MPath w)]] => Gen (Some w)
  | _ => MacroPanic
  end.

(** structs.rs:56-73  get_field_stmt *)
Definition get_field_stmt (target : expr) (f : field) : expansion stmt :=
  let* w := get_with f in
  Gen (mkStmt (match w with Some p => CWith p | None => CSerialize end) target serializer_ident).

(** structs.rs:33-42  get_named_field_stmts *)
Definition get_named_field_stmts (l : list field) : expansion (list stmt) :=
  emap (fun f => match f_ident f with
                 | Some i => get_field_stmt (ESelfNamed i) f
                 | None => MacroPanic
                 end) l.

(** structs.rs:44-54  get_unnamed_field_stmts (enumerate) *)
Fixpoint get_unnamed_from (n : nat) (l : list field) : expansion (list stmt) :=
  match l with
  | [] => Gen []
  | f :: l' =>
      let* s := get_field_stmt (ESelfIndex n) f in
      let* ss := get_unnamed_from (S n) l' in
      Gen (s :: ss)
  end.

(** structs.rs:8-31  derive_struct *)
Definition derive_struct (fs : fields) : expansion body :=
  let* ss := match fs with
             | FNamed l => get_named_field_stmts l
             | FUnnamed l => get_unnamed_from O l
             | FUnit => Gen []
             end in
  Gen (BStmts ss).

(** ** ser_raw_derive/src/enums.rs *)

(** usize::to_string: the decimal digits. *)
Fixpoint digits (d : uint) : str :=
  match d with
  | Nil => []
  | D0 d => 48 :: digits d | D1 d => 49 :: digits d | D2 d => 50 :: digits d
  | D3 d => 51 :: digits d | D4 d => 52 :: digits d | D5 d => 53 :: digits d
  | D6 d => 54 :: digits d | D7 d => 55 :: digits d | D8 d => 56 :: digits d
  | D9 d => 57 :: digits d
  end.
Definition index_to_string (n : nat) : str := digits (Nat.to_uint n).

Definition val_prefix : str := str_of "val_".

(** enums.rs:106-115  get_field_stmts *)
Definition enum_field_stmts (vars : list ident) : list stmt :=
  map (fun i => mkStmt CSerialize (EVar i) serializer_ident) vars.

(** enums.rs:56-73  get_match_for_unnamed_fields *)
Definition match_for_unnamed (v : ident) (l : list field) : expansion (option arm) :=
  if Nat.eqb (length l) 0 then Gen None
  else
    let* vars := emap (fun n => ident_new (val_prefix ++ index_to_string n)) (seq 0 (length l)) in
    Gen (Some (mkArm (PTuple v vars) (enum_field_stmts vars))).

(** enums.rs:75-104  get_match_for_named_fields *)
Definition match_for_named (v : ident) (l : list field) : expansion (option arm) :=
  if Nat.eqb (length l) 0 then Gen None
  else
    let* ids := emap (fun f => match f_ident f with Some i => Gen i | None => MacroPanic end) l in
    let* als := emap (fun i => ident_new (val_prefix ++ ident_to_string i)) ids in
    Gen (Some (mkArm (PNamed v (combine ids als)) (enum_field_stmts als))).

(** enums.rs:18-24  the closure given to filter_map *)
Definition match_for_variant (v : variant) : expansion (option arm) :=
  match v_fields v with
  | FUnit => Gen None
  | FUnnamed l => match_for_unnamed (v_ident v) l
  | FNamed l => match_for_named (v_ident v) l
  end.
Fixpoint filter_some {A} (l : list (option A)) : list A :=
  match l with
  | [] => []
  | Some x :: l' => x :: filter_some l'
  | None :: l' => filter_some l'
  end.

(** enums.rs:7-54  derive_enum *)
Definition derive_enum (vs : list variant) : expansion body :=
  let num_variants := length vs in
  let* ms := emap match_for_variant vs in
  let matches := filter_some ms in
  if Nat.eqb (length matches) 0 then Gen BEmpty
  else
    let matches := if Nat.ltb (length matches) num_variants
                   then matches ++ [mkArm PWild []] else matches in
    Gen (BMatch matches).

(** ** ser_raw_derive/src/lib.rs *)

Definition ser_bound_name : str := str_of "ser_bound".

(** lib.rs:50-64  get_ser_bound (a loop with the accumulator ser_bound) *)
Fixpoint get_ser_bound_from (acc : option tbound) (l : list attr) : expansion (option tbound) :=
  match l with
  | [] => Gen acc
  | a :: l' =>
      if path_is (a_path a) ser_bound_name then
        match a_bound a with
        | None => MacroPanic
        | Some b =>
            match acc with
            | Some _ => MacroPanic
            | None => get_ser_bound_from (Some b) l'
            end
        end
      else get_ser_bound_from acc l'
  end.
Definition get_ser_bound (l : list attr) : expansion (option tbound) := get_ser_bound_from None l.

(** lib.rs:22-31 serialize_impl, :34-48 get_generics: __S: Serializer + the bound *)
Definition derive_serialize (i : input) : expansion impl :=
  let* b := get_ser_bound (i_attrs i) in
  let* bd := match i_data i with
             | DStruct fs => derive_struct fs
             | DEnum vs => derive_enum vs
             | DUnion _ => MacroPanic
             end in
  Gen (mkImpl b bd).

(** ** Meaning of the generated code (Rust) *)

(** A call: which impl is called, on the field with this index. *)
Definition call : Type := callee * nat.

(** Variables in scope: bound to a reference to a field, or the parameter
    [serializer] of serialize_data.  Later bindings shadow earlier ones. *)
Inductive binding := BField (n : nat) | BSerializer.
Definition scope := list (ident * binding).
Fixpoint lookup (x : ident) (sc : scope) : option binding :=
  match sc with
  | [] => None
  | (y, b) :: sc' => if ident_eqb x y then Some b else lookup x sc'
  end.

(** Index of the field with this name. *)
Fixpoint field_index (x : ident) (l : list field) : option nat :=
  match l with
  | [] => None
  | f :: l' =>
      if match f_ident f with Some y => ident_eqb x y | None => false end
      then Some O else option_map S (field_index x l')
  end.

(** self.x and self.n, on a struct with fields [fs] (never on an enum). *)
Definition eval_expr (fs : option fields) (sc : scope) (e : expr) : option nat :=
  match e, fs with
  | ESelfNamed x, Some (FNamed l) => field_index x l
  | ESelfIndex n, Some (FUnnamed l) => if Nat.ltb n (length l) then Some n else None
  | EVar x, _ => match lookup x sc with Some (BField n) => Some n | _ => None end
  | _, _ => None
  end.

(** [None]: the code does not compile. *)
Definition run_stmt (fs : option fields) (sc : scope) (s : stmt) : option call :=
  match lookup (s_arg s) sc with
  | Some BSerializer =>
      match eval_expr fs sc (s_target s) with
      | Some n => Some (s_callee s, n)
      | None => None
      end
  | _ => None
  end.
Fixpoint run_stmts (fs : option fields) (sc : scope) (l : list stmt) : option (list call) :=
  match l with
  | [] => Some []
  | s :: l' =>
      match run_stmt fs sc s, run_stmts fs sc l' with
      | Some c, Some cs => Some (c :: cs)
      | _, _ => None
      end
  end.

Definition fn_scope : scope := [(serializer_ident, BSerializer)].

(** Running serialize_data on a value of the struct. *)
Definition run_struct (fs : fields) (b : body) : option (list call) :=
  match b with
  | BStmts l => run_stmts (Some fs) fn_scope l
  | _ => None
  end.

(** Does the pattern type-check against the declaration [v], and what does it bind?
    A tuple pattern names as many variables as there are fields; a struct pattern
    (without "..") names every field, each once, by name. *)
Fixpoint distinct_idents (l : list ident) : bool :=
  match l with
  | [] => true
  | i :: l' => negb (existsb (ident_eqb i) l') && distinct_idents l'
  end.
Fixpoint bind_named (l : list field) (bs : list (ident * ident)) : option scope :=
  match bs with
  | [] => Some []
  | (x, y) :: bs' =>
      match field_index x l, bind_named l bs' with
      | Some n, Some sc => Some ((y, BField n) :: sc)
      | _, _ => None
      end
  end.
Fixpoint bind_tuple (n : nat) (vars : list ident) : scope :=
  match vars with
  | [] => []
  | x :: vars' => (x, BField n) :: bind_tuple (S n) vars'
  end.
Definition pat_binds (p : pat) (v : variant) : option scope :=
  match p, v_fields v with
  | PTuple _ vars, FUnnamed l =>
      if Nat.eqb (length vars) (length l) && distinct_idents vars
      then Some (bind_tuple 0 vars) else None
  | PNamed _ bs, FNamed l =>
      if Nat.eqb (length bs) (length l) && distinct_idents (map fst bs)
         && distinct_idents (map snd bs)
      then bind_named l bs else None
  | PWild, _ => Some []
  | _, _ => None
  end.

Definition pat_variant (p : pat) : option ident :=
  match p with PTuple v _ => Some v | PNamed v _ => Some v | PWild => None end.

(** Does the arm match a value of variant [v]? *)
Definition arm_matches (v : variant) (a : arm) : bool :=
  match pat_variant (arm_pat a) with
  | Some i => ident_eqb i (v_ident v)
  | None => true
  end.

(** Running serialize_data on a value of the enum whose variant is [v]: the first
    matching arm is taken.  [None]: does not compile (not exhaustive, or ill-typed). *)
Definition run_enum (v : variant) (b : body) : option (list call) :=
  match b with
  | BStmts _ => None
  | BEmpty => Some []
  | BMatch arms =>
      match find (arm_matches v) arms with
      | None => None
      | Some a =>
          match pat_binds (arm_pat a) v with
          | None => None
          | Some sc => run_stmts None (sc ++ fn_scope) (arm_body a)
          end
      end
  end.

(** ** ser_raw_derive_serializer *)

(** common.rs:8-13 *)
Inductive ser_kind := KPureCopy | KPosTracking | KPtrOffset | KComplete.

Definition ser_type_name : str := str_of "ser_type".
Definition ser_storage_name : str := str_of "ser_storage".
Definition ser_pos_mapping_name : str := str_of "ser_pos_mapping".
Definition ser_ptrs_name : str := str_of "ser_ptrs".
Definition local_name : str := str_of "__local".

Definition attrs_named (s : str) (l : list attr) : list attr :=
  filter (fun a => path_is (a_path a) s) l.

(** common.rs:16-63  get_ser_type *)
Definition ser_type_of_name (s : str) : expansion ser_kind :=
  if list_eqb s (str_of "pure_copy") then Gen KPureCopy
  else if list_eqb s (str_of "pos_tracking") then Gen KPosTracking
  else if list_eqb s (str_of "ptr_offset") then Gen KPtrOffset
  else if list_eqb s (str_of "complete") then Gen KComplete
  else MacroPanic.
Definition get_ser_type (i : input) : expansion ser_kind :=
  match attrs_named ser_type_name (i_attrs i) with
  | [a] =>
      match a_meta a with
      | Some (MList _ [NMeta (MPath p)]) =>
          match get_ident p with
          | Some x => ser_type_of_name (ident_to_string x)
          | None => MacroPanic
          end
      | _ => MacroPanic
      end
  | _ => MacroPanic
  end.

(** common.rs:70-81  get_namespace: [true] is crate, [false] is ::ser_raw *)
Definition get_namespace (i : input) : bool :=
  match attrs_named local_name (i_attrs i) with [] => false | _ => true end.

(** common.rs:85-97  get_fields *)
Definition get_fields (i : input) : expansion (list field) :=
  match i_data i with
  | DStruct (FNamed l) => Gen l
  | _ => MacroPanic
  end.

(** common.rs:102-134  get_tagged_field *)
Definition tagged (tag : str) (f : field) : expansion (option (field * attr)) :=
  match attrs_named tag (f_attrs f) with
  | [] => Gen None
  | [a] => Gen (Some (f, a))
  | _ => MacroPanic
  end.
Definition get_tagged_field (l : list field) (tag : str) : expansion (ident * mty * attr) :=
  let* fs := emap (tagged tag) l in
  match filter_some fs with
  | [(f, a)] =>
      match f_ident f with
      | Some x => Gen (x, f_ty f, a)
      | None => MacroPanic
      end
  | _ => MacroPanic
  end.

(** lib.rs:89-101  get_storage_field *)
Definition get_storage_field (l : list field) : expansion (ident * mty * mty) :=
  let* r := get_tagged_field l ser_storage_name in
  let '(x, borrowed, a) := r in
  match a_type a with
  | Some (TyParen t) => Gen (x, t, borrowed)
  | _ => MacroPanic
  end.

(** The methods of Serializer (serializer.rs) that an impl may override, and the
    trait the generated override delegates to. *)
Inductive method := MSerializeValue | MPushSlice | MPushAndProcessSlice | MOverwrite
                  | MOverwriteWith | MFinalize.
Inductive delegate := ToPosTracking | ToPtrWriting | ToWritable | ToComplete.

(** impl PtrWriting: overwrite_ptr delegates to PtrOffset::do_overwrite_ptr or
    Complete::do_overwrite_ptr. *)
Inductive ptr_delegate := ToPtrOffset | ToCompletePtr.

(** The generated impls. *)
Record ser_impl := mkSerImpl {
  si_crate : bool;                  (* namespace *)
  si_storage : ident;               (* field used by storage, storage_mut, into_storage *)
  si_storage_ty : mty;              (* type Storage *)
  si_borrowed_ty : mty;             (* type BorrowedStorage *)
  si_tracking_addr : bool;          (* type Addr = TrackingAddr / NoopAddr *)
  si_methods : list (method * delegate);
  si_pos_mapping : option ident;    (* impl PosTracking: the field of pos_mapping *)
  si_overwrite_ptr : option ptr_delegate;
  si_ptrs : option ident            (* impl Complete: the field of ptrs *)
}.

(** Addr and methods: ser_types/pure_copy.rs:8-12, pos_tracking.rs:14-41,
    ptr_offset.rs:14-41, complete.rs:15-60 *)
Definition kind_tracking_addr (k : ser_kind) : bool :=
  match k with KPureCopy | KPosTracking => false | KPtrOffset | KComplete => true end.
Definition kind_methods (k : ser_kind) : list (method * delegate) :=
  match k with
  | KPureCopy => []
  | KPosTracking =>
      [(MSerializeValue, ToPosTracking); (MPushSlice, ToPosTracking);
       (MPushAndProcessSlice, ToPosTracking)]
  | KPtrOffset =>
      [(MSerializeValue, ToPosTracking); (MPushSlice, ToPtrWriting);
       (MPushAndProcessSlice, ToPtrWriting)]
  | KComplete =>
      [(MSerializeValue, ToPosTracking); (MPushSlice, ToPtrWriting);
       (MPushAndProcessSlice, ToPtrWriting); (MOverwrite, ToWritable);
       (MOverwriteWith, ToComplete); (MFinalize, ToComplete)]
  end.
(** ptr_offset.rs:65-69, complete.rs:79-83 *)
Definition kind_overwrite_ptr (k : ser_kind) : option ptr_delegate :=
  match k with
  | KPureCopy | KPosTracking => None
  | KPtrOffset => Some ToPtrOffset
  | KComplete => Some ToCompletePtr
  end.

(** impl_pos_tracking (pos_tracking.rs:44-71) and complete.rs:62-103: the fields the
    accessors use. *)
Definition kind_pos_mapping (k : ser_kind) (l : list field) : expansion (option ident) :=
  match k with
  | KPureCopy => Gen None
  | _ => let* r := get_tagged_field l ser_pos_mapping_name in Gen (Some (fst (fst r)))
  end.
Definition kind_ptrs (k : ser_kind) (l : list field) : expansion (option ident) :=
  match k with
  | KComplete => let* r := get_tagged_field l ser_ptrs_name in Gen (Some (fst (fst r)))
  | _ => Gen None
  end.

(** lib.rs:28-87  serializer_impl *)
Definition derive_serializer (i : input) : expansion ser_impl :=
  let* k := get_ser_type i in
  let* l := get_fields i in
  let* st := get_storage_field l in
  let '(x, t, bt) := st in
  let* pm := kind_pos_mapping k l in
  let* pt := kind_ptrs k l in
  Gen (mkSerImpl (get_namespace i) x t bt (kind_tracking_addr k) (kind_methods k)
         pm (kind_overwrite_ptr k) pt).

End Macros.
