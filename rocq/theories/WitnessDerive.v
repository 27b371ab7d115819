(** * WitnessDerive: declarations that meet the hypotheses of PropDerive.v, and
    counterexamples to the full statements of C36 and C44. *)
From Coq Require Import Arith String.
From Verif Require Import Base Types Derive DeriveSpec DeriveFacts PropDerive.
Local Open Scope string_scope.
Local Open Scope N_scope.

(** A lexer for ASCII identifiers. *)
Definition letter (c : N) : bool := ((97 <=? c) && (c <=? 122)) || ((65 <=? c) && (c <=? 90)).
Definition ascii_lexer : Lexer :=
  {| xid_start := letter;
     xid_continue := fun c => letter c || ((48 <=? c) && (c <=? 57)) || (c =? 95) |}.

Lemma ascii_lexer_ok : @lexer_ok ascii_lexer.
Proof.
  split; [reflexivity|]. split; [intros c H; cbn in *; now rewrite H|].
  split; [|split; [|reflexivity]]; cbn; unfold letter.
  - intros c H. apply orb_true_iff. rewrite !andb_true_iff, !N.leb_le. lia.
  - intros c H. rewrite !orb_true_iff, !andb_true_iff, !N.leb_le. lia.
Qed.

#[local] Existing Instance ascii_lexer.

Definition id_ (s : string) : ident := mkIdent false (str_of s).
Definition path_ (s : string) : path := mkPath false [(id_ s, false)].
Definition plain (s : string) : field := mkField (Some (id_ s)) [] (TyOther 0).
(** #[ser_with(p)] *)
Definition ser_with_attr (p : path) : attr :=
  mkAttr (path_ "ser_with") (Some (MList (path_ "ser_with") [NMeta (MPath p)])) None None.
(** #[ser_with(Proxy<T>)]: Proxy<T> is no meta, parse_meta fails. *)
Definition ser_with_generic : attr := mkAttr (path_ "ser_with") None None None.
(** #[doc = "..."] *)
Definition doc_attr : attr := mkAttr (path_ "doc") (Some (MNameValue (path_ "doc"))) None None.

(** struct Demo { serializer: A, #[doc] #[ser_with(Proxy)] val_x: B, r#type: C } *)
Definition demo_fields : fields :=
  FNamed [plain "serializer";
          mkField (Some (id_ "val_x")) [doc_attr; ser_with_attr (path_ "Proxy")] (TyOther 1);
          mkField (Some (mkIdent true (str_of "type"))) [] (TyOther 2)].
Definition demo_struct : input := mkInput [doc_attr] (id_ "Demo") (DStruct demo_fields).

(** enum Choice { A, B(X, Y), C { serializer: X, val_0: Y }, D() } *)
Definition demo_variants : list variant :=
  [ mkVariant (id_ "A") FUnit;
    mkVariant (id_ "B") (FUnnamed [mkField None [] (TyOther 0); mkField None [] (TyOther 1)]);
    mkVariant (id_ "C") (FNamed [plain "serializer"; plain "val_0"]);
    mkVariant (id_ "D") (FUnnamed []) ].
Definition demo_enum : input := mkInput [] (id_ "Choice") (DEnum demo_variants).

Ltac legal_named ids :=
  exists ids; split; [reflexivity|]; split; [repeat constructor|];
  repeat constructor; cbn; intuition discriminate.

Lemma demo_fields_legal : legal_fields demo_fields.
Proof.
  split.
  - intros f a Hf Ha m Hm. cbn in Hf. repeat destruct Hf as [<-|Hf]; cbn in Ha; try contradiction.
    repeat destruct Ha as [<-|Ha]; cbn in Hm; try contradiction; injection Hm as <-; reflexivity.
  - legal_named [id_ "serializer"; id_ "val_x"; mkIdent true (str_of "type")].
Qed.

Lemma demo_variants_legal : legal_variants demo_variants.
Proof.
  split; [|repeat constructor; cbn; intuition discriminate].
  repeat constructor; try (intros f a Hf Ha; cbn in Hf; intuition (subst; contradiction)).
  cbn. legal_named [id_ "serializer"; id_ "val_0"].
Qed.

Example C34_struct_witness :
  exists im cs, derive_serialize demo_struct = Gen im /\
    run_struct demo_fields (im_body im) = Some cs /\
    cs = [(CSerialize, 0%nat); (CWith (path_ "Proxy"), 1%nat); (CSerialize, 2%nat)].
Proof. eexists; eexists. split; [reflexivity|]. split; [vm_compute; reflexivity|]. reflexivity. Qed.

Example C34_enum_witness :
  exists im, derive_serialize demo_enum = Gen im /\
    map (fun v => run_enum v (im_body im)) demo_variants =
      [Some []; Some [(CSerialize, 0%nat); (CSerialize, 1%nat)];
       Some [(CSerialize, 0%nat); (CSerialize, 1%nat)]; Some []] /\
    has_wildcard (im_body im).
Proof.
  eexists. split; [reflexivity|]. split; [vm_compute; reflexivity|].
  cbn. eexists. split; [right; right; left; reflexivity|]. reflexivity.
Qed.

Example C36_hypotheses : forall f, In f (field_list demo_fields) -> exists c, wanted f c.
Proof.
  intros f Hf. cbn in Hf. destruct Hf as [<-|[<-|[<-|[]]]].
  - exists CSerialize. constructor. intros a [].
  - exists (CWith (path_ "Proxy")). constructor.
    exists [doc_attr], (ser_with_attr (path_ "Proxy")), [], (path_ "ser_with").
    split; [reflexivity|]. split; [reflexivity|]. split; [reflexivity|].
    intros b [<-|[]]. discriminate.
  - exists CSerialize. constructor. intros a [].
Qed.

(** C36 is false of enums: the annotation in enum E { V { #[ser_with(Proxy)] x: T } }
    is ignored. *)
Definition annotated_variant : variant :=
  mkVariant (id_ "V") (FNamed [mkField (Some (id_ "x")) [ser_with_attr (path_ "Proxy")] (TyOther 0)]).
Theorem C36_counterexample_enum :
  exists i vs v f im cs,
    i_data i = DEnum vs /\ legal_variants vs /\ In v vs /\
    field_list (v_fields v) = [f] /\ annotated f (path_ "Proxy") /\
    derive_serialize i = Gen im /\ run_enum v (im_body im) = Some cs /\
    cs = [(CSerialize, 0%nat)] /\ ~ serializes (field_list (v_fields v)) cs.
Proof.
  exists (mkInput [] (id_ "E") (DEnum [annotated_variant])), [annotated_variant], annotated_variant.
  eexists; eexists; eexists. split; [reflexivity|]. split.
  { split; [|repeat constructor; cbn; intuition].
    constructor; [|constructor]. split; [reflexivity|]. split.
    - intros f a [<-|[]] [<-|[]] m Hm. cbn in Hm. injection Hm as <-. reflexivity.
    - legal_named [id_ "x"]. }
  split; [left; reflexivity|]. split; [reflexivity|].
  assert (HA : annotated (mkField (Some (id_ "x")) [ser_with_attr (path_ "Proxy")] (TyOther 0)) (path_ "Proxy")).
  { exists [], (ser_with_attr (path_ "Proxy")), [], (path_ "ser_with").
    split; [reflexivity|]. split; [reflexivity|]. split; [reflexivity|]. intros b []. }
  split; [exact HA|]. split; [reflexivity|]. split; [vm_compute; reflexivity|]. split; [reflexivity|].
  intros [_ HF]. inversion HF as [|? ? ? ? Hw]; subst. inversion Hw as [Hu|].
  apply (Hu (ser_with_attr (path_ "Proxy"))); [left|]; reflexivity.
Qed.

(** C36 is false of structs too, when the proxy is a path with arguments: the attribute
    #[ser_with(Proxy<T>)] does not parse as a meta and is dropped without an error. *)
Theorem C36_counterexample_generic :
  exists fs f b cs,
    legal_fields fs /\ field_list fs = [f] /\
    (exists a, In a (f_attrs f) /\ carries (str_of "ser_with") a) /\
    derive_struct fs = Gen b /\ run_struct fs b = Some cs /\ cs = [(CSerialize, 0%nat)].
Proof.
  exists (FNamed [mkField (Some (id_ "x")) [ser_with_generic] (TyOther 0)]).
  eexists; eexists; eexists. split.
  { split.
    - intros f a [<-|[]] [<-|[]] m Hm. discriminate.
    - legal_named [id_ "x"]. }
  split; [reflexivity|]. split; [exists ser_with_generic; split; [left|]; reflexivity|].
  split; [reflexivity|]. split; [vm_compute; reflexivity|]. reflexivity.
Qed.

(** C44 is false: enum E { V { r#type: T } } is legal and the macro panics. *)
Definition raw_variant : variant :=
  mkVariant (id_ "V") (FNamed [mkField (Some (mkIdent true (str_of "type"))) [] (TyOther 0)]).
Theorem C44_counterexample :
  legal_variants [raw_variant] /\ derive_enum [raw_variant] = MacroPanic.
Proof.
  split; [|reflexivity]. split; [|repeat constructor; cbn; intuition].
  constructor; [|constructor]. split; [reflexivity|]. split.
  - intros f a [<-|[]] [].
  - legal_named [mkIdent true (str_of "type")].
Qed.

(** C46: #[ser_bound(..)] once. *)
Definition ser_bound_attr (n : nat) : attr := mkAttr (path_ "ser_bound") None None (Some n).
Example C46_witness :
  exists im, derive_serialize (mkInput [doc_attr; ser_bound_attr 7] (id_ "Demo") (DStruct demo_fields)) = Gen im
    /\ im_bound im = Some 7%nat.
Proof. eexists. split; reflexivity. Qed.
Example C46_twice :
  derive_serialize (mkInput [ser_bound_attr 7; ser_bound_attr 7] (id_ "Demo") (DStruct demo_fields)) = MacroPanic.
Proof. reflexivity. Qed.

(** C42: the struct CompleteSerializer of ser_raw/src/serializers/complete.rs. *)
Definition ser_type_attr (s : string) : attr :=
  mkAttr (path_ "ser_type") (Some (MList (path_ "ser_type") [NMeta (MPath (path_ s))])) None None.
Definition tag_attr (s : string) (t : option mty) : attr :=
  mkAttr (path_ s) (Some (MPath (path_ s))) t None.
Definition complete_struct : input :=
  mkInput [ser_type_attr "complete"; tag_attr "__local" None] (id_ "CompleteSerializer")
    (DStruct (FNamed
      [ mkField (Some (id_ "storage")) [tag_attr "ser_storage" (Some (TyParen (TyOther 1)))] (TyOther 2);
        mkField (Some (id_ "pos_mapping")) [tag_attr "ser_pos_mapping" None] (TyOther 3);
        mkField (Some (id_ "ptrs")) [tag_attr "ser_ptrs" None] (TyOther 4) ])).
Example C42_witness :
  exists im, derive_serializer complete_struct = Gen im /\
    si_storage im = id_ "storage" /\ si_storage_ty im = TyOther 1 /\ si_borrowed_ty im = TyOther 2 /\
    si_pos_mapping im = Some (id_ "pos_mapping") /\ si_ptrs im = Some (id_ "ptrs") /\ si_crate im = true.
Proof. eexists. split; [vm_compute; reflexivity|]. repeat split. Qed.
(** Without ptrs it is rejected. *)
Example C42_reject :
  derive_serializer (mkInput [ser_type_attr "complete"] (id_ "S")
    (DStruct (FNamed
      [ mkField (Some (id_ "storage")) [tag_attr "ser_storage" (Some (TyParen (TyOther 1)))] (TyOther 2);
        mkField (Some (id_ "pos_mapping")) [tag_attr "ser_pos_mapping" None] (TyOther 3) ]))) = MacroPanic.
Proof. reflexivity. Qed.
