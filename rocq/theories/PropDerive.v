(** * PropDerive: properties C34, C35, C36, C42, C44, C46 of the derive macros. *)
From Coq Require Import Arith String.
From Verif Require Import Base Types Storage Serializer Serialize Derive DeriveSpec DeriveFacts.
Local Open Scope N_scope.

(** ** Running the calls on memory: a call on field [n] serializes the field at its
    offset.  [ser t a] is <T as Serialize>::serialize_data. *)
Section Exec.
Fixpoint exec_calls (fs : list (N * ty)) (a : N) (ser : ty -> N -> M zs unit) (cs : list call)
  : M zs unit :=
  match cs with
  | [] => ret tt
  | (_, n) :: cs' =>
      match nth_error fs n with
      | Some (off, t) => ser t (a + off) ;;; exec_calls fs a ser cs'
      | None => panics PAssert
      end
  end.

Lemma exec_calls_from ser a : forall cs fs fs1 fs2,
  fs = fs1 ++ fs2 -> map snd cs = seq (length fs1) (length fs2) ->
  exec_calls fs a ser cs = for_fields fs2 a ser.
Proof.
  induction cs as [|[c n] cs IH]; intros fs fs1 fs2 E H.
  - destruct fs2; [reflexivity|discriminate].
  - destruct fs2 as [|[off t] fs2]; [discriminate|]. cbn in H. injection H as -> H.
    cbn [exec_calls for_fields]. rewrite E, nth_error_app2, Nat.sub_diag by auto. cbn [nth_error].
    f_equal. rewrite <- E. rewrite (IH fs (fs1 ++ [(off, t)]) fs2); auto.
    + now rewrite <- app_assoc.
    + rewrite app_length. cbn. rewrite Nat.add_1_r. exact H.
Qed.
End Exec.

Section Props.
Context {L : Lexer}.

(** ** C34 *)
Theorem C34_struct (LO : lexer_ok) i im fs :
  i_data i = DStruct fs -> legal_fields fs -> derive_serialize i = Gen im ->
  exists cs, run_struct fs (im_body im) = Some cs /\ visits_all (length (field_list fs)) cs.
Proof.
  intros Ed Hl H. unfold derive_serialize in H. rewrite Ed in H.
  destruct (get_ser_bound _); [|discriminate]. cbn in H.
  destruct (derive_struct fs) as [b|] eqn:E; [|discriminate]. cbn in H. injection H as <-.
  destruct (derive_struct_run LO fs b Hl E) as [cs [Hr [Hs _]]]. exists cs. auto.
Qed.

Lemma derive_enum_inv (LO : lexer_ok) vs b : legal_variants vs -> derive_enum vs = Gen b ->
  (forall v, In v vs -> ~ raw_field v) /\ b = enum_body vs.
Proof.
  intros [Hl Hd] H.
  assert (Hl' : Forall (fun v => legal_fields (v_fields v)) vs).
  { eapply Forall_impl; [|exact Hl]. cbv beta. tauto. }
  assert (R : forall v, In v vs -> ~ raw_field v).
  { intros v Hv Hr. rewrite (derive_enum_raw LO vs v) in H by auto. discriminate. }
  split; [exact R|]. rewrite (derive_enum_ok LO) in H by auto. congruence.
Qed.

Lemma derive_serialize_enum i im vs : i_data i = DEnum vs -> derive_serialize i = Gen im ->
  derive_enum vs = Gen (im_body im).
Proof.
  intros Ed H. unfold derive_serialize in H. rewrite Ed in H.
  destruct (get_ser_bound _); [|discriminate]. cbn in H.
  destruct (derive_enum vs) as [b|] eqn:E; [|discriminate]. cbn in H. now injection H as <-.
Qed.

Theorem C34_enum (LO : lexer_ok) i im vs :
  i_data i = DEnum vs -> legal_variants vs -> derive_serialize i = Gen im ->
  forall v, In v vs ->
  exists cs, run_enum v (im_body im) = Some cs /\ visits_all (length (field_list (v_fields v))) cs.
Proof.
  intros Ed Hl H v Hv. apply (derive_serialize_enum i im vs Ed) in H.
  destruct (derive_enum_inv LO vs _ Hl H) as [_ ->].
  rewrite (run_enum_body LO) by auto. eexists. split; [reflexivity|].
  unfold visits_all. rewrite map_map. cbn. apply map_id.
Qed.

(** Executed on memory, the calls are the loop over the fields that Serialize.v has
    for structs and for the live variant of an enum. *)
Theorem C34_runs (fs : list (N * ty)) a ser cs :
  visits_all (length fs) cs -> exec_calls fs a ser cs = for_fields fs a ser.
Proof. intros H. now apply (exec_calls_from ser a cs fs [] fs). Qed.

(** ** C35 *)

(** Some arm of the match is a wildcard. *)
Definition has_wildcard (b : body) : Prop :=
  match b with BMatch arms => exists a, In a arms /\ arm_pat a = PWild | _ => False end.
(** [v] reaches an arm other than a wildcard. *)
Definition own_arm (v : variant) (b : body) : Prop :=
  match b with
  | BMatch arms => exists a, In a arms /\ arm_matches v a = true /\ arm_pat a <> PWild
  | _ => False
  end.

Theorem C35 (LO : lexer_ok) i im vs :
  i_data i = DEnum vs -> legal_variants vs -> derive_serialize i = Gen im ->
  (forall v, In v vs -> run_enum v (im_body im) <> None) /\
  (forall v, In v vs -> own_arm v (im_body im) <-> has_fields v) /\
  (has_wildcard (im_body im) <->
     (exists v, In v vs /\ has_fields v) /\ (exists v, In v vs /\ ~ has_fields v)).
Proof.
  intros Ed Hl H. apply (derive_serialize_enum i im vs Ed) in H.
  destruct (derive_enum_inv LO vs _ Hl H) as [_ ->]. clear H.
  split; [|split].
  - intros v Hv. rewrite (run_enum_body LO) by auto. discriminate.
  - intros v Hv. rewrite <- has_fieldsb_iff. unfold enum_body.
    assert (Hno : forall a, In a (map arm_for (filter has_fieldsb vs)) ->
              arm_matches v a = true -> has_fieldsb v = true).
    { intros a Ha Hm. apply in_map_iff in Ha as [w [<- Hw]]. apply filter_In in Hw as [Hw Fw].
      unfold arm_matches in Hm. rewrite pat_for_variant in Hm by auto.
      destruct Hl as [Hl Hd]. apply (ident_eqb_name LO) in Hm.
      - enough (w = v) by congruence. clear - Hd Hw Hv Hm.
        induction vs as [|x vs IH]; [contradiction|]. cbn in Hd. inversion Hd; subst.
        destruct Hw as [->|Hw], Hv as [->|Hv]; auto; exfalso; apply H1.
        + rewrite Hm. apply (in_map (fun v => id_name (v_ident v))). auto.
        + rewrite <- Hm. apply (in_map (fun v => id_name (v_ident v))). auto.
      - rewrite Forall_forall in Hl. now apply Hl.
      - rewrite Forall_forall in Hl. now apply Hl. }
    destruct (Nat.eqb _ 0) eqn:E0.
    + cbn. split; [contradiction|]. intros Hf. apply Nat.eqb_eq in E0. rewrite map_length in E0.
      apply length_zero_iff_nil in E0.
      assert (Hin : In v (filter has_fieldsb vs)) by now apply filter_In. now rewrite E0 in Hin.
    + cbn [own_arm]. split.
      * intros [a [Ha [Hm Hp]]]. match type of Ha with context [Nat.ltb ?x ?y] => destruct (Nat.ltb x y) end;
          [apply in_app_or in Ha as [Ha|[<-|[]]]|].
        -- now apply (Hno a).
        -- now exfalso; apply Hp.
        -- now apply (Hno a).
      * intros Hf. exists (arm_for v).
        assert (Hin : In (arm_for v) (map arm_for (filter has_fieldsb vs))).
        { apply in_map. now apply filter_In. }
        split; [match goal with |- context [Nat.ltb ?x ?y] => destruct (Nat.ltb x y) end; [apply in_or_app|]; auto|]. split.
        -- unfold arm_matches. rewrite pat_for_variant by auto. apply ident_eqb_refl.
        -- intros E. pose proof (pat_for_variant v Hf) as Hp. rewrite E in Hp. discriminate.
  - assert (Hnw : forall a, In a (map arm_for (filter has_fieldsb vs)) -> arm_pat a <> PWild).
    { intros a Ha E. apply in_map_iff in Ha as [w [<- Hw]]. apply filter_In in Hw as [_ Fw].
      apply pat_for_variant in Fw. rewrite E in Fw. discriminate. }
    unfold enum_body. destruct (Nat.eqb _ 0) eqn:E0.
    + cbn. split; [contradiction|]. intros [[v [Hv Hf]] _].
      apply has_fieldsb_iff in Hf. apply Nat.eqb_eq in E0. rewrite map_length in E0.
      apply length_zero_iff_nil in E0.
      assert (Hin : In v (filter has_fieldsb vs)) by now apply filter_In. now rewrite E0 in Hin.
    + cbn [has_wildcard]. apply Nat.eqb_neq in E0. destruct (Nat.ltb _ _) eqn:E1.
      * split; [|intros _; eexists; split; [apply in_or_app; right; left|]; reflexivity].
        intros _. rewrite map_length in *. apply Nat.ltb_lt in E1. split.
        -- destruct (filter has_fieldsb vs) as [|v r] eqn:Ef; [contradiction|].
           assert (Hin : In v (filter has_fieldsb vs)) by (rewrite Ef; left; auto).
           apply filter_In in Hin as [Hv Hf]. exists v. rewrite <- has_fieldsb_iff. auto.
        -- destruct (existsb (fun v => negb (has_fieldsb v)) vs) eqn:Ee.
           ++ apply existsb_exists in Ee as [v [Hv Hn]]. apply negb_true_iff in Hn.
              exists v. rewrite <- has_fieldsb_iff. split; congruence.
           ++ exfalso. assert (Ha : forall v, In v vs -> has_fieldsb v = true).
              { intros v Hv. destruct (has_fieldsb v) eqn:Ef; auto.
                assert (existsb (fun v => negb (has_fieldsb v)) vs = true)
                  by (apply existsb_exists; exists v; rewrite Ef; auto). congruence. }
              assert (Hfe : filter has_fieldsb vs = vs).
              { clear - Ha. induction vs as [|v vs IH]; cbn; [auto|].
                rewrite Ha by (left; auto). f_equal. apply IH. intros w Hw. apply Ha. right; auto. }
              rewrite Hfe in E1. lia.
      * split.
        -- intros [a [Ha Hp]]. exfalso. now apply (Hnw a).
        -- intros [_ [v [Hv Hf]]]. exfalso. apply Hf. apply has_fieldsb_iff.
           apply Nat.ltb_ge in E1. pose proof (arms_length vs). rewrite map_length in *.
           apply (filter_all vs); [lia|auto].
Qed.

(** ** C36 *)

(** Structs whose #[ser_with] attributes are all well-formed: each field is serialized
    as its annotation says.  Missing from the full property: enums, and attributes that
    do not parse as a meta, such as #[ser_with(Proxy<T>)] (see the counterexamples). *)
Theorem C36_partial (LO : lexer_ok) i fs :
  i_data i = DStruct fs -> legal_fields fs ->
  (forall a, In a (i_attrs i) -> ~ carries (str_of "ser_bound") a) ->
  (forall f, In f (field_list fs) -> exists c, wanted f c) ->
  exists im cs, derive_serialize i = Gen im /\ run_struct fs (im_body im) = Some cs /\
    serializes (field_list fs) cs.
Proof.
  intros Ed Hl Hb Hw.
  assert (Ha : forall f, In f (field_list fs) -> forall a, In a (f_attrs f) -> legal_attr a).
  { intros f Hf a Hin. destruct Hl as [Hl _]. eauto. }
  assert (Hg : forall f, In f (field_list fs) -> forall c, wanted f c ->
             exists o, get_with f = Gen o /\ c = callee_of o).
  { intros f Hf c [Hu|w Hw']; [exists None|exists (Some w)]; split; auto.
    - apply get_with_unannotated; eauto.
    - apply get_with_annotated; eauto. }
  assert (HT := derive_struct_total fs Hl). destruct HT as [_ HT].
  destruct HT as [b Eb].
  { intros f Hf E. destruct (Hw f Hf) as [c Hc]. destruct (Hg f Hf c Hc) as [o [Ho _]]. congruence. }
  assert (Hnb : get_ser_bound (i_attrs i) = Gen None).
  { unfold get_ser_bound. revert Hb. induction (i_attrs i) as [|a l IH]; intros Hb; [reflexivity|].
    cbn [get_ser_bound_from]. destruct (path_is (a_path a) ser_bound_name) eqn:E.
    - exfalso. apply (Hb a); [left; auto|]. apply path_is_tag; [no_hash|exact E].
    - apply IH. intros b' Hb'. apply Hb. right. auto. }
  destruct (derive_struct_run LO fs b Hl Eb) as [cs [Hr [Hs Hc]]].
  exists (mkImpl None b), cs. unfold derive_serialize. rewrite Hnb, Ed. cbn [ebind].
  rewrite Eb. split; [reflexivity|]. split; [exact Hr|]. split; [exact Hs|].
  clear - Hc Hw Hg. revert Hw Hg Hc. generalize (map fst cs) as l. clear cs.
  induction (field_list fs) as [|f r IH]; intros l Hw Hg Hc; inversion Hc; subst; constructor.
  - destruct H1 as [o [Ho ->]]. destruct (Hw f) as [c Hc']; [left; auto|].
    destruct (Hg f (or_introl eq_refl) c Hc') as [o' [Ho' ->]]. rewrite Ho in Ho'. now injection Ho' as <-.
  - apply IH; auto.
    + intros g Hg'. apply Hw. right. auto.
    + intros g Hg'. apply Hg. right. auto.
Qed.

(** When every #[ser_with] attribute parses as a meta, the macro rejects exactly the
    structs with a field annotated twice or with something else than one path. *)
Theorem C36_rejects (LO : lexer_ok) fs :
  legal_fields fs ->
  (forall f a, In f (field_list fs) -> In a (f_attrs f) -> carries (str_of "ser_with") a ->
     a_meta a <> None) ->
  (exists b, derive_struct fs = Gen b) <-> (forall f, In f (field_list fs) -> exists c, wanted f c).
Proof.
  intros Hl Hp. rewrite derive_struct_total by auto.
  assert (Ha : forall f, In f (field_list fs) -> forall a, In a (f_attrs f) -> legal_attr a).
  { intros f Hf a Hin. destruct Hl as [Hl _]. eauto. }
  split; intros H f Hf.
  - destruct (get_with f) as [[w|]|] eqn:E.
    + exists (CWith w). constructor. apply (get_with_some f w); eauto.
    + exists CSerialize. constructor. apply (get_with_some f (mkPath false [])); eauto.
    + now exfalso; apply (H f).
  - destruct (H f Hf) as [c [Hu|w Hw]].
    + rewrite get_with_unannotated by eauto. discriminate.
    + erewrite get_with_annotated by eauto. discriminate.
Qed.

(** An enum's fields are never serialized through a proxy, whatever their attributes. *)
Theorem C36_enum_ignores (LO : lexer_ok) i im vs :
  i_data i = DEnum vs -> legal_variants vs -> derive_serialize i = Gen im ->
  forall v cs, In v vs -> run_enum v (im_body im) = Some cs ->
  forall c, In c cs -> fst c = CSerialize.
Proof.
  intros Ed Hl H v cs Hv. apply (derive_serialize_enum i im vs Ed) in H.
  destruct (derive_enum_inv LO vs _ Hl H) as [_ ->].
  rewrite (run_enum_body LO) by auto. intros [= <-] c Hc.
  apply in_map_iff in Hc as [n [<- _]]. reflexivity.
Qed.

(** ** C44 *)

(** Structs: field names never matter; enums: all is well without raw identifiers.
    Missing: enum variants with a named field like r#type (the macro panics). *)
Theorem C44_partial (LO : lexer_ok) :
  (forall fs b, legal_fields fs -> derive_struct fs = Gen b -> run_struct fs b <> None) /\
  (forall fs, legal_fields fs -> (forall f, In f (field_list fs) -> unannotated f) ->
     derive_struct fs <> MacroPanic) /\
  (forall vs, legal_variants vs -> (forall v, In v vs -> ~ raw_field v) ->
     exists b, derive_enum vs = Gen b /\ forall v, In v vs -> run_enum v b <> None).
Proof.
  split; [|split].
  - intros fs b Hl H. destruct (derive_struct_run LO fs b Hl H) as [cs [-> _]]. discriminate.
  - intros fs Hl Hu E. destruct (derive_struct_total fs Hl) as [_ HT]. destruct HT as [b Hb].
    + intros f Hf. rewrite get_with_unannotated; [discriminate| |auto].
      destruct Hl as [Hl _]. eauto.
    + congruence.
  - intros vs Hl Hr. exists (enum_body vs). split.
    + apply (derive_enum_ok LO); auto. destruct Hl as [Hl _].
      eapply Forall_impl; [|exact Hl]. cbv beta. tauto.
    + intros v Hv. rewrite (run_enum_body LO) by auto. discriminate.
Qed.

(** The macro panics on an enum iff a named field is a raw identifier. *)
Theorem C44_exact (LO : lexer_ok) vs :
  legal_variants vs ->
  derive_enum vs = MacroPanic <-> exists v, In v vs /\ raw_field v.
Proof.
  intros Hl.
  assert (Hl' : Forall (fun v => legal_fields (v_fields v)) vs).
  { destruct Hl as [Hl _]. eapply Forall_impl; [|exact Hl]. cbv beta. tauto. }
  split.
  - intros H.
    destruct (existsb (fun v => match v_fields v with
       | FNamed l => existsb (fun f => match f_ident f with Some i => id_raw i | None => false end) l
       | _ => false end) vs) eqn:E.
    + apply existsb_exists in E as [v [Hv E]]. exists v. split; auto. apply raw_field_iff.
      destruct (v_fields v); auto; discriminate.
    + rewrite (derive_enum_ok LO) in H; [discriminate|auto|].
      intros v Hv Hr. apply raw_field_iff in Hr.
      enough (existsb (fun v => match v_fields v with
       | FNamed l => existsb (fun f => match f_ident f with Some i => id_raw i | None => false end) l
       | _ => false end) vs = true) by congruence.
      apply existsb_exists. exists v. split; auto. destruct (v_fields v); auto; contradiction.
  - intros [v [Hv Hr]]. now apply (derive_enum_raw LO vs v).
Qed.

(** ** C46: #[ser_bound] *)
Theorem C46 i :
  match i_data i with
  | DUnion _ => derive_serialize i = MacroPanic
  | _ =>
    (forall im, derive_serialize i = Gen im ->
       match im_bound im with
       | None => forall a, In a (i_attrs i) -> ~ carries (str_of "ser_bound") a
       | Some b => exists pre a post, i_attrs i = pre ++ a :: post /\
           carries (str_of "ser_bound") a /\ a_bound a = Some b /\
           forall c, In c (pre ++ post) -> ~ carries (str_of "ser_bound") c
       end) /\
    (forall a, In a (i_attrs i) -> carries (str_of "ser_bound") a -> a_bound a = None ->
       derive_serialize i = MacroPanic)
  end.
Proof.
  assert (G : forall l acc r, get_ser_bound_from acc l = Gen r ->
    match acc with
    | Some b => r = Some b /\ attrs_named ser_bound_name l = []
    | None => match r with
              | None => attrs_named ser_bound_name l = []
              | Some b => exists a, attrs_named ser_bound_name l = [a] /\ a_bound a = Some b
              end
    end).
  { unfold attrs_named. induction l as [|a l IH]; intros acc r H; cbn [get_ser_bound_from] in H.
    - injection H as <-. destruct acc; auto.
    - cbn [filter]. destruct (path_is (a_path a) ser_bound_name).
      + destruct (a_bound a) as [b|] eqn:Eb; [|discriminate]. destruct acc; [discriminate|].
        apply IH in H as [-> ->]. exists a. auto.
      + apply IH in H. exact H. }
  assert (B : forall l acc, (exists a, In a l /\ carries (str_of "ser_bound") a /\ a_bound a = None) ->
             get_ser_bound_from acc l = MacroPanic).
  { induction l as [|a l IH]; intros acc [b [Hin [Hc Hb]]]; [contradiction|].
    cbn [get_ser_bound_from]. destruct (path_is (a_path a) ser_bound_name) eqn:E.
    - destruct Hin as [<-|Hin]; [now rewrite Hb|].
      destruct (a_bound a); [|auto]. destruct acc; [auto|]. apply IH. eauto.
    - apply IH. destruct Hin as [<-|Hin]; [|eauto].
      apply path_is_tag in Hc; [|no_hash]. change (str_of "ser_bound") with ser_bound_name in Hc. congruence. }
  assert (K : forall im, derive_serialize i = Gen im ->
       match im_bound im with
       | None => forall a, In a (i_attrs i) -> ~ carries (str_of "ser_bound") a
       | Some b => exists pre a post, i_attrs i = pre ++ a :: post /\
           carries (str_of "ser_bound") a /\ a_bound a = Some b /\
           forall c, In c (pre ++ post) -> ~ carries (str_of "ser_bound") c
       end).
  { intros im H. unfold derive_serialize in H.
    destruct (get_ser_bound (i_attrs i)) as [o|] eqn:E; [|discriminate]. cbn [ebind] in H.
    apply G in E.
    assert (im_bound im = o) as ->.
    { match type of H with ebind ?m _ = _ => destruct m; [|discriminate H] end.
      cbn in H. now injection H as <-. }
    destruct o as [b|].
    - destruct E as [a [Ea Eb]]. apply attrs_named_one in Ea; [|no_hash].
      destruct Ea as [pre [post [H1 [H2 H3]]]]. exists pre, a, post. auto.
    - refine (proj1 (attrs_named_nil ser_bound_name _ _) E). no_hash. }
  assert (K2 : forall a, In a (i_attrs i) -> carries (str_of "ser_bound") a -> a_bound a = None ->
       derive_serialize i = MacroPanic).
  { intros a Ha Hc Hb. unfold derive_serialize, get_ser_bound. rewrite B; [reflexivity|eauto]. }
  destruct (i_data i) eqn:Ed; auto.
  unfold derive_serialize. rewrite Ed. destruct (get_ser_bound _); reflexivity.
Qed.

(** ** C42 *)

Lemma tagged_none tag f : ~ In hash tag ->
  tagged tag f = Gen None <-> (forall b, In b (f_attrs f) -> ~ carries tag b).
Proof.
  intros Ht. rewrite <- attrs_named_nil by auto. unfold tagged.
  destruct (attrs_named tag (f_attrs f)) as [|a [|]]; split; congruence.
Qed.
Lemma tagged_some tag f g a : ~ In hash tag ->
  tagged tag f = Gen (Some (g, a)) <-> g = f /\ attrs_named tag (f_attrs f) = [a].
Proof.
  intros Ht. unfold tagged.
  destruct (attrs_named tag (f_attrs f)) as [|b [|]]; split; try congruence;
    try (intros [? ?]; congruence). intros [= -> ->]. auto.
Qed.

Lemma all_none tag l : ~ In hash tag ->
  (forall g b, In g l -> In b (f_attrs g) -> ~ carries tag b) ->
  emap (tagged tag) l = Gen (map (fun _ => None) l).
Proof.
  intros Ht H. apply emap_gen. intros f Hf. apply tagged_none; auto. intros b Hb. eauto.
Qed.
Lemma filter_some_none {A B} (l : list B) : filter_some (map (fun _ => @None A) l) = [].
Proof. induction l; auto. Qed.

Lemma emap_app {A B} (f : A -> expansion B) l1 l2 :
  emap f (l1 ++ l2) = let* x := emap f l1 in let* y := emap f l2 in Gen (x ++ y).
Proof.
  induction l1 as [|x l1 IH]; cbn.
  - destruct (emap f l2); reflexivity.
  - destruct (f x); cbn; [|auto]. rewrite IH. destruct (emap f l1); cbn; [|auto].
    destruct (emap f l2); reflexivity.
Qed.
Lemma filter_some_app {A} (l1 l2 : list (option A)) :
  filter_some (l1 ++ l2) = filter_some l1 ++ filter_some l2.
Proof. induction l1 as [|[x|] l1 IH]; cbn; congruence. Qed.

Lemma emap_tagged tag l r : ~ In hash tag ->
  emap (tagged tag) l = Gen r ->
  (filter_some r = [] -> forall g b, In g l -> In b (f_attrs g) -> ~ carries tag b) /\
  (forall f a, filter_some r = [(f, a)] -> only_tagged tag l f a).
Proof.
  intros Ht. revert r. induction l as [|f l IH]; intros r H.
  - cbn in H. injection H as <-. split; [intros _ g b []|intros; discriminate].
  - cbn [emap] in H. destruct (tagged tag f) as [o|] eqn:E; [|discriminate]. cbn [ebind] in H.
    destruct (emap (tagged tag) l) as [r'|] eqn:Er; [|discriminate]. cbn [ebind] in H.
    injection H as <-. destruct (IH r' eq_refl) as [H1 H2].
    destruct o as [[g a]|]; cbn [filter_some].
    + apply tagged_some in E as [-> E]; auto. apply attrs_named_one in E as [pa [qa [Ef [Hc Hn]]]]; auto.
      split; [discriminate|]. intros f' a' Hr. injection Hr as <- <- Hr.
      exists [], l, pa, qa. cbn [app]. split; [auto|]. split; [auto|]. split; [auto|].
      split; [auto|]. now apply H1.
    + assert (En := proj1 (tagged_none tag f Ht) E). split.
      * intros Hr g b [<-|Hg] Hb; [auto|eauto].
      * intros g a Hr. destruct (H2 g a Hr) as [pre [post [pa [qa [-> [Hf [Hc [H3 H4]]]]]]]].
        exists (f :: pre), post, pa, qa. split; [reflexivity|]. split; [auto|]. split; [auto|].
        split; [auto|]. intros h b [<-|Hh] Hb; [auto|]. eauto.
Qed.

Lemma get_tagged_field_spec tag l x t a : ~ In hash tag ->
  get_tagged_field l tag = Gen (x, t, a) <->
  exists f, only_tagged tag l f a /\ f_ident f = Some x /\ f_ty f = t.
Proof.
  intros Ht. unfold get_tagged_field. split.
  - intros H. destruct (emap (tagged tag) l) as [r|] eqn:E; [|discriminate]. cbn [ebind] in H.
    destruct (emap_tagged tag l r Ht E) as [_ H2].
    destruct (filter_some r) as [|[f b] [|]] eqn:Er; try discriminate.
    destruct (f_ident f) as [y|] eqn:Ey; [|discriminate]. injection H as <- <- <-.
    exists f. auto.
  - intros [f [[pre [post [pa [qa [-> [Hf [Hc [H3 H4]]]]]]]] [Hi <-]]].
    rewrite emap_app, all_none; auto.
    2:{ intros g b Hg. apply H4. apply in_or_app. auto. }
    cbn [ebind emap]. assert (E : tagged tag f = Gen (Some (f, a))).
    { apply tagged_some; auto. split; auto. apply attrs_named_one; auto. eauto 6. }
    rewrite E. cbn [ebind]. rewrite all_none; auto.
    2:{ intros g b Hg. apply H4. apply in_or_app. auto. }
    cbn [ebind]. rewrite filter_some_app. cbn [filter_some]. rewrite !filter_some_none. cbn [app].
    rewrite Hi. reflexivity.
Qed.

Lemma ser_type_of_name_spec s k : ser_type_of_name s = Gen k <-> s = kind_name k.
Proof.
  unfold ser_type_of_name. split.
  - repeat match goal with |- context [list_eqb s ?x] => destruct (list_eqb s x) eqn:? end;
      intros [= <-]; now apply list_eqb_eq.
  - intros ->. destruct k; reflexivity.
Qed.

Lemma get_ser_type_spec i k : get_ser_type i = Gen k <-> declares_kind i k.
Proof.
  unfold get_ser_type, declares_kind. split.
  - intros H. destruct (attrs_named ser_type_name (i_attrs i)) as [|a [|]] eqn:E; try discriminate.
    apply attrs_named_one in E as [pre [post [E [Hc Hn]]]]; [|no_hash].
    destruct (a_meta a) as [m|] eqn:Em; [|discriminate].
    destruct m as [|p [|[[q| |]|] [|]]|]; try discriminate.
    destruct (get_ident q) as [x|] eqn:Eq; [|discriminate].
    apply ser_type_of_name_spec in H.
    assert (Hx : id_raw x = false /\ id_name x = kind_name k).
    { unfold ident_to_string in H. destruct (id_raw x); [|auto]. destruct k; discriminate. }
    exists pre, a, post, p, q, x. destruct Hx. repeat (split; auto).
  - intros [pre [a [post [p [q [x [E [Hc [Em [Eq [Hr [Hx Hn]]]]]]]]]]]].
    replace (attrs_named ser_type_name (i_attrs i)) with [a].
    2:{ symmetry. apply attrs_named_one; [no_hash|]. eauto 6. }
    rewrite Em, Eq. unfold ident_to_string. rewrite Hr. now apply ser_type_of_name_spec.
Qed.

(** derive(Serializer) accepts a declaration, and generates [im], iff the declaration is
    as documented; [im] uses the tagged fields. *)
Theorem C42 i im :
  derive_serializer i = Gen im <->
  exists k l f a x t,
    declares_kind i k /\
    i_data i = DStruct (FNamed l) /\
    only_tagged (str_of "ser_storage") l f a /\ f_ident f = Some x /\ a_type a = Some (TyParen t) /\
    uses_field (needs_pos_mapping k) (str_of "ser_pos_mapping") l (si_pos_mapping im) /\
    uses_field (needs_ptrs k) (str_of "ser_ptrs") l (si_ptrs im) /\
    si_storage im = x /\ si_storage_ty im = t /\ si_borrowed_ty im = f_ty f /\
    (si_crate im = true <-> exists b, In b (i_attrs i) /\ carries (str_of "__local") b) /\
    si_tracking_addr im = kind_tracking_addr k /\ si_methods im = kind_methods k /\
    si_overwrite_ptr im = kind_overwrite_ptr k.
Proof.
  assert (NS : forall b, b = get_namespace i <->
    (b = true <-> exists c, In c (i_attrs i) /\ carries (str_of "__local") c)).
  { assert (Q : get_namespace i = true <-> exists c, In c (i_attrs i) /\ carries (str_of "__local") c).
    { unfold get_namespace. destruct (attrs_named local_name (i_attrs i)) as [|c r] eqn:E.
      - split; [discriminate|]. intros [c [Hc1 Hc2]]. exfalso.
        refine (proj1 (attrs_named_nil local_name (i_attrs i) _) E c Hc1 Hc2). no_hash.
      - split; [|auto]. intros _. exists c.
        assert (Hin : In c (attrs_named local_name (i_attrs i))) by (rewrite E; left; auto).
        apply filter_In in Hin as [H1 H2]. split; auto. apply path_is_tag in H2; [exact H2|no_hash]. }
    intros b. split; [intros ->; exact Q|]. intros Hb. destruct b, (get_namespace i); tauto || (exfalso; intuition congruence). }
  assert (UP : forall k l o, kind_pos_mapping k l = Gen o <->
             uses_field (needs_pos_mapping k) (str_of "ser_pos_mapping") l o).
  { intros k l o. assert (G : (let* r := get_tagged_field l ser_pos_mapping_name in Gen (Some (fst (fst r)))) = Gen o
       <-> exists f a i, only_tagged (str_of "ser_pos_mapping") l f a /\ f_ident f = Some i /\ o = Some i).
    { split.
      - intros H. destruct (get_tagged_field l ser_pos_mapping_name) as [[[x t] a]|] eqn:E; [|discriminate].
        apply get_tagged_field_spec in E; [|no_hash]. destruct E as [f [H1 [H2 H3]]].
        cbn in H. injection H as <-. exists f, a, x. auto.
      - intros [f [a [x [H1 [H2 ->]]]]].
        assert (E : get_tagged_field l ser_pos_mapping_name = Gen (x, f_ty f, a)).
        { apply get_tagged_field_spec; [no_hash|]. exists f. auto. }
        rewrite E. reflexivity. }
    unfold uses_field, kind_pos_mapping. destruct k; cbn [needs_pos_mapping]; try exact G.
    split; congruence. }
  assert (UT : forall k l o, kind_ptrs k l = Gen o <->
             uses_field (needs_ptrs k) (str_of "ser_ptrs") l o).
  { intros k l o. assert (G : (let* r := get_tagged_field l ser_ptrs_name in Gen (Some (fst (fst r)))) = Gen o
       <-> exists f a i, only_tagged (str_of "ser_ptrs") l f a /\ f_ident f = Some i /\ o = Some i).
    { split.
      - intros H. destruct (get_tagged_field l ser_ptrs_name) as [[[x t] a]|] eqn:E; [|discriminate].
        apply get_tagged_field_spec in E; [|no_hash]. destruct E as [f [H1 [H2 H3]]].
        cbn in H. injection H as <-. exists f, a, x. auto.
      - intros [f [a [x [H1 [H2 ->]]]]].
        assert (E : get_tagged_field l ser_ptrs_name = Gen (x, f_ty f, a)).
        { apply get_tagged_field_spec; [no_hash|]. exists f. auto. }
        rewrite E. reflexivity. }
    unfold uses_field, kind_ptrs. destruct k; cbn [needs_ptrs]; try exact G; split; congruence. }
  unfold derive_serializer. split.
  - intros H. destruct (get_ser_type i) as [k|] eqn:Ek; [|discriminate]. cbn [ebind] in H.
    unfold get_fields in H. destruct (i_data i) as [[l|l|]|vs|u] eqn:Ed; try discriminate. cbn [ebind] in H.
    unfold get_storage_field in H.
    destruct (get_tagged_field l ser_storage_name) as [[[x bt] a]|] eqn:Es; [|discriminate]. cbn [ebind] in H.
    destruct (a_type a) as [[t|]|] eqn:Ea; try discriminate. cbn [ebind] in H.
    destruct (kind_pos_mapping k l) as [pm|] eqn:Epm; [|discriminate]. cbn [ebind] in H.
    destruct (kind_ptrs k l) as [pt|] eqn:Ept; [|discriminate]. cbn [ebind] in H. injection H as <-.
    apply get_tagged_field_spec in Es; [|no_hash]. destruct Es as [f [Hf1 [Hf2 <-]]].
    exists k, l, f, a, x, t. cbn.
    split; [now apply get_ser_type_spec|]. split; [auto|]. split; [auto|]. split; [auto|].
    split; [auto|]. split; [now apply UP|]. split; [now apply UT|]. repeat (split; [reflexivity|]).
    split; [now apply NS|]. repeat split; reflexivity.
  - intros [k [l [f [a [x [t [Hk [Hd [Ht [Hx [Ha [Hp [Hq [H1 [H2 [H3 [H4 [H5 [H6 H7]]]]]]]]]]]]]]]]]]].
    apply get_ser_type_spec in Hk. rewrite Hk. cbn [ebind]. unfold get_fields. rewrite Hd. cbn [ebind].
    unfold get_storage_field.
    assert (Es : get_tagged_field l ser_storage_name = Gen (x, f_ty f, a)).
    { apply get_tagged_field_spec; [no_hash|]. exists f. auto. }
    rewrite Es. cbn [ebind]. rewrite Ha. cbn [ebind]. apply UP in Hp. apply UT in Hq.
    rewrite Hp. cbn [ebind]. rewrite Hq. cbn [ebind]. apply NS in H4.
    destruct im; cbn in *. subst. reflexivity.
Qed.

End Props.

(** ** The generated methods are those of Serializer.v *)
Section Dispatch.
Context {P : Params}.

Definition kind_of (k : ser_kind) : kind :=
  match k with KPureCopy => PureCopy | KPosTracking => PosTracking
             | KPtrOffset => PtrOffset | KComplete => Complete end.

Definition delegate_of (k : ser_kind) (m : method) : option delegate :=
  match find (fun md => match fst md, m with
                        | MSerializeValue, MSerializeValue | MPushSlice, MPushSlice
                        | MPushAndProcessSlice, MPushAndProcessSlice | MOverwrite, MOverwrite
                        | MOverwriteWith, MOverwriteWith | MFinalize, MFinalize => true
                        | _, _ => false end) (kind_methods k) with
  | Some (_, d) => Some d
  | None => None
  end.

(** What a call of each method runs: the delegate named by the macro, or the default
    method of the trait Serializer.  [None]: the trait has no such method, so that the
    generated code would not compile.
    serializer.rs:260-269,297-299,333-342,455,486,491; serializer_traits/*.rs *)
Definition meaning_push_slice (k : kind) (d : option delegate) (s : slice) (a : addr) : option (M zs N) :=
  match d with
  | None => Some (dflt_push_and_process_slice s a (ret tt))
  | Some ToPosTracking => Some (pt_push_slice s a)
  | Some ToPtrWriting => Some (pw_push_slice k s a)
  | _ => None
  end.
Definition meaning_push_and_process_slice (k : kind) (d : option delegate) (s : slice) (a : addr)
    (process : M zs unit) : option (M zs N) :=
  match d with
  | None => Some (dflt_push_and_process_slice s a process)
  | Some ToPosTracking => Some (pt_push_and_process_slice s a process)
  | Some ToPtrWriting => Some (pw_push_and_process_slice k s a process)
  | _ => None
  end.
Definition meaning_overwrite (d : option delegate) (a : addr) (l : layout) (data : mem) : option (M zs unit) :=
  match d with
  | None => Some (ret tt)
  | Some ToWritable => Some (do_overwrite a l data)
  | _ => None
  end.
Definition meaning_overwrite_with (d : option delegate) (wr : M zs unit) : option (M zs unit) :=
  match d with
  | None => Some (ret tt)
  | Some ToComplete => Some wr
  | _ => None
  end.
Definition meaning_finalize (d : option delegate) : option (M zs unit) :=
  match d with
  | None => Some (ret tt)
  | Some ToComplete => Some co_finalize
  | _ => None
  end.
Definition meaning_serialize_value (d : option delegate) (root : slice) (data : M zs unit) : option (M zs N) :=
  match d with
  | None => Some (pos <- push_raw root ;; data ;;; ret pos)
  | Some ToPosTracking =>
      Some (pos <- push_raw root ;; set_map (mkMap (sl_addr root) pos) ;;; data ;;; ret pos)
  | _ => None
  end.
Definition meaning_overwrite_ptr (d : option ptr_delegate) (p t : N) : option (M zs unit) :=
  match d with
  | None => None
  | Some ToPtrOffset => Some (po_overwrite_ptr p t)
  | Some ToCompletePtr => Some (co_overwrite_ptr p t)
  end.

(** For every kind the generated method is the function of Serializer.v. *)
Theorem C42_dispatch k s a process l data wr root p t :
  meaning_push_slice (kind_of k) (delegate_of k MPushSlice) s a = Some (ser_push_slice (kind_of k) s a) /\
  meaning_push_and_process_slice (kind_of k) (delegate_of k MPushAndProcessSlice) s a process
    = Some (push_and_process_slice (kind_of k) s a process) /\
  meaning_overwrite (delegate_of k MOverwrite) a l data = Some (overwrite (kind_of k) a l data) /\
  meaning_overwrite_with (delegate_of k MOverwriteWith) wr = Some (overwrite_with (kind_of k) wr) /\
  meaning_finalize (delegate_of k MFinalize) = Some (finalize (kind_of k)) /\
  meaning_serialize_value (delegate_of k MSerializeValue) root process
    = Some (serialize_value_with (kind_of k) root process) /\
  (kind_tracking_addr k = true ->
     meaning_overwrite_ptr (kind_overwrite_ptr k) p t = Some (overwrite_ptr (kind_of k) p t)) /\
  kind_tracking_addr k = tracking (kind_of k).
Proof. destruct k; cbn; repeat (split; [reflexivity|]); repeat split; try reflexivity; discriminate. Qed.

End Dispatch.
