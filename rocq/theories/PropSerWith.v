(** * PropSerWith: what #[ser_with] does, exactly (C73). *)
From Coq Require Import Arith String.
From Verif Require Import Base Types Derive DeriveSpec DeriveFacts PropDerive WitnessDerive.
Local Open Scope N_scope.

(** The field with those attributes struck out that do not have the form of a meta
    item (name, name = literal, name(items)), such as #[ser_with(Proxy<T>)]. *)
Definition readable (a : attr) : bool := match a_meta a with Some _ => true | None => false end.
Definition seen (f : field) : field := mkField (f_ident f) (filter readable (f_attrs f)) (f_ty f).

Lemma with_metas_seen f : with_metas (seen f) = with_metas f.
Proof.
  unfold with_metas, seen. cbn [f_attrs]. f_equal. induction (f_attrs f) as [|a l IH]; [reflexivity|].
  cbn [filter flat_map]. unfold readable at 1. destruct (a_meta a) eqn:E; cbn [flat_map]; rewrite ?E, IH; reflexivity.
Qed.
Lemma get_with_seen f : get_with (seen f) = get_with f.
Proof. unfold get_with. rewrite with_metas_seen. reflexivity. Qed.

Lemma seen_get_with f :
  (forall a, In a (f_attrs f) -> legal_attr a) ->
  (forall w, get_with f = Gen (Some w) <-> annotated (seen f) w) /\
  (get_with f = Gen None <-> unannotated (seen f)).
Proof.
  intros Hl.
  assert (H1 : forall a, In a (f_attrs (seen f)) -> legal_attr a).
  { intros a Ha. apply filter_In in Ha. apply Hl, Ha. }
  assert (H2 : forall a, In a (f_attrs (seen f)) -> carries (str_of "ser_with") a -> a_meta a <> None).
  { intros a Ha _ Hn. apply filter_In in Ha. destruct Ha as [_ Ha]. unfold readable in Ha. rewrite Hn in Ha. discriminate. }
  split.
  - intros w. rewrite <- get_with_seen. apply (get_with_some (seen f) w H1 H2).
  - rewrite <- get_with_seen. apply (get_with_some (seen f) (mkPath false []) H1 H2).
Qed.

(** Structs.  The macro accepts the struct exactly if each field, with the attributes
    it cannot read struck out, has no #[ser_with] or exactly one, naming a path; and
    then it serializes each field as that attribute says, in order. *)
Theorem C73_struct {L : Lexer} (LO : lexer_ok) fs : legal_fields fs ->
  ((exists b, derive_struct fs = Gen b) <->
   (forall f, In f (field_list fs) -> exists c, wanted (seen f) c)) /\
  (forall b, derive_struct fs = Gen b ->
     exists cs, run_struct fs b = Some cs /\ visits_all (length (field_list fs)) cs /\
       Forall2 (fun f c => forall c', wanted (seen f) c' <-> c' = c) (field_list fs) (map fst cs)).
Proof.
  intros Hl.
  assert (Ha : forall f, In f (field_list fs) -> forall a, In a (f_attrs f) -> legal_attr a).
  { intros f Hf a Hin. destruct Hl as [Hl _]. eauto. }
  split.
  - rewrite derive_struct_total by auto. split; intros H f Hf; destruct (seen_get_with f (Ha f Hf)) as [S1 S2].
    + destruct (get_with f) as [[w|]|] eqn:E.
      * exists (CWith w). constructor. apply S1. reflexivity.
      * exists CSerialize. constructor. apply S2. reflexivity.
      * now exfalso; apply (H f).
    + destruct (H f Hf) as [c [Hu|w Hw]].
      * rewrite (proj2 S2 Hu). discriminate.
      * rewrite (proj2 (S1 w) Hw). discriminate.
  - intros b Hb. destruct (derive_struct_run LO fs b Hl Hb) as [cs [Hr [Hs Hc]]]. exists cs. split; [exact Hr|].
    split; [exact Hs|]. clear - Hc Ha. revert Ha Hc. generalize (map fst cs) as l. clear cs.
    induction (field_list fs) as [|f r IH]; intros l Ha Hc; inversion Hc as [|? c ? l' [o [Ho ->]] Hc']; subst; constructor.
    + destruct (seen_get_with f (Ha f (or_introl eq_refl))) as [S1 S2]. intros c'. split.
      * intros [Hu|w Hw].
        -- apply S2 in Hu. rewrite Ho in Hu. injection Hu as ->. reflexivity.
        -- apply S1 in Hw. rewrite Ho in Hw. injection Hw as ->. reflexivity.
      * intros ->. destruct o as [w|]; cbn [callee_of]; constructor; [apply S1|apply S2]; exact Ho.
    + apply IH; auto. intros g Hg. apply Ha. right. exact Hg.
Qed.

(** So a struct's fields are serialized as annotated, all of them, exactly if none has
    an unreadable #[ser_with]. *)
Theorem C73_struct_as_annotated {L : Lexer} (LO : lexer_ok) fs b cs : legal_fields fs ->
  derive_struct fs = Gen b -> run_struct fs b = Some cs ->
  (serializes (field_list fs) cs <->
   forall f a, In f (field_list fs) -> In a (f_attrs f) -> carries (str_of "ser_with") a -> a_meta a <> None).
Proof.
  intros Hl Hb Hr. destruct (C73_struct LO fs Hl) as [_ H]. destruct (H b Hb) as (cs' & Hr' & Hv & Hc).
  rewrite Hr in Hr'. injection Hr' as <-. clear H. unfold serializes. split.
  - intros [_ Hw] f a Hf Ha Hca Hn. clear Hr Hv Hb.
    revert f a Hf Ha Hca Hn. revert Hc Hw. generalize (map fst cs). 
    induction (field_list fs) as [|g r IH]; intros l Hc Hw f a Hf Ha Hca Hn; [destruct Hf|].
    inversion Hc as [|? c ? l' C1 C2]; subst. inversion Hw as [|? ? ? ? W1 W2]; subst.
    destruct Hf as [<-|Hf]; [|eapply IH; eauto].
    assert (Hseen : forall s, In s (f_attrs (seen g)) <-> In s (f_attrs g) /\ readable s = true) by (intros s; apply filter_In).
    destruct W1 as [Hu|w Hw1].
    + exact (Hu a Ha Hca).
    + destruct Hw1 as (pre & a' & post & p & Hat & Hc' & Hm & Hno).
      rewrite Hat in Ha. apply in_app_iff in Ha. destruct Ha as [Ha|[<-|Ha]].
      * apply (Hno a); [apply in_app_iff; left; exact Ha|exact Hca].
      * congruence.
      * apply (Hno a); [apply in_app_iff; right; exact Ha|exact Hca].
  - intros Hall. split; [exact Hv|]. clear Hr Hv Hb.
    assert (Hla : forall f a, In f (field_list fs) -> In a (f_attrs f) -> legal_attr a).
    { intros f a Hf Ha. destruct Hl as [Hl _]. eauto. }
    clear Hl. revert Hall Hc Hla. generalize (map fst cs).
    induction (field_list fs) as [|g r IH]; intros l Hall Hc Hla; inversion Hc as [|? c ? l' C1 C2]; subst; constructor.
    + assert (Hw : wanted (seen g) c) by (apply C1; reflexivity).
      assert (Hg : forall a, In a (f_attrs g) -> legal_attr a) by (intros a Ha; apply (Hla g a); [left; reflexivity|exact Ha]).
      assert (Hm : forall a, In a (f_attrs g) -> carries (str_of "ser_with") a -> a_meta a <> None)
        by (intros a Ha Hca; apply (Hall g a); [left; reflexivity|exact Ha|exact Hca]).
      destruct (seen_get_with g Hg) as [S1 S2].
      destruct Hw as [Hu|w Hw]; constructor.
      * apply (get_with_some g (mkPath false []) Hg Hm). apply S2. exact Hu.
      * apply (get_with_some g w Hg Hm). apply S1. exact Hw.
    + apply IH; auto; intros f a Hf; [apply Hall|apply Hla]; right; exact Hf.
Qed.

(** Enums.  A variant's fields are serialized as annotated exactly if none of them has
    a #[ser_with] at all: whatever the attribute says, it is ignored. *)
Theorem C73_enum {L : Lexer} (LO : lexer_ok) vs b v cs : legal_variants vs ->
  derive_enum vs = Gen b -> In v vs -> run_enum v b = Some cs ->
  (serializes (field_list (v_fields v)) cs <->
   forall f a, In f (field_list (v_fields v)) -> In a (f_attrs f) -> ~ carries (str_of "ser_with") a).
Proof.
  intros Hl Hb Hv Hr. destruct (derive_enum_inv LO vs _ Hl Hb) as [_ ->].
  rewrite (run_enum_body LO) in Hr by auto. injection Hr as <-. unfold serializes.
  assert (Hvis : visits_all (length (field_list (v_fields v)))
            (map (fun n => (CSerialize, n)) (seq 0 (length (field_list (v_fields v)))))).
  { unfold visits_all. rewrite map_map. cbn. apply map_id. }
  rewrite map_map. cbn [fst]. generalize (seq_length (length (field_list (v_fields v))) 0).
  clear - Hvis. revert Hvis. generalize (seq 0 (length (field_list (v_fields v)))) as ns.
  intros ns Hvis Hn. split.
  - intros [_ HF]. clear Hvis. revert ns Hn HF.
    induction (field_list (v_fields v)) as [|g r IH]; intros ns Hn HF f a Hf Ha; [destruct Hf|].
    destruct ns as [|n ns]; [discriminate|]. cbn [map] in HF. inversion HF as [|? ? ? ? W1 W2]; subst.
    destruct Hf as [<-|Hf]; [inversion W1 as [Hu|]; exact (Hu a Ha)|].
    exact (IH ns (f_equal pred Hn) W2 f a Hf Ha).
  - intros H. split; [exact Hvis|]. clear Hvis. revert ns Hn H.
    induction (field_list (v_fields v)) as [|g r IH]; intros ns Hn H; destruct ns as [|n ns]; try discriminate; constructor.
    + constructor. intros a Ha. apply (H g a); [left; reflexivity|exact Ha].
    + apply IH; [exact (f_equal pred Hn)|]. intros f a Hf. apply H. right. exact Hf.
Qed.

(** struct { serializer, #[doc] #[ser_with(Proxy)] val_x, #[ser_with(Proxy<T>)] #[ser_with(Q)] y }:
    accepted; the generic proxy is skipped, so y goes through Q.  And the annotated enum
    variant of WitnessDerive is accepted with its annotation ignored. *)
#[local] Existing Instance ascii_lexer.
Definition mixed_fields : fields :=
  FNamed [plain "serializer";
          mkField (Some (id_ "val_x")) [doc_attr; ser_with_attr (path_ "Proxy")] (TyOther 1);
          mkField (Some (id_ "y")) [ser_with_generic; ser_with_attr (path_ "Q")] (TyOther 2)].
Theorem C73_witness :
  legal_fields mixed_fields /\
  (exists b, derive_struct mixed_fields = Gen b /\
     run_struct mixed_fields b =
       Some [(CSerialize, 0%nat); (CWith (path_ "Proxy"), 1%nat); (CWith (path_ "Q"), 2%nat)]) /\
  (exists b, @derive_enum ascii_lexer [annotated_variant] = Gen b /\
     run_enum annotated_variant b = Some [(CSerialize, 0%nat)]).
Proof.
  split; [|split].
  - split.
    + intros f a Hf Ha m Hm. cbn in Hf. repeat destruct Hf as [<-|Hf]; cbn in Ha; try contradiction.
      all: repeat destruct Ha as [<-|Ha]; cbn in Hm; try contradiction; try discriminate; injection Hm as <-; reflexivity.
    + legal_named [id_ "serializer"; id_ "val_x"; id_ "y"].
  - eexists. split; [vm_compute; reflexivity|]. vm_compute. reflexivity.
  - eexists. split; [vm_compute; reflexivity|]. vm_compute. reflexivity.
Qed.
