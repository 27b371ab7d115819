(** * DeriveFacts: lemmas on the derive macros. *)
From Coq Require Import Arith Ascii String Decimal DecimalNat.
From Verif Require Import Base Types Derive DeriveSpec.
Local Open Scope N_scope.

Lemma list_eqb_eq a b : list_eqb a b = true <-> a = b.
Proof. unfold list_eqb. destruct (list_eq_dec N.eq_dec a b); split; congruence. Qed.
Lemma list_eqb_refl a : list_eqb a a = true.
Proof. now apply list_eqb_eq. Qed.

Lemma emap_ok {A B} (f : A -> expansion B) l r :
  emap f l = Gen r <-> Forall2 (fun x y => f x = Gen y) l r.
Proof.
  revert r. induction l as [|x l IH]; intros r; cbn.
  - split; [intros [= <-]; constructor|]. now inversion 1.
  - destruct (f x) eqn:E; cbn.
    + destruct (emap f l) eqn:E2; cbn.
      * split.
        -- intros [= <-]. constructor; [exact E|]. now apply IH.
        -- inversion 1; subst. apply IH in H4. congruence.
      * split; [discriminate|]. inversion 1; subst. apply IH in H4. congruence.
    + split; [discriminate|]. inversion 1; subst. congruence.
Qed.

Lemma emap_panic {A B} (f : A -> expansion B) l :
  emap f l = MacroPanic <-> exists x, In x l /\ f x = MacroPanic.
Proof.
  induction l as [|x l IH]; cbn.
  - split; [discriminate|]. intros [? [[] _]].
  - destruct (f x) eqn:E; cbn.
    + destruct (emap f l) eqn:E2; cbn.
      * split; [discriminate|]. intros [y [[->|Hy] Hp]]; [congruence|].
        assert (Gen a0 = @MacroPanic (list B)) by (apply IH; eauto). discriminate.
      * split; [|auto]. intros _. destruct IH as [IH _]. destruct (IH eq_refl) as [y [Hy Hp]]. eauto.
    + split; [|auto]. intros _. eauto.
Qed.

Lemma emap_map {A B C} (g : A -> B) (f : B -> expansion C) l :
  emap f (map g l) = emap (fun x => f (g x)) l.
Proof. induction l; cbn; [auto|]. now rewrite IHl. Qed.

Lemma emap_gen {A B} (g : A -> B) (f : A -> expansion B) l :
  (forall x, In x l -> f x = Gen (g x)) -> emap f l = Gen (map g l).
Proof.
  induction l as [|x l IH]; cbn; intros Hl; [auto|].
  rewrite (Hl x) by auto. cbn. rewrite IH by auto. reflexivity.
Qed.

(** ** Identifiers *)

Section L.
Context {L : Lexer} (LO : lexer_ok).

Lemma hash_not_in i : legal_ident i -> ~ In hash (id_name i).
Proof.
  destruct LO as [Hh [Hs [Ha [_ Hu]]]]. unfold legal_ident, valid_name.
  destruct (id_name i) as [|c cs]; [discriminate|].
  intros H. apply andb_prop in H as [H1 H2]. intros [->|Hin].
  - apply orb_prop in H1 as [H1|H1].
    + apply Hs in H1. congruence.
    + discriminate.
  - rewrite forallb_forall in H2. apply H2 in Hin. congruence.
Qed.

Lemma to_string_inj a b :
  legal_ident a -> legal_ident b -> ident_to_string a = ident_to_string b -> id_name a = id_name b.
Proof.
  intros Ha Hb. apply hash_not_in in Ha. apply hash_not_in in Hb.
  unfold ident_to_string. destruct (id_raw a), (id_raw b); intros E; try congruence.
  - exfalso. apply Hb. rewrite <- E. cbn. auto.
  - exfalso. apply Ha. rewrite E. cbn. auto.
Qed.

Lemma ident_eqb_refl i : ident_eqb i i = true.
Proof. apply list_eqb_refl. Qed.
Lemma ident_eqb_eq a b : ident_eqb a b = true <-> ident_to_string a = ident_to_string b.
Proof. apply list_eqb_eq. Qed.
Lemma ident_eqb_name a b :
  legal_ident a -> legal_ident b -> ident_eqb a b = true -> id_name a = id_name b.
Proof. intros ? ? E. apply ident_eqb_eq in E. now apply to_string_inj. Qed.

Lemma valid_val s : forallb xid_continue s = true -> valid_name (val_prefix ++ s) = true.
Proof.
  destruct LO as [_ [Hs [Ha [Hd Hu]]]]. intros H. cbn.
  rewrite (Ha 118) by lia. rewrite (Hs 97), (Hs 108), Hu by (apply Ha; lia). exact H.
Qed.

Lemma legal_continue i : legal_ident i -> forallb xid_continue (id_name i) = true.
Proof.
  destruct LO as [_ [Hs [Ha [Hd Hu]]]]. unfold legal_ident, valid_name.
  destruct (id_name i) as [|c cs]; [discriminate|].
  intros H. apply andb_prop in H as [H1 H2]. cbn. rewrite H2, andb_true_r.
  apply orb_prop in H1 as [H1|H1]; [auto|]. apply N.eqb_eq in H1 as ->. exact Hu.
Qed.

Lemma val_alias i : legal_ident i -> id_raw i = false ->
  ident_new (val_prefix ++ ident_to_string i) = Gen (mkIdent false (val_prefix ++ id_name i)).
Proof.
  intros Hi Hr. unfold ident_new, ident_to_string. rewrite Hr, valid_val; [auto|].
  now apply legal_continue.
Qed.

Lemma val_alias_raw i : id_raw i = true ->
  ident_new (val_prefix ++ ident_to_string i) = MacroPanic.
Proof.
  intros Hr. unfold ident_new, ident_to_string. rewrite Hr.
  enough (valid_name (val_prefix ++ 114 :: hash :: id_name i) = false) as -> by auto.
  cbn. destruct LO as [Hh _]. change (xid_continue 35) with (xid_continue hash). rewrite Hh.
  cbn. rewrite !andb_false_r. reflexivity.
Qed.

Lemma digits_continue d : forallb xid_continue (digits d) = true.
Proof.
  destruct LO as [_ [Hs [Ha [Hd Hu]]]].
  induction d; cbn; auto; rewrite Hd by lia; auto.
Qed.
Lemma digits_inj a b : digits a = digits b -> a = b.
Proof. revert b. induction a; destruct b; cbn; intros [=]; f_equal; auto. Qed.
Lemma index_inj m n : index_to_string m = index_to_string n -> m = n.
Proof. intros H. apply digits_inj in H. now apply Unsigned.to_uint_inj. Qed.

Definition alias_ix (n : nat) : ident := mkIdent false (val_prefix ++ index_to_string n).
Lemma val_alias_ix n : ident_new (val_prefix ++ index_to_string n) = Gen (alias_ix n).
Proof. unfold ident_new. rewrite valid_val; [auto|]. apply digits_continue. Qed.

Definition alias (i : ident) : ident := mkIdent false (val_prefix ++ id_name i).

Lemma alias_not_serializer s b : ident_eqb (mkIdent false (val_prefix ++ s)) serializer_ident = b -> b = false.
Proof.
  intros <-. apply not_true_iff_false. intros E. apply ident_eqb_eq in E. discriminate.
Qed.
Lemma serializer_not_alias s b : ident_eqb serializer_ident (mkIdent false (val_prefix ++ s)) = b -> b = false.
Proof.
  intros <-. apply not_true_iff_false. intros E. apply ident_eqb_eq in E. discriminate.
Qed.

Lemma alias_eqb a b : ident_eqb (alias a) (alias b) = list_eqb (id_name a) (id_name b).
Proof.
  unfold ident_eqb, alias, ident_to_string. cbn [id_raw id_name].
  destruct (list_eqb (id_name a) (id_name b)) eqn:E.
  - apply list_eqb_eq in E. rewrite E. apply list_eqb_refl.
  - destruct (list_eqb (val_prefix ++ _) _) eqn:E2; auto.
    apply list_eqb_eq in E2. apply app_inv_head in E2. rewrite E2 in E. rewrite list_eqb_refl in E. discriminate.
Qed.
Lemma alias_ix_eqb a b : ident_eqb (alias_ix a) (alias_ix b) = Nat.eqb a b.
Proof.
  unfold ident_eqb, alias_ix, ident_to_string. cbn [id_raw id_name].
  destruct (Nat.eqb a b) eqn:E.
  - apply Nat.eqb_eq in E. rewrite E. apply list_eqb_refl.
  - destruct (list_eqb (val_prefix ++ _) _) eqn:E2; auto.
    apply list_eqb_eq in E2. apply app_inv_head in E2. apply index_inj in E2. subst.
    rewrite Nat.eqb_refl in E. discriminate.
Qed.

Lemma distinct_alias ids :
  NoDup (map id_name ids) -> distinct_idents (map alias ids) = true.
Proof.
  induction ids as [|i ids IH]; cbn; intros H; [auto|]. inversion H; subst.
  rewrite IH by auto. rewrite andb_true_r. apply negb_true_iff.
  destruct (existsb _ _) eqn:E; auto. apply existsb_exists in E as [x [Hx E]].
  apply in_map_iff in Hx as [j [<- Hj]]. rewrite alias_eqb in E. apply list_eqb_eq in E.
  exfalso. apply H2. rewrite E. now apply in_map.
Qed.
Lemma distinct_ids ids :
  Forall legal_ident ids -> NoDup (map id_name ids) -> distinct_idents ids = true.
Proof.
  induction ids as [|i ids IH]; cbn; intros Hl H; [auto|]. inversion H; inversion Hl; subst.
  rewrite IH by auto. rewrite andb_true_r. apply negb_true_iff.
  destruct (existsb _ _) eqn:E; auto. apply existsb_exists in E as [x [Hx E]].
  apply ident_eqb_name in E; [|auto| eapply Forall_forall; eauto].
  exfalso. apply H2. rewrite E. now apply in_map.
Qed.
Lemma distinct_alias_ix l : NoDup l -> distinct_idents (map alias_ix l) = true.
Proof.
  induction l as [|i l IH]; cbn; intros H; [auto|]. inversion H; subst.
  rewrite IH by auto. rewrite andb_true_r. apply negb_true_iff.
  destruct (existsb _ _) eqn:E; auto. apply existsb_exists in E as [x [Hx E]].
  apply in_map_iff in Hx as [j [<- Hj]]. rewrite alias_ix_eqb in E. apply Nat.eqb_eq in E. subst.
  contradiction.
Qed.

(** ** Attributes *)

Lemma path_is_tag a s : ~ In hash s -> path_is (a_path a) s = true <-> carries s a.
Proof.
  intros Hs. unfold path_is, carries. destruct (get_ident (a_path a)) as [i|]; [|split; discriminate].
  unfold ident_is. rewrite list_eqb_eq. unfold ident_to_string.
  destruct i as [r n]; cbn. destruct r.
  - split; [|congruence]. intros <-. exfalso. apply Hs. cbn. auto.
  - split; congruence.
Qed.

End L.

Ltac no_hash := cbn; intuition discriminate.

Lemma path_is_ser_with a : path_is (a_path a) ser_with_name = true <-> carries (str_of "ser_with") a.
Proof. apply path_is_tag. no_hash. Qed.

Lemma carries_dec s a : {carries s a} + {~ carries s a}.
Proof.
  unfold carries. destruct (get_ident (a_path a)) as [[r n]|].
  - destruct r; [right; congruence|].
    destruct (list_eq_dec N.eq_dec n s); [left; congruence|right; congruence].
  - right; discriminate.
Qed.

(** The attributes named [s]. *)
Lemma attrs_named_nil s l : ~ In hash s ->
  attrs_named s l = [] <-> (forall a, In a l -> ~ carries s a).
Proof.
  intros Hs. unfold attrs_named. induction l as [|a l IH]; cbn.
  - split; auto.
  - destruct (path_is (a_path a) s) eqn:E.
    + split; [discriminate|]. intros H. exfalso. apply (H a); auto. now apply path_is_tag.
    + rewrite IH. split; intros H.
      * intros b [<-|Hb]; auto. intros Hc. apply path_is_tag in Hc; congruence.
      * auto.
Qed.

Lemma attrs_named_one s l a : ~ In hash s ->
  attrs_named s l = [a] <->
  exists pre post, l = pre ++ a :: post /\ carries s a /\
    (forall b, In b (pre ++ post) -> ~ carries s b).
Proof.
  intros Hs. induction l as [|x l IH]; cbn.
  - split; [discriminate|]. intros [[|? ?] [post [H _]]]; discriminate.
  - destruct (path_is (a_path x) s) eqn:E.
    + split.
      * intros H. injection H as -> Hn.
        change (attrs_named s l = []) in Hn. rewrite attrs_named_nil in Hn by auto.
        exists [], l. cbn. split; [auto|]. split; [now apply path_is_tag|]. auto.
      * intros [pre [post [Hl [Hc Hn]]]]. destruct pre as [|y pre]; cbn in *.
        -- injection Hl as -> ->. f_equal. change (attrs_named s post = []).
           now apply attrs_named_nil.
        -- injection Hl as -> ->. exfalso. apply (Hn y); auto. now apply path_is_tag.
    + change (attrs_named s l = [a] <-> exists pre post, x :: l = pre ++ a :: post /\ carries s a /\
                 (forall b, In b (pre ++ post) -> ~ carries s b)). rewrite IH. split.
      * intros [pre [post [-> [Hc Hn]]]]. exists (x :: pre), post. cbn. split; [auto|].
        split; [auto|]. intros b [<-|Hb]; auto. intros Hx. apply path_is_tag in Hx; congruence.
      * intros [pre [post [Hl [Hc Hn]]]]. destruct pre as [|y pre]; cbn in *.
        -- injection Hl as -> ->. apply path_is_tag in Hc; congruence.
        -- injection Hl as -> ->. exists pre, post. auto.
Qed.

(** ** get_with *)

Definition metas_of (l : list attr) : list meta :=
  flat_map (fun a => match a_meta a with Some m => [m] | None => [] end) l.

Lemma with_metas_list l :
  (forall a, In a l -> legal_attr a) ->
  filter (fun m => path_is (meta_path m) ser_with_name) (metas_of l) =
  metas_of (attrs_named ser_with_name l).
Proof.
  induction l as [|a l IH]; intros H; [reflexivity|].
  assert (IHl := IH (fun b Hb => H b (or_intror Hb))).
  assert (La : legal_attr a) by (apply H; left; auto).
  unfold attrs_named in *. cbn [filter]. unfold metas_of in *. cbn [flat_map].
  rewrite filter_app, IHl. destruct (a_meta a) as [m|] eqn:E; cbn [filter app].
  - rewrite (La _ E). destruct (path_is (a_path a) ser_with_name); cbn [flat_map app]; [|auto].
    rewrite E. reflexivity.
  - destruct (path_is (a_path a) ser_with_name); cbn [flat_map]; [|auto]. rewrite E. reflexivity.
Qed.
Lemma with_metas_named f :
  (forall a, In a (f_attrs f) -> legal_attr a) ->
  with_metas f = metas_of (attrs_named ser_with_name (f_attrs f)).
Proof. apply with_metas_list. Qed.

Lemma get_with_unannotated f :
  (forall a, In a (f_attrs f) -> legal_attr a) ->
  unannotated f -> get_with f = Gen None.
Proof.
  intros Hl H. unfold get_with. rewrite with_metas_named by auto.
  replace (attrs_named ser_with_name (f_attrs f)) with (@nil attr); [auto|].
  symmetry. apply attrs_named_nil; [no_hash|]. exact H.
Qed.

Lemma get_with_annotated f w :
  (forall a, In a (f_attrs f) -> legal_attr a) ->
  annotated f w -> get_with f = Gen (Some w).
Proof.
  intros Hl [pre [a [post [p [Hf [Hc [Hm Hn]]]]]]]. unfold get_with. rewrite with_metas_named by auto.
  replace (attrs_named ser_with_name (f_attrs f)) with [a].
  - cbn. rewrite Hm. reflexivity.
  - symmetry. apply attrs_named_one; [no_hash|]. exists pre, post. auto.
Qed.

Lemma get_with_some f w :
  (forall a, In a (f_attrs f) -> legal_attr a) ->
  (forall a, In a (f_attrs f) -> carries (str_of "ser_with") a -> a_meta a <> None) ->
  (get_with f = Gen (Some w) <-> annotated f w) /\ (get_with f = Gen None <-> unannotated f).
Proof.
  intros Hl Hp. split.
  - split; [|intros; now apply get_with_annotated].
    unfold get_with. rewrite with_metas_named by auto. intros H.
    destruct (attrs_named ser_with_name (f_attrs f)) as [|a [|b r]] eqn:E; [discriminate| |].
    + apply attrs_named_one in E as [pre [post [Hf [Hc Hn]]]]; [|no_hash].
      cbn in H. destruct (a_meta a) as [m|] eqn:Em; [|discriminate]. cbn in H.
      destruct m as [|p ns|]; try discriminate. destruct ns as [|n [|]]; try discriminate.
      2:{ destruct n as [[]|]; discriminate. }
      destruct n as [[q| |]|]; try discriminate. injection H as ->.
      exists pre, a, post, p. auto.
    + exfalso. assert (Ha : In a (attrs_named ser_with_name (f_attrs f))) by (rewrite E; cbn; auto).
      assert (Hb : In b (attrs_named ser_with_name (f_attrs f))) by (rewrite E; cbn; auto).
      apply filter_In in Ha as [Ha Ca]. apply filter_In in Hb as [Hb Cb].
      apply path_is_ser_with in Ca. apply path_is_ser_with in Cb.
      specialize (Hp a Ha Ca) as Pa. specialize (Hp b Hb Cb) as Pb.
      cbn in H. destruct (a_meta a) as [m|]; [|congruence]. destruct (a_meta b) as [m'|]; [|congruence].
      cbn in H. destruct m as [|q [|[[| |]|] [|]]|]; discriminate.
  - split; [|intros; now apply get_with_unannotated].
    unfold get_with. rewrite with_metas_named by auto. intros H.
    destruct (attrs_named ser_with_name (f_attrs f)) as [|a r] eqn:E.
    + unfold unannotated. refine (proj1 (attrs_named_nil ser_with_name (f_attrs f) _) E). no_hash.
    + exfalso. assert (Ha : In a (attrs_named ser_with_name (f_attrs f))) by (rewrite E; cbn; auto).
      apply filter_In in Ha as [Ha Ca]. apply path_is_ser_with in Ca. specialize (Hp a Ha Ca).
      cbn in H. destruct (a_meta a) as [m|]; [|congruence]. cbn in H.
      fold (metas_of r) in H. destruct (metas_of r); destruct m as [|q [|[[| |]|] [|]]|]; discriminate.
Qed.

(** ** Structs *)

Section Structs.
Context {L : Lexer} (LO : lexer_ok).

Definition callee_of (o : option path) : callee :=
  match o with Some p => CWith p | None => CSerialize end.

Lemma field_index_at ids l pre i post :
  map f_ident l = map Some ids -> Forall legal_ident ids -> NoDup (map id_name ids) ->
  ids = pre ++ i :: post -> field_index i l = Some (length pre).
Proof.
  revert l ids. induction pre as [|j pre IH]; intros l ids Hl Hok Hd ->; cbn in *.
  - destruct l as [|f l]; [discriminate|]. cbn in *. injection Hl as -> Hl.
    now rewrite ident_eqb_refl.
  - destruct l as [|f l]; [discriminate|]. cbn in *. injection Hl as -> Hl.
    inversion Hok; inversion Hd; subst.
    destruct (ident_eqb i j) eqn:E.
    + apply ident_eqb_name in E; auto.
      * exfalso. apply H5. rewrite <- E. apply in_map. apply in_or_app. cbn. auto.
      * eapply Forall_forall; [exact H2|]. apply in_or_app. cbn. auto.
    + erewrite IH by eauto. reflexivity.
Qed.

Lemma run_stmts_app fs sc a b ca cb :
  run_stmts fs sc a = Some ca -> run_stmts fs sc b = Some cb ->
  run_stmts fs sc (a ++ b) = Some (ca ++ cb).
Proof.
  revert ca. induction a as [|s a IH]; cbn; intros ca Ha Hb.
  - now injection Ha as <-.
  - destruct (run_stmt fs sc s); [|discriminate]. destruct (run_stmts fs sc a); [|discriminate].
    injection Ha as <-. erewrite IH by eauto. reflexivity.
Qed.

(** Statements for named fields. *)
Lemma named_run l ids ss :
  map f_ident l = map Some ids -> Forall legal_ident ids -> NoDup (map id_name ids) ->
  get_named_field_stmts l = Gen ss ->
  exists cs, run_stmts (Some (FNamed l)) fn_scope ss = Some cs /\
    map snd cs = seq 0 (length l) /\
    Forall2 (fun f c => exists o, get_with f = Gen o /\ c = callee_of o) l (map fst cs).
Proof.
  intros Hl Hok Hd H. unfold get_named_field_stmts in H. apply emap_ok in H.
  assert (G : forall l1 l2 ids1 ids2 ss2, l = l1 ++ l2 -> ids = ids1 ++ ids2 -> length l1 = length ids1 ->
    map f_ident l2 = map Some ids2 ->
    Forall2 (fun f y => match f_ident f with Some i => get_field_stmt (ESelfNamed i) f | None => MacroPanic end = Gen y) l2 ss2 ->
    exists cs, run_stmts (Some (FNamed l)) fn_scope ss2 = Some cs /\
      map snd cs = seq (length l1) (length l2) /\
      Forall2 (fun f c => exists o, get_with f = Gen o /\ c = callee_of o) l2 (map fst cs)).
  { intros l1 l2. revert l1. induction l2 as [|f l2 IH]; intros l1 ids1 ids2 ss2 El Ei Elen Em HF.
    - inversion HF; subst. exists []. cbn. auto.
    - inversion HF as [|? s ? ss' Hs HF']; subst. destruct ids2 as [|i ids2]; [discriminate|].
      cbn in Em. injection Em as Ef Em. rewrite Ef in Hs.
      destruct (IH (l1 ++ [f]) (ids1 ++ [i]) ids2 ss') as [cs [Hr [Hs1 Hs2]]]; auto.
      { now rewrite <- app_assoc. } { now rewrite <- app_assoc. } { rewrite !app_length. cbn. lia. }
      unfold get_field_stmt in Hs. destruct (get_with f) as [o|] eqn:Eo; [|discriminate].
      cbn in Hs. injection Hs as <-.
      exists ((callee_of o, length l1) :: cs). cbn [run_stmts run_stmt s_arg s_target s_callee].
      unfold run_stmt. cbn [s_arg s_target s_callee eval_expr].
      change (lookup serializer_ident fn_scope) with (Some BSerializer). cbn match.
      erewrite (field_index_at (ids1 ++ i :: ids2) _ ids1 i ids2); eauto.
      rewrite Hr, <- Elen. split; [reflexivity|]. cbn. split.
      + f_equal. rewrite Hs1. rewrite app_length. cbn. f_equal. lia.
      + constructor; eauto. }
  destruct (G [] l [] ids ss) as [cs Hcs]; auto. exists cs. exact Hcs.
Qed.

Lemma unnamed_run l2 : forall l1 l ss,
  l = l1 ++ l2 ->
  get_unnamed_from (length l1) l2 = Gen ss ->
  exists cs, run_stmts (Some (FUnnamed l)) fn_scope ss = Some cs /\
    map snd cs = seq (length l1) (length l2) /\
    Forall2 (fun f c => exists o, get_with f = Gen o /\ c = callee_of o) l2 (map fst cs).
Proof.
  induction l2 as [|f l2 IH]; intros l1 l ss El H; cbn in H.
  - injection H as <-. exists []. cbn. auto.
  - unfold get_field_stmt in H. destruct (get_with f) as [o|] eqn:Eo; [|discriminate]. cbn in H.
    destruct (get_unnamed_from (S (length l1)) l2) as [ss'|] eqn:Er; [|discriminate]. cbn in H.
    injection H as <-.
    destruct (IH (l1 ++ [f]) l ss') as [cs [Hr [Hs1 Hs2]]].
    { now rewrite <- app_assoc. }
    { rewrite app_length. cbn. rewrite Nat.add_1_r. exact Er. }
    exists ((callee_of o, length l1) :: cs). cbn [run_stmts].
    unfold run_stmt. cbn [s_arg s_target s_callee eval_expr].
    change (lookup serializer_ident fn_scope) with (Some BSerializer). cbn match.
    assert (Hlt : Nat.ltb (length l1) (length l) = true).
    { apply Nat.ltb_lt. rewrite El, app_length. cbn. lia. }
    rewrite Hlt, Hr. split; [reflexivity|]. cbn. split.
    + f_equal. rewrite Hs1, app_length. cbn. f_equal. lia.
    + constructor; eauto.
Qed.

Lemma derive_struct_run fs b :
  legal_fields fs -> derive_struct fs = Gen b ->
  exists cs, run_struct fs b = Some cs /\
    map snd cs = seq 0 (length (field_list fs)) /\
    Forall2 (fun f c => exists o, get_with f = Gen o /\ c = callee_of o) (field_list fs) (map fst cs).
Proof.
  intros [_ Hl] H. unfold derive_struct in H. destruct fs as [l|l|]; cbn in *.
  - destruct (get_named_field_stmts l) as [ss|] eqn:E; [|discriminate]. injection H as <-.
    destruct Hl as [ids [Hm [Hok Hd]]]. cbn. eapply named_run; eauto.
  - destruct (get_unnamed_from 0 l) as [ss|] eqn:E; [|discriminate]. injection H as <-.
    cbn. now apply (unnamed_run l [] l ss).
  - injection H as <-. exists []. cbn. auto.
Qed.

Lemma derive_struct_total fs :
  legal_fields fs ->
  (exists b, derive_struct fs = Gen b) <-> (forall f, In f (field_list fs) -> get_with f <> MacroPanic).
Proof.
  intros [_ Hl]. unfold derive_struct. destruct fs as [l|l|]; cbn.
  - destruct Hl as [ids [Hm _]]. split.
    + intros [b Hb] f Hf E. unfold get_named_field_stmts in Hb.
      destruct (emap _ l) eqn:Ee; [|discriminate].
      enough (@MacroPanic (list stmt) = Gen a) by discriminate. rewrite <- Ee. symmetry.
      apply emap_panic. exists f. split; [auto|]. destruct (f_ident f); auto.
      unfold get_field_stmt. rewrite E. reflexivity.
    + intros H. destruct (get_named_field_stmts l) eqn:E; cbn; [eauto|].
      unfold get_named_field_stmts in E. apply emap_panic in E as [f [Hf E]].
      assert (Hi : In (f_ident f) (map Some ids)) by (rewrite <- Hm; now apply in_map).
      apply in_map_iff in Hi as [i [Hi _]]. rewrite <- Hi in E. unfold get_field_stmt in E.
      destruct (get_with f) eqn:Eg; [discriminate|]. exfalso. now apply (H f).
  - generalize O as n. induction l as [|f l IH]; intros n; cbn.
    + split; [intros _ f []|eauto].
    + unfold get_field_stmt. inversion Hl; subst. destruct (get_with f) eqn:Eg; cbn.
      * specialize (IH H2 (S n)). destruct (get_unnamed_from (S n) l); cbn in *.
        -- split; [|eauto]. intros _ g [<-|Hg]; [congruence|]. now apply IH; eauto.
        -- split; [intros [? ?]; discriminate|]. intros Hg. exfalso.
           destruct IH as [_ IH]. destruct IH as [? ?]; [auto|discriminate].
      * split; [intros [? ?]; discriminate|]. intros Hg. exfalso. apply (Hg f); auto.
  - split; [intros _ f []|eauto].
Qed.

End Structs.

(** ** Enums *)

Section Enums.
Context {L : Lexer} (LO : lexer_ok).

(** The aliases of the fields of a variant. *)
Definition aliases (fs : fields) : list ident :=
  match fs with
  | FNamed l => flat_map (fun f => match f_ident f with Some i => [alias i] | None => [] end) l
  | FUnnamed l => map alias_ix (seq 0 (length l))
  | FUnit => []
  end.
Definition pat_for (v : variant) : pat :=
  match v_fields v with
  | FNamed l => PNamed (v_ident v)
      (combine (flat_map (fun f => match f_ident f with Some i => [i] | None => [] end) l)
               (aliases (v_fields v)))
  | _ => PTuple (v_ident v) (aliases (v_fields v))
  end.
Definition arm_for (v : variant) : arm := mkArm (pat_for v) (enum_field_stmts (aliases (v_fields v))).

Definition has_fieldsb (v : variant) : bool :=
  match field_list (v_fields v) with [] => false | _ => true end.
Lemma has_fieldsb_iff v : has_fieldsb v = true <-> has_fields v.
Proof. unfold has_fieldsb, has_fields. destruct (field_list (v_fields v)); split; congruence. Qed.

Lemma names_flat l ids : map f_ident l = map Some ids ->
  flat_map (fun f => match f_ident f with Some i => [i] | None => [] end) l = ids.
Proof.
  revert ids. induction l as [|f l IH]; intros [|i ids] H; try discriminate; cbn in *; [auto|].
  injection H as -> H. cbn. f_equal. auto.
Qed.
Lemma alias_flat l ids : map f_ident l = map Some ids ->
  flat_map (fun f => match f_ident f with Some i => [alias i] | None => [] end) l = map alias ids.
Proof.
  revert ids. induction l as [|f l IH]; intros [|i ids] H; try discriminate; cbn in *; [auto|].
  injection H as -> H. cbn. f_equal. auto.
Qed.

Lemma emap_idents l ids : map f_ident l = map Some ids ->
  emap (fun f => match f_ident f with Some i => Gen i | None => MacroPanic end) l = Gen ids.
Proof.
  revert ids. induction l as [|f l IH]; intros [|i ids] H; try discriminate; cbn in *; [auto|].
  injection H as -> H. cbn. now rewrite (IH ids).
Qed.

Lemma match_for_variant_ok v :
  legal_fields (v_fields v) ->
  match_for_variant v =
    match v_fields v with
    | FNamed l =>
        if existsb (fun f => match f_ident f with Some i => id_raw i | None => false end) l
        then MacroPanic else Gen (if has_fieldsb v then Some (arm_for v) else None)
    | _ => Gen (if has_fieldsb v then Some (arm_for v) else None)
    end.
Proof.
  intros [_ Hl]. unfold match_for_variant, has_fieldsb, arm_for, pat_for.
  destruct (v_fields v) as [l|l|] eqn:Ev; cbn [field_list]; auto.
  - destruct Hl as [ids [Hm [Hok Hd]]]. unfold match_for_named.
    destruct l as [|f l]; [reflexivity|].
    cbn [length Nat.eqb]. rewrite (emap_idents _ ids) by auto. cbn [ebind].
    destruct (existsb _ (f :: l)) eqn:Er.
    + apply existsb_exists in Er as [g [Hg Er]].
      destruct (f_ident g) as [i|] eqn:Ei; [|discriminate].
      assert (Hi : In i ids).
      { assert (In (Some i) (map Some ids)) by (rewrite <- Hm, <- Ei; now apply in_map).
        apply in_map_iff in H as [? [[= ->] ?]]. auto. }
      assert (Ep : emap (fun i => ident_new (val_prefix ++ ident_to_string i)) ids = MacroPanic).
      { apply emap_panic. exists i. split; [auto|]. now apply val_alias_raw. }
      rewrite Ep. reflexivity.
    + rewrite (emap_gen alias).
      2:{ intros i Hi. apply val_alias; [auto| |].
          - eapply Forall_forall; eauto.
          - destruct (id_raw i) eqn:Ei; auto.
            assert (Hx : In (Some i) (map f_ident (f :: l))) by (rewrite Hm; now apply in_map).
            apply in_map_iff in Hx as [g [Hg Hin]].
            assert (Ht : existsb (fun f => match f_ident f with Some i => id_raw i | None => false end) (f :: l) = true).
            { apply existsb_exists. exists g. split; [auto|]. rewrite Hg. auto. }
            rewrite Ht in Er. discriminate. }
      cbn [ebind]. unfold aliases. rewrite (names_flat _ ids), (alias_flat _ ids) by auto. reflexivity.
  - unfold match_for_unnamed. destruct l as [|f l]; [reflexivity|].
    cbn [length Nat.eqb]. rewrite (emap_gen alias_ix) by (intros; now apply val_alias_ix).
    reflexivity.
Qed.

Lemma raw_field_iff v : raw_field v <->
  match v_fields v with
  | FNamed l => existsb (fun f => match f_ident f with Some i => id_raw i | None => false end) l = true
  | _ => False
  end.
Proof.
  unfold raw_field. destruct (v_fields v) as [l|l|]; try tauto.
  rewrite existsb_exists. split.
  - intros [f [i [Hf [Hi Hr]]]]. exists f. rewrite Hi. auto.
  - intros [f [Hf Hr]]. destruct (f_ident f) as [i|] eqn:E; [|discriminate]. eauto.
Qed.

Lemma match_for_variant_gen v :
  legal_fields (v_fields v) -> ~ raw_field v ->
  match_for_variant v = Gen (if has_fieldsb v then Some (arm_for v) else None).
Proof.
  intros Hl Hr. rewrite match_for_variant_ok by auto. rewrite raw_field_iff in Hr.
  destruct (v_fields v) as [l|l|]; auto. destruct (existsb _ l); auto. now exfalso; apply Hr.
Qed.
Lemma match_for_variant_raw v :
  legal_fields (v_fields v) -> raw_field v -> match_for_variant v = MacroPanic.
Proof.
  intros Hl Hr. rewrite match_for_variant_ok by auto. rewrite raw_field_iff in Hr.
  destruct (v_fields v) as [l|l|]; try contradiction. now rewrite Hr.
Qed.

Lemma filter_some_arms vs :
  filter_some (map (fun v => if has_fieldsb v then Some (arm_for v) else None) vs) =
  map arm_for (filter has_fieldsb vs).
Proof. induction vs as [|v vs IH]; cbn; [auto|]. destruct (has_fieldsb v); cbn; congruence. Qed.

(** The whole match. *)
Definition enum_body (vs : list variant) : body :=
  let arms := map arm_for (filter has_fieldsb vs) in
  if Nat.eqb (length arms) 0 then BEmpty
  else BMatch (if Nat.ltb (length arms) (length vs) then arms ++ [mkArm PWild []] else arms).

Lemma derive_enum_ok vs :
  Forall (fun v => legal_fields (v_fields v)) vs ->
  (forall v, In v vs -> ~ raw_field v) ->
  derive_enum vs = Gen (enum_body vs).
Proof.
  intros Hl Hr. unfold derive_enum, enum_body.
  rewrite (emap_gen (fun v => if has_fieldsb v then Some (arm_for v) else None)).
  2:{ intros v Hv. apply match_for_variant_gen; auto. rewrite Forall_forall in Hl. auto. }
  cbn [ebind]. rewrite filter_some_arms.
  destruct (Nat.eqb _ 0); reflexivity.
Qed.

Lemma derive_enum_raw vs v :
  Forall (fun v => legal_fields (v_fields v)) vs ->
  In v vs -> raw_field v -> derive_enum vs = MacroPanic.
Proof.
  intros Hl Hv Hr. unfold derive_enum.
  replace (emap match_for_variant vs) with (@MacroPanic (list (option arm))); [reflexivity|].
  symmetry. apply emap_panic. exists v. split; auto. apply match_for_variant_raw; auto.
  rewrite Forall_forall in Hl. auto.
Qed.

Lemma pat_for_variant v : has_fieldsb v = true -> pat_variant (arm_pat (arm_for v)) = Some (v_ident v).
Proof.
  unfold has_fieldsb, arm_for, pat_for. cbn [arm_pat].
  destruct (v_fields v) as [l|l|]; cbn; auto.
Qed.

(** The first arm matching a variant that has fields is its own; there is none for the others. *)
Lemma find_arm vs v rest :
  Forall (fun v => legal_ident (v_ident v)) vs -> NoDup (map (fun v => id_name (v_ident v)) vs) ->
  In v vs ->
  find (arm_matches v) (map arm_for (filter has_fieldsb vs) ++ rest) =
    if has_fieldsb v then Some (arm_for v) else find (arm_matches v) rest.
Proof.
  intros Hok Hd Hin.
  assert (G : forall ws, (forall w, In w ws -> legal_ident (v_ident w) /\ has_fieldsb w = true /\
                 (id_name (v_ident w) = id_name (v_ident v) -> w = v)) ->
    find (arm_matches v) (map arm_for ws ++ rest) =
      if existsb (fun w => list_eqb (id_name (v_ident w)) (id_name (v_ident v))) ws
      then Some (arm_for v) else find (arm_matches v) rest).
  { induction ws as [|w ws IH]; cbn; intros Hws; [auto|].
    destruct (Hws w) as [Lw [Fw Uw]]; auto.
    unfold arm_matches at 1. rewrite pat_for_variant by auto.
    destruct (ident_eqb (v_ident w) (v_ident v)) eqn:E.
    - apply ident_eqb_name in E; auto.
      + rewrite E, list_eqb_refl. cbn. now rewrite (Uw E).
      + rewrite Forall_forall in Hok. auto.
    - destruct (list_eqb (id_name (v_ident w)) (id_name (v_ident v))) eqn:E2; cbn.
      + apply list_eqb_eq in E2. rewrite (Uw E2), ident_eqb_refl in E. discriminate.
      + apply IH. auto. }
  assert (U : forall w, In w vs -> id_name (v_ident w) = id_name (v_ident v) -> w = v).
  { clear G Hok. induction vs as [|x vs IH]; [contradiction|]. cbn in Hd. inversion Hd; subst.
    intros w [<-|Hw] E.
    - destruct Hin as [|Hin]; auto. exfalso. apply H1. rewrite E.
      apply (in_map (fun v => id_name (v_ident v))). auto.
    - destruct Hin as [<-|Hin].
      + exfalso. apply H1. rewrite <- E. apply (in_map (fun v => id_name (v_ident v))). auto.
      + apply IH; auto. }
  rewrite G.
  - destruct (existsb _ _) eqn:E.
    + apply existsb_exists in E as [w [Hw E]]. apply filter_In in Hw as [Hw Fw].
      apply list_eqb_eq in E. apply U in E; auto. subst. now rewrite Fw.
    + destruct (has_fieldsb v) eqn:F; [|auto].
      enough (existsb (fun w => list_eqb (id_name (v_ident w)) (id_name (v_ident v))) (filter has_fieldsb vs) = true) by congruence.
      apply existsb_exists. exists v. split; [now apply filter_In|]. apply list_eqb_refl.
  - intros w Hw. apply filter_In in Hw as [Hw Fw]. rewrite Forall_forall in Hok. auto.
Qed.

(** Running an arm. *)
Lemma lookup_skip i sc1 sc2 :
  (forall j b, In (j, b) sc1 -> ident_eqb i j = false) -> lookup i (sc1 ++ sc2) = lookup i sc2.
Proof.
  induction sc1 as [|[j b] sc1 IH]; cbn; intros H; [auto|].
  rewrite (H j b) by auto. apply IH. eauto.
Qed.

Lemma run_vars sc0 sc vars n0 :
  (forall s, In s sc -> exists t, fst s = mkIdent false (val_prefix ++ t)) ->
  (forall k x, nth_error vars k = Some x -> lookup x (sc ++ sc0) = Some (BField (n0 + k))) ->
  lookup serializer_ident sc0 = Some BSerializer ->
  run_stmts None (sc ++ sc0) (enum_field_stmts vars) = Some (map (fun n => (CSerialize, n)) (seq n0 (length vars))).
Proof.
  intros Hsc Hv H0. revert n0 Hv. induction vars as [|x vars IH]; intros n0 Hv; [reflexivity|].
  cbn [enum_field_stmts map run_stmts length seq]. fold (enum_field_stmts vars).
  unfold run_stmt. cbn [s_arg s_target s_callee eval_expr].
  rewrite lookup_skip.
  2:{ intros j b Hj. destruct (Hsc _ Hj) as [t Ht]. cbn in Ht. subst.
      eapply serializer_not_alias. reflexivity. }
  rewrite H0. rewrite (Hv O x) by reflexivity. rewrite Nat.add_0_r.
  rewrite (IH (S n0)). 2:{ intros k y Hy. rewrite (Hv (S k) y) by auto. do 2 f_equal. lia. }
  reflexivity.
Qed.

Lemma bind_tuple_lookup vars sc0 : forall n k x,
  distinct_idents vars = true ->
  nth_error vars k = Some x ->
  lookup x (bind_tuple n vars ++ sc0) = Some (BField (n + k)).
Proof.
  induction vars as [|y vars IH]; intros n k x Hd Hk.
  - now destruct k.
  - cbn in Hd. apply andb_prop in Hd as [Hd1 Hd2]. cbn. destruct k as [|k]; cbn in Hk.
    + injection Hk as ->. rewrite ident_eqb_refl. rewrite Nat.add_0_r. auto.
    + destruct (ident_eqb x y) eqn:E.
      * exfalso. apply negb_true_iff in Hd1.
        enough (existsb (ident_eqb y) vars = true) by congruence.
        apply existsb_exists. exists x. split; [now apply nth_error_In in Hk|].
        apply ident_eqb_eq. apply ident_eqb_eq in E. auto.
      * rewrite (IH (S n) k) by auto. do 2 f_equal. lia.
Qed.

Lemma bind_tuple_names vars n s : In s (bind_tuple n vars) -> In (fst s) vars.
Proof.
  revert n. induction vars as [|x vars IH]; cbn; intros n; [auto|]. intros [<-|H]; cbn; eauto.
Qed.

Lemma bind_named_tuple l ids2 : forall ids1 ids als,
  map f_ident l = map Some ids -> Forall legal_ident ids -> NoDup (map id_name ids) ->
  ids = ids1 ++ ids2 -> length als = length ids2 ->
  bind_named l (combine ids2 als) = Some (bind_tuple (length ids1) als).
Proof.
  induction ids2 as [|i ids2 IH]; intros ids1 ids als Hm Hok Hd E Hlen.
  - destruct als; [|discriminate]. reflexivity.
  - destruct als as [|y als]; [discriminate|]. cbn in *.
    rewrite (field_index_at LO ids l ids1 i ids2) by auto.
    rewrite (IH (ids1 ++ [i]) ids als); auto.
    + rewrite app_length. cbn. do 3 f_equal. lia.
    + now rewrite <- app_assoc.
Qed.

Lemma aliases_form fs x : In x (aliases fs) -> exists t, x = mkIdent false (val_prefix ++ t).
Proof.
  destruct fs as [l|l|]; cbn.
  - rewrite in_flat_map. intros [f [_ H]]. destruct (f_ident f) as [i|]; [|contradiction].
    destruct H as [<-|[]]. exists (id_name i). reflexivity.
  - rewrite in_map_iff. intros [n [<- _]]. exists (index_to_string n). reflexivity.
  - contradiction.
Qed.

Lemma run_arm v :
  legal_fields (v_fields v) -> has_fieldsb v = true ->
  exists sc, pat_binds (arm_pat (arm_for v)) v = Some sc /\
    run_stmts None (sc ++ fn_scope) (arm_body (arm_for v)) =
      Some (map (fun n => (CSerialize, n)) (seq 0 (length (field_list (v_fields v))))).
Proof.
  intros [_ Hl] Hf. unfold arm_for, pat_for, pat_binds. cbn [arm_pat arm_body].
  assert (Hform : forall s, In s (bind_tuple 0 (aliases (v_fields v))) ->
            exists t, fst s = mkIdent false (val_prefix ++ t)).
  { intros s Hs. apply bind_tuple_names in Hs. now apply aliases_form in Hs. }
  unfold has_fieldsb in Hf.
  destruct (v_fields v) as [l|l|] eqn:Ev; cbn [field_list] in *; [| |discriminate].
  - destruct Hl as [ids [Hm [Hok Hd]]].
    rewrite (names_flat l ids) by auto. cbn [aliases] in *. rewrite (alias_flat l ids) in * by auto.
    assert (Hlen : length ids = length l).
    { rewrite <- (map_length Some ids), <- Hm. apply map_length. }
    rewrite combine_length, map_length, Nat.min_id, Hlen, Nat.eqb_refl.
    assert (E1 : map fst (combine ids (map alias ids)) = ids).
    { clear. induction ids; cbn; congruence. }
    assert (E2 : map snd (combine ids (map alias ids)) = map alias ids).
    { clear. induction ids; cbn; congruence. }
    rewrite E1, E2, (distinct_ids LO), (distinct_alias) by auto. cbn [andb].
    rewrite (bind_named_tuple l ids [] ids) by (auto; now rewrite map_length).
    eexists. split; [reflexivity|]. cbn [length].
    rewrite run_vars with (n0 := O); [now rewrite map_length, Hlen|exact Hform| |reflexivity].
    intros k x Hk. apply bind_tuple_lookup; auto. now apply distinct_alias.
  - cbn [aliases] in *. rewrite map_length, seq_length, Nat.eqb_refl.
    rewrite distinct_alias_ix by apply seq_NoDup. cbn [andb].
    eexists. split; [reflexivity|].
    rewrite run_vars with (n0 := O); [now rewrite map_length, seq_length|exact Hform| |reflexivity].
    intros k x Hk. apply bind_tuple_lookup; auto. apply distinct_alias_ix. apply seq_NoDup.
Qed.

Lemma arms_length vs : (length (map arm_for (filter has_fieldsb vs)) <= length vs)%nat.
Proof. rewrite map_length. induction vs as [|v vs IH]; cbn; [lia|]. destruct (has_fieldsb v); cbn; lia. Qed.

Lemma filter_all vs : length (filter has_fieldsb vs) = length vs -> forall v, In v vs -> has_fieldsb v = true.
Proof.
  induction vs as [|x vs IH]; cbn; [contradiction|].
  pose proof (arms_length vs). rewrite map_length in H.
  destruct (has_fieldsb x) eqn:E; cbn; intros Hlen v [<-|Hv]; auto; lia.
Qed.

Lemma run_enum_body vs v :
  legal_variants vs -> In v vs ->
  run_enum v (enum_body vs) =
    Some (map (fun n => (CSerialize, n)) (seq 0 (length (field_list (v_fields v))))).
Proof.
  intros [Hl Hd] Hin. unfold enum_body.
  assert (Hok : Forall (fun v => legal_ident (v_ident v)) vs).
  { eapply Forall_impl; [|exact Hl]. cbv beta. intros w [Hw _]. exact Hw. }
  assert (Hlf : legal_fields (v_fields v)).
  { rewrite Forall_forall in Hl. now apply Hl. }
  destruct (Nat.eqb _ 0) eqn:E0.
  - apply Nat.eqb_eq in E0. rewrite map_length in E0. apply length_zero_iff_nil in E0.
    destruct (has_fieldsb v) eqn:Ef.
    + assert (In v (filter has_fieldsb vs)) by now apply filter_In. rewrite E0 in H. contradiction.
    + unfold has_fieldsb in Ef. destruct (field_list (v_fields v)); [reflexivity|discriminate].
  - destruct (Nat.ltb _ _) eqn:E1; cbn [run_enum].
    + rewrite find_arm by auto. destruct (has_fieldsb v) eqn:Ef.
      * destruct (run_arm v Hlf Ef) as [sc [Hp Hr]]. rewrite Hp, Hr. reflexivity.
      * cbn. unfold has_fieldsb in Ef. destruct (field_list (v_fields v)); [reflexivity|discriminate].
    + rewrite <- (app_nil_r (map arm_for _)), find_arm by auto.
      destruct (has_fieldsb v) eqn:Ef.
      * destruct (run_arm v Hlf Ef) as [sc [Hp Hr]]. rewrite Hp, Hr. reflexivity.
      * apply Nat.ltb_ge in E1. pose proof (arms_length vs). rewrite map_length in *.
        rewrite (filter_all vs) in Ef; [discriminate|lia|auto].
Qed.

End Enums.
