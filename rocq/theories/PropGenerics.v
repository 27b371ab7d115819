(** * PropGenerics: which types the derived impls cover (C64). *)
From Coq Require Import String.
From Verif Require Import Base Types Derive DeriveSpec DeriveFacts Generics.

Section Generics.
Context {L : Lexer} {T : Traits}.

Lemma gname_eqb_spec a b : gname_eqb a b = true <-> a = b.
Proof.
  destruct a as [x s], b as [y t]. unfold gname_eqb. cbn [fst snd]. rewrite Bool.andb_true_iff, Bool.eqb_true_iff.
  unfold list_eqb. destruct (list_eq_dec N.eq_dec s t) as [->|H]; split.
  - intros [-> _]. reflexivity.
  - intros E. injection E as ->. auto.
  - intros [_ ?]. discriminate.
  - intros E. injection E as -> ->. contradiction.
Qed.

Lemma look_app n e1 e2 : look n (e1 ++ e2) = match look n e1 with Some a => Some a | None => look n e2 end.
Proof. induction e1 as [|[m a] e1 IH]; [reflexivity|]. cbn. destruct (gname_eqb n m); auto. Qed.
Lemma look_in n ns vs : In n ns -> length ns = length vs -> exists a, look n (combine ns vs) = Some a.
Proof.
  revert vs. induction ns as [|m ns IH]; intros [|v vs] Hin Hl; try contradiction; try discriminate.
  cbn. destruct (gname_eqb n m) eqn:E; [eauto|]. destruct Hin as [->|Hin].
  - exfalso. rewrite (proj2 (gname_eqb_spec n n) eq_refl) in E. discriminate.
  - apply IH; auto.
Qed.
Lemma look_out n ns vs : ~ In n ns -> look n (combine ns vs) = None.
Proof.
  revert vs. induction ns as [|m ns IH]; intros [|v vs] Hn; try reflexivity.
  cbn. destruct (gname_eqb n m) eqn:E; [apply gname_eqb_spec in E; subst; exfalso; apply Hn; left; reflexivity|].
  apply IH. intros H. apply Hn. right. exact H.
Qed.
Lemma look_all ns vs : NoDup ns -> length ns = length vs -> map (fun n => look n (combine ns vs)) ns = map Some vs.
Proof.
  intros Hd. revert vs. induction Hd as [|m ns Hm Hd IH]; intros [|v vs] Hl; try discriminate; [reflexivity|].
  cbn. rewrite (proj2 (gname_eqb_spec m m) eq_refl). f_equal. rewrite <- (IH vs) by (injection Hl; auto).
  apply map_ext_in. intros n Hn. destruct (gname_eqb n m) eqn:E; [|reflexivity].
  apply gname_eqb_spec in E. subst. contradiction.
Qed.
Lemma combine_app' {A B} (a1 a2 : list A) (b1 b2 : list B) : length a1 = length b1 ->
  combine (a1 ++ a2) (b1 ++ b2) = combine a1 b1 ++ combine a2 b2.
Proof. revert b1. induction a1; intros [|]; cbn; intros; try discriminate; auto. f_equal. apply IHa1. lia. Qed.

Lemma filter_true {A} (f : A -> bool) l : (forall x, In x l -> f x = true) -> filter f l = l.
Proof. induction l as [|x l IH]; intros H; [reflexivity|]. cbn. rewrite H by (left; reflexivity). f_equal. apply IH. intros; apply H; right; assumption. Qed.
Lemma filter_false {A} (f : A -> bool) l : (forall x, In x l -> f x = false) -> filter f l = [].
Proof. induction l as [|x l IH]; intros H; [reflexivity|]. cbn. rewrite H by (left; reflexivity). apply IH. intros; apply H; right; assumption. Qed.

Lemma split_first {A} (k : A -> gkind) l : lifetimes_first (map k l) ->
  filter (fun p => is_life (k p)) l ++ filter (fun p => negb (is_life (k p))) l = l.
Proof.
  intros (a & b & E & Ha & Hb).
  assert (H : exists l1 l2, l = l1 ++ l2 /\ map k l1 = a /\ map k l2 = b) by (apply map_eq_app; exact E).
  destruct H as (l1 & l2 & -> & <- & <-). rewrite Forall_map in Ha, Hb. rewrite Forall_forall in Ha, Hb.
  rewrite !filter_app.
  rewrite (filter_true _ l1), (filter_false _ l2), (filter_false _ l1), (filter_true _ l2); rewrite ?app_nil_r; auto.
  - intros x Hx. specialize (Hb x Hx). destruct (k x); cbn; congruence.
  - intros x Hx. rewrite (Ha x Hx). reflexivity.
  - intros x Hx. specialize (Hb x Hx). destruct (k x); cbn; congruence.
  - intros x Hx. rewrite (Ha x Hx). reflexivity.
Qed.

Lemma NoDup_snoc {A} (l : list A) x : NoDup l -> ~ In x l -> NoDup (l ++ [x]).
Proof. intros Hd Hx. apply NoDup_Add with (a := x) (l := l); [|auto]. rewrite <- (app_nil_r l) at 1. apply Add_app. Qed.

(** A header parameter without its default. *)
Definition strip (p : hparam) : hparam := mkHP (hp_kind p) (hp_id p) (hp_bounds p) None.

Lemma impl_generics_strip l : lifetimes_first (map hp_kind l) ->
  (forall p, In p l -> hp_kind p = GLife -> hp_default p = None) -> impl_generics l = map strip l.
Proof.
  intros Hf Hd. unfold impl_generics. rewrite <- (split_first hp_kind l Hf) at 3. rewrite map_app. f_equal.
  transitivity (map (fun x => x) (filter (fun p => is_life (hp_kind p)) l)); [symmetry; apply map_id|].
  apply map_ext_in. intros p Hp. apply filter_In in Hp as [H1 H2].
  destruct p as [k i b d]; unfold strip; cbn in *. f_equal. apply (Hd _ H1). cbn. destruct k; try discriminate; reflexivity.
Qed.
Lemma type_generics_id l : lifetimes_first (map gp_kind l) -> type_generics l = map gp_name l.
Proof. intros Hf. unfold type_generics. rewrite <- map_app, split_first by exact Hf. reflexivity. Qed.

Lemma lf_app l : lifetimes_first l -> lifetimes_first (l ++ [GType]).
Proof.
  intros (a & b & -> & Ha & Hb). exists a, (b ++ [GType]). rewrite app_assoc. split; [reflexivity|]. split; [exact Ha|].
  apply Forall_app. split; [exact Hb|]. constructor; [discriminate|constructor].
Qed.

(** What the two macros add to the declared parameters. *)
Lemma header_params g extra : legal_generics g ->
  (extra = [] \/ exists b, extra = [mkHP GType s_name b None]) ->
  impl_generics (map to_hparam (g_params g) ++ extra) = map (fun p => strip (to_hparam p)) (g_params g) ++ extra.
Proof.
  intros (G1 & G2 & G3 & G4 & G5) He.
  assert (K : map hp_kind (map to_hparam (g_params g)) = map gp_kind (g_params g)) by (rewrite map_map; reflexivity).
  rewrite impl_generics_strip.
  - rewrite map_app, map_map. f_equal. destruct He as [->|[b ->]]; reflexivity.
  - rewrite map_app, K. destruct He as [->|[b ->]]; [rewrite app_nil_r; exact G2|apply lf_app; exact G2].
  - intros p Hp Hk. apply in_app_or in Hp as [Hp|Hp].
    + apply in_map_iff in Hp as (q & <- & Hq). apply (G5 q Hq Hk).
    + destruct He as [->|[b ->]]; [contradiction|]. destruct Hp as [<-|[]]. reflexivity.
Qed.

Notation names g := (map gp_name (g_params g)).
Definition s_gname : gname := (false, s_name).

Lemma names_strip l : map hp_name (map (fun p => strip (to_hparam p)) l) = map gp_name l.
Proof. rewrite map_map. reflexivity. Qed.
Lemma kinds_strip l : map hp_kind (map (fun p => strip (to_hparam p)) l) = map gp_kind l.
Proof. rewrite map_map. reflexivity. Qed.

Lemma look_ext e e' ns : (forall n, In n ns -> look n e = look n e') ->
  map (fun n => look n e) ns = map (fun n => look n e') ns.
Proof. intros H. apply map_ext_in. exact H. Qed.

(** Bounds and where clauses that mention only the declared parameters mean the same with one
    more parameter. *)
Lemma bounds_same g args e2 : legal_generics g -> length args = length (g_params g) ->
  let e := combine (names g) args in
  (Forall2 (fun p a => Forall (hbound_holds (e ++ e2) a) (hp_bounds p)) (map (fun p => strip (to_hparam p)) (g_params g)) args
   <-> Forall2 (fun p a => Forall (bound_holds e a) (gp_bounds p)) (g_params g) args) /\
  (wheres_hold (e ++ e2) (g_where g) <-> wheres_hold e (g_where g)).
Proof.
  intros (G1 & G2 & G3 & G4 & G5) Hl. cbv zeta.
  assert (A : forall ns, incl ns (names g) ->
    map (fun n => look n (combine (names g) args ++ e2)) ns = map (fun n => look n (combine (names g) args)) ns).
  { intros ns Hns. apply look_ext. intros n Hn. rewrite look_app.
    destruct (look_in n (names g) args (Hns n Hn)) as [a ->]; [|reflexivity]. rewrite map_length. auto. }
  split.
  - revert A. generalize (combine (names g) args). intros e A.
    assert (B : forall p, In p (g_params g) -> forall a, Forall (hbound_holds (e ++ e2) a) (hp_bounds (strip (to_hparam p)))
      <-> Forall (bound_holds e a) (gp_bounds p)).
    { intros p Hp a. cbn [strip to_hparam hp_bounds]. rewrite Forall_map, !Forall_forall.
      split; intros H b Hb; specialize (H b Hb); cbn [hbound_holds] in *; unfold bound_holds in *;
        rewrite ?(A _ (G3 p b Hp Hb)) in *; assumption. }
    clear -B. revert args B. generalize (g_params g). induction l as [|p l IH]; intros args B.
    + cbn. split; intros H; inversion H; constructor.
    + cbn [map]. split; intros H; inversion H; subst; constructor.
      * apply B; [left; reflexivity|assumption].
      * apply IH; [intros; apply B; right; assumption|assumption].
      * apply B; [left; reflexivity|assumption].
      * apply IH; [intros; apply B; right; assumption|assumption].
  - unfold wheres_hold. rewrite !Forall_forall.
    split; intros H w Hw; specialize (H w Hw); rewrite ?(A _ (G4 w Hw)) in *; assumption.
Qed.

Lemma app_inj {A} (a b c d : list A) : length a = length c -> a ++ b = c ++ d -> a = c /\ b = d.
Proof.
  revert c. induction a as [|x a IH]; intros [|y c] Hl E; try discriminate; [auto|].
  cbn in E. injection E as -> E. destruct (IH c) as [-> ->]; auto.
Qed.
Lemma Forall2_len {A B} (R : A -> B -> Prop) l m : Forall2 R l m -> length l = length m.
Proof. induction 1; cbn; congruence. Qed.
Lemma map_Some_inj {A} (a b : list A) : map Some a = map Some b -> a = b.
Proof. revert b. induction a as [|x a IH]; intros [|y b] H; try discriminate; [reflexivity|]. injection H as -> H. f_equal. auto. Qed.

(** The #[ser_bound(b)] attributes of the declaration. *)
Definition ser_bounded (i : input) (b : nat) : Prop :=
  exists a, In a (i_attrs i) /\ carries (str_of "ser_bound") a /\ a_bound a = Some b.

Lemma get_ser_bound_written l r : get_ser_bound l = Gen r ->
  forall b, (exists a, In a l /\ carries (str_of "ser_bound") a /\ a_bound a = Some b) <-> r = Some b.
Proof.
  unfold get_ser_bound. enough (H : forall acc, get_ser_bound_from acc l = Gen r -> forall b,
    (acc = Some b \/ exists a, In a l /\ carries (str_of "ser_bound") a /\ a_bound a = Some b) <-> r = Some b).
  { intros E b. rewrite <- (H None E). split; [tauto|]. intros [?|?]; [discriminate|assumption]. }
  induction l as [|a l IH]; intros acc E b.
  - cbn in E. injection E as ->. split; [intros [H|(a & [] & _)]; exact H|auto].
  - cbn [get_ser_bound_from] in E. destruct (path_is (a_path a) ser_bound_name) eqn:Ep.
    + apply path_is_tag in Ep; [|no_hash]. destruct (a_bound a) as [b'|] eqn:Eb; [|discriminate].
      destruct acc; [discriminate|]. rewrite <- (IH (Some b') E). split.
      * intros [?|(a' & [->|Hin] & Hc & Hb)]; [discriminate| |].
        -- left. congruence.
        -- right. eauto.
      * intros [H|(a' & Hin & Hc & Hb)]; right.
        -- exists a. split; [left; reflexivity|]. split; [exact Ep|congruence].
        -- exists a'. split; [right; exact Hin|auto].
    + rewrite <- (IH acc E). split; (intros [H|(a' & Hin & Hc & Hb)]; [left; exact H|right]).
      * destruct Hin as [->|Hin]; [|eauto]. apply path_is_tag in Hc; [|no_hash].
        change (str_of "ser_bound") with ser_bound_name in Hc. congruence.
      * exists a'. split; [right; exact Hin|auto].
Qed.

(** ** C64 *)

(** derive(Serialize), on a declaration none of whose parameters is called __S: the header is legal,
    and the impl is there exactly for the serializers that meet #[ser_bound] and all arguments the
    type can take. *)
Theorem C64_serialize : forall i g h,
  legal_generics g -> ~ In (false, str_of "__S") (names g) ->
  (forall b, ser_bounded i b -> incl (mentions b) ((false, str_of "__S") :: names g)) ->
  serialize_header i g = Gen h ->
  legal_header h /\ h_self h = i_ident i /\
  forall ta args, covers h ta args <->
    exists S e, ta = [AType S] /\ instantiates g args e /\ is_serializer S /\
      forall b, ser_bounded i b -> bound_holds (e ++ [((false, str_of "__S"), AType S)]) (AType S) b.
Proof.
  intros i g h G Hs Hb Hh. change (false, str_of "__S") with s_gname in *. pose proof G as (G1 & G2 & G3 & G4 & G5).
  unfold serialize_header, get_generics in Hh. destruct (get_ser_bound (i_attrs i)) as [r|] eqn:Er; [|discriminate].
  cbn [ebind] in Hh. pose proof (get_ser_bound_written _ _ Er) as Hw. fold (ser_bounded i) in Hw.
  change (forall b, ser_bounded i b <-> r = Some b) in Hw.
  set (sb := None :: match r with Some b => [Some b] | None => [] end) in *.
  rewrite (header_params g [mkHP GType s_name sb None] G) in Hh by eauto.
  rewrite type_generics_id in Hh by exact G2.
  set (Q := map (fun p => strip (to_hparam p)) (g_params g)) in *. injection Hh as <-.
  assert (HN : map hp_name (Q ++ [mkHP GType s_name sb None]) = names g ++ [s_gname]).
  { rewrite map_app. unfold Q. rewrite names_strip. reflexivity. }
  assert (HK : map hp_kind (Q ++ [mkHP GType s_name sb None]) = map gp_kind (g_params g) ++ [GType]).
  { rewrite map_app. unfold Q. rewrite kinds_strip. reflexivity. }
  split; [|split; [reflexivity|]].
  - unfold legal_header. cbn [h_params h_where h_trait h_args]. rewrite HN, HK. repeat split.
    + apply NoDup_snoc; assumption.
    + apply lf_app. exact G2.
    + intros p b Hp Hin. apply in_app_or in Hp as [Hp|[<-|[]]].
      * unfold Q in Hp. apply in_map_iff in Hp as (q & <- & Hq). cbn in Hin. apply in_map_iff in Hin as (b' & E & Hb').
        injection E as ->. apply incl_appl. apply (G3 q b Hq Hb').
      * assert (r = Some b) as Hr.
        { unfold sb in Hin. cbn in Hin. destruct Hin as [|Hin]; [discriminate|]. destruct r; [|contradiction].
          destruct Hin as [Hin|[]]. exact Hin. }
        intros n Hn. apply (Hb b (proj2 (Hw b) Hr)) in Hn. apply in_or_app. destruct Hn as [<-|Hn]; [right; left; reflexivity|left; exact Hn].
    + intros w Hin. apply incl_appl. apply G4. exact Hin.
    + intros p Hp. apply in_app_or in Hp as [Hp|[<-|[]]]; [|reflexivity].
      unfold Q in Hp. apply in_map_iff in Hp as (q & <- & Hq). reflexivity.
    + intros p Hp. assert (Hin : In (hp_name p) (names g ++ [s_gname])) by (rewrite <- HN; apply in_map; exact Hp).
      apply in_app_or in Hin as [Hin|[<-|[]]]; [right; exact Hin|left; reflexivity].
  - intros ta args. unfold covers. cbn [h_params h_where h_trait h_args]. rewrite HN, HK. split.
    + intros (vs & e & K & -> & B & W & A1 & A2).
      assert (H : exists l1 l2, vs = l1 ++ l2 /\ map kind_of l1 = map gp_kind (g_params g) /\ map kind_of l2 = [GType])
        by (apply map_eq_app; exact K).
      destruct H as (vs1 & vs2 & -> & K1 & K2). destruct vs2 as [|[?|S|?] [|]]; try discriminate.
      assert (Hl : length vs1 = length (g_params g)) by (apply (f_equal (@length _)) in K1; rewrite !map_length in K1; exact K1).
      assert (Hl' : length (names g) = length vs1) by (rewrite map_length; auto).
      rewrite combine_app' in * by exact Hl'. cbn [combine] in *.
      assert (Hlook : look s_gname (combine (names g) vs1 ++ [(s_gname, AType S)]) = Some (AType S)).
      { rewrite look_app, look_out by exact Hs. reflexivity. }
      cbn [map] in A1. change (false, s_name) with s_gname in A1. rewrite Hlook in A1. destruct ta as [|t [|]]; try discriminate. cbn in A1. injection A1 as <-.
      assert (vs1 = args) as ->.
      { apply map_Some_inj. rewrite <- A2, <- (look_all (names g) vs1 G1 Hl'). apply look_ext.
        intros n Hn. rewrite look_app. destruct (look_in n _ vs1 Hn Hl') as [a ->]. reflexivity. }
      apply Forall2_app_inv_l in B as (l1 & l2 & B1 & B2 & E). 
      assert (l1 = args /\ l2 = [AType S]) as [-> ->].
      { apply Forall2_len in B1. unfold Q in B1. rewrite map_length, <- Hl in B1.
        apply app_inj in E; [|lia]. destruct E; auto. }
      destruct (bounds_same g args [(s_gname, AType S)] G Hl) as [BS1 BS2].
      exists S, (combine (names g) args). split; [reflexivity|]. split; [|split].
      * split; [exact K1|]. split; [reflexivity|]. split; [apply BS1; exact B1|apply BS2; exact W].
      * inversion B2 as [|? ? ? ? Hx _]; subst. cbn [hp_bounds] in Hx. unfold sb in Hx. inversion Hx; subst. exact H1.
      * intros b Hbb. apply Hw in Hbb. subst r. inversion B2 as [|? ? ? ? Hx _]; subst. cbn [hp_bounds] in Hx.
        unfold sb in Hx. inversion Hx as [|? ? _ Hy]; subst. inversion Hy; subst. exact H1.
    + intros (S & e & -> & (K & -> & B & W) & Hser & Hbs).
      assert (Hl : length args = length (g_params g)) by (apply (f_equal (@length _)) in K; rewrite !map_length in K; exact K).
      assert (Hl' : length (names g) = length args) by (rewrite map_length; auto).
      destruct (bounds_same g args [(s_gname, AType S)] G Hl) as [BS1 BS2].
      exists (args ++ [AType S]), (combine (names g) args ++ [(s_gname, AType S)]).
      split; [rewrite map_app, K; reflexivity|].
      split; [rewrite combine_app' by exact Hl'; reflexivity|].
      split; [|split; [apply BS2; exact W|split]].
      * apply Forall2_app; [apply BS1; exact B|]. constructor; [|constructor]. cbn [hp_bounds]. unfold sb.
        constructor; [exact Hser|]. destruct r as [b|]; [|constructor]. constructor; [|constructor].
        apply (Hbs b). apply Hw. reflexivity.
      * cbn [map]. change (false, s_name) with s_gname. rewrite look_app, look_out by exact Hs. reflexivity.
      * rewrite <- (look_all (names g) args G1 Hl'). apply look_ext. intros n Hn. rewrite look_app.
        destruct (look_in n _ args Hn Hl') as [a ->]. reflexivity.
Qed.

(** A parameter called __S clashes with the one the macro adds. *)
Theorem C64_clash : forall i g h,
  legal_generics g -> In (false, str_of "__S") (names g) -> serialize_header i g = Gen h -> ~ legal_header h.
Proof.
  intros i g h G Hs Hh (D & _). unfold serialize_header, get_generics in Hh.
  destruct (get_ser_bound (i_attrs i)) as [r|]; [|discriminate]. cbn [ebind] in Hh. injection Hh as <-.
  cbn [h_params] in D. rewrite (header_params g _ G) in D by eauto. rewrite map_app, names_strip in D. cbn in D.
  apply NoDup_remove_2 in D. apply D. rewrite app_nil_r. exact Hs.
Qed.

(** The macro's header exists whenever the macro does not panic. *)
Theorem C64_total : forall i g im, derive_serialize i = Gen im -> exists h, serialize_header i g = Gen h.
Proof.
  intros i g im H. unfold derive_serialize in H. unfold serialize_header, get_generics.
  destruct (get_ser_bound (i_attrs i)); [cbn; eauto|discriminate].
Qed.

(** derive(Serializer): the impls are there exactly for the arguments the type can take. *)
Theorem C64_serializer : forall i g, legal_generics g ->
  legal_header (serializer_header i g) /\ h_self (serializer_header i g) = i_ident i /\
  forall ta args, covers (serializer_header i g) ta args <-> ta = [] /\ exists e, instantiates g args e.
Proof.
  intros i g G. pose proof G as (G1 & G2 & G3 & G4 & G5). unfold serializer_header.
  rewrite <- (app_nil_r (map to_hparam _)), header_params, app_nil_r, type_generics_id by auto.
  split; [|split; [reflexivity|]].
  - unfold legal_header. cbn [h_params h_where h_trait h_args]. rewrite names_strip, kinds_strip. repeat split; auto.
    + intros p b Hp Hin. apply in_map_iff in Hp as (q & <- & Hq). cbn in Hin. apply in_map_iff in Hin as (b' & E & Hb').
      injection E as ->. apply (G3 q b Hq Hb').
    + intros p Hp. apply in_map_iff in Hp as (q & <- & Hq). reflexivity.
    + intros p Hp. cbn [app]. rewrite <- names_strip. apply in_map. exact Hp.
  - intros ta args. unfold covers. cbn [h_params h_where h_trait h_args]. rewrite names_strip, kinds_strip. split.
    + intros (vs & e & K & -> & B & W & A1 & A2).
      assert (Hl : length vs = length (g_params g)) by (apply (f_equal (@length _)) in K; rewrite !map_length in K; exact K).
      assert (Hl' : length (names g) = length vs) by (rewrite map_length; auto).
      rewrite (look_all (names g) vs G1 Hl') in A2. apply map_Some_inj in A2. subst vs.
      destruct (bounds_same g args [] G Hl) as [BS1 BS2]. rewrite app_nil_r in BS1, BS2.
      split; [destruct ta; [reflexivity|discriminate]|]. exists (combine (names g) args).
      split; [exact K|]. split; [reflexivity|]. split; [apply BS1; exact B|exact W].
    + intros (-> & e & K & -> & B & W).
      assert (Hl : length args = length (g_params g)) by (apply (f_equal (@length _)) in K; rewrite !map_length in K; exact K).
      assert (Hl' : length (names g) = length args) by (rewrite map_length; auto).
      destruct (bounds_same g args [] G Hl) as [BS1 BS2]. rewrite app_nil_r in BS1, BS2.
      exists args, (combine (names g) args). split; [exact K|]. split; [reflexivity|].
      split; [apply BS1; exact B|]. split; [exact W|]. split; [reflexivity|].
      apply look_all; assumption.
Qed.
End Generics.

(** ** Witness

    struct Pair<'a, T: Clone + 'a, const N: usize = 4> where T: Copy, with #[ser_bound(PtrOffset)].
    Bounds: 1 = Clone (types below 10), 2 = 'a, 3 = usize, 4 = PtrOffset (type 7); where predicate 1
    = T: Copy (types below 5).  Serializers: types 7 and 8. *)
Local Open Scope string_scope.
Definition demo_traits : Traits := {|
  mentions b := if Nat.eqb b 2 then [(true, str_of "a")] else [];
  holds b l a := match b, a with
    | 1, AType n => n < 10
    | 2, _ => exists k, l = [Some (ALife k)]
    | 3, AConst _ => True
    | 4, AType n => n = 7
    | _, _ => False
    end%nat;
  where_mentions _ := [(false, str_of "T")];
  where_holds _ l := exists n, l = [Some (AType n)] /\ (n < 5)%nat;
  is_serializer n := n = 7%nat \/ n = 8%nat
|}.
Definition demo_generics : generics := mkGenerics
  [mkGP GLife (str_of "a") [] None; mkGP GType (str_of "T") [1%nat; 2%nat] None;
   mkGP GConst (str_of "N") [3%nat] (Some 4%nat)] [1%nat].
Definition plain_path (s : string) : path := mkPath false [(mkIdent false (str_of s), false)].
Definition demo_bounded : input := mkInput
  [mkAttr (plain_path "ser_bound") None None (Some 4%nat)] (mkIdent false (str_of "Pair")) (DStruct (FUnnamed [])).
Definition demo_header : header :=
  match serialize_header demo_bounded demo_generics with Gen h => h | _ => mkHeader [] [] (mkIdent false []) [] [] end.

Example C64_hypotheses :
  @legal_generics demo_traits demo_generics /\ ~ In (false, str_of "__S") (map gp_name (g_params demo_generics)) /\
  (forall b, ser_bounded demo_bounded b ->
     incl (@mentions demo_traits b) ((false, str_of "__S") :: map gp_name (g_params demo_generics))) /\
  serialize_header demo_bounded demo_generics = Gen demo_header.
Proof.
  split; [split; [|split; [|split; [|split]]]|split; [|split]].
  - repeat constructor; cbn; intros H; repeat destruct H as [H|H]; try discriminate; exact H.
  - exists [GLife], [GType; GConst]. split; [reflexivity|]. split; repeat constructor; discriminate.
  - intros p b [<-|[<-|[<-|[]]]] Hb; cbn in Hb; repeat destruct Hb as [<-|Hb]; try contradiction; intros n Hn;
      cbn in Hn; try contradiction; destruct Hn as [<-|[]]; left; reflexivity.
  - intros w _ n [<-|[]]. right. left. reflexivity.
  - intros p [<-|[<-|[<-|[]]]] Hk; try discriminate; reflexivity.
  - cbn. intros H. repeat destruct H as [H|H]; try discriminate; exact H.
  - intros b (a & [<-|[]] & _ & E). injection E as <-. intros n [].
  - reflexivity.
Qed.

(** Pair<'a, type 3, 9> is serializable by type 7 but not by type 8; Pair<'a, type 6, 9>, which is
    no type, is not. *)
Example C64_witness :
  @covers demo_traits demo_header [AType 7] [ALife 0; AType 3; AConst 9] /\
  ~ @covers demo_traits demo_header [AType 8] [ALife 0; AType 3; AConst 9] /\
  ~ @covers demo_traits demo_header [AType 7] [ALife 0; AType 6; AConst 9].
Proof.
  destruct C64_hypotheses as (H1 & H2 & H3 & H4).
  destruct (@C64_serialize demo_traits _ _ _ H1 H2 H3 H4) as (_ & _ & K).
  assert (SB : ser_bounded demo_bounded 4).
  { eexists. split; [left; reflexivity|]. split; reflexivity. }
  split; [|split].
  - apply K. eexists 7%nat, _. split; [reflexivity|]. split; [|split].
    + split; [reflexivity|]. split; [reflexivity|]. split.
      * cbn. repeat constructor; cbn; eauto; lia.
      * constructor; [|constructor]. cbn. exists 3%nat. split; [reflexivity|lia].
    + cbn. auto.
    + intros b (a & [<-|[]] & _ & E). injection E as <-. reflexivity.
  - intros Hc. apply K in Hc as (S & e & E & _ & _ & Hb). injection E as <-. specialize (Hb 4%nat SB). discriminate.
  - intros Hc. apply K in Hc as (S & e & E & (_ & -> & _ & W) & _). inversion W as [|? ? Hw _]; subst.
    cbn in Hw. destruct Hw as (n & En & Hn). injection En as <-. lia.
Qed.
