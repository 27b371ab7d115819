(** * Source: type declarations as a programmer writes them, without layouts, and
    the layout the Rust reference prescribes for repr(C) structs and tuples and
    repr(uN) enums.

    Nothing here transcribes code of /repo: it is the part of the language the
    crate's users see (the types for which ser_raw/src/serialize_impls/*.rs and
    derive(Serialize), ser_raw_derive/src/lib.rs:15-60, give implementations).  The
    model's types ([Types.ty]) carry a layout, about which the theorems assume
    only [wf_ty]; this file says where such layouts come from. *)
From Coq Require Import List NArith Arith Lia.
From Verif Require Import Base Types Spec ArithFacts TypeFacts Build.
Import ListNotations.
Local Open Scope N_scope.

(** Type expressions.  [SPrim]: integers, floats, bool, char, NonZero*, ().
    [SOptBox s] is [Option<Box<s>>], stored as one word, null for [None]. *)
Inductive sty :=
| SPrim (l : layout) (ok : N -> bool)
| SBox (s : sty)
| SVec (s : sty)
| SString
| SArray (s : sty) (n : N)
| STuple (ss : list sty)
| SOption (s : sty)
| SOptBox (s : sty)
| SName (id : nat).

(** [struct Name { .. }] and [#[repr(uN)] enum Name { A { .. }, B { .. } }], [tag] bytes for the uN. *)
Inductive decl :=
| DStruct (ss : list sty)
| DEnum (tag : N) (vs : list (list sty)).

(** A type may be mentioned by value only if it was declared before (index below [k]);
    behind a pointer any of the [n] declared types may be mentioned. *)
Fixpoint scoped (n k : nat) (s : sty) : Prop :=
  match s with
  | SPrim _ _ | SString => True
  | SBox s | SVec s | SOptBox s => scoped n n s
  | SArray s _ | SOption s => scoped n k s
  | STuple ss => fold_right (fun s Q => scoped n k s /\ Q) True ss
  | SName id => (id < k)%nat
  end.
Definition scoped_all n k ss := fold_right (fun s Q => scoped n k s /\ Q) True ss.
Definition decl_scoped (n k : nat) (d : decl) : Prop :=
  match d with
  | DStruct ss => scoped_all n k ss
  | DEnum _ vs => Forall (scoped_all n k) vs
  end.
Definition decls_scoped (D : list decl) : Prop :=
  forall i d, nth_error D i = Some d -> decl_scoped (length D) i d.

Section Layout.
Context {P : Params}.
Variable vl : vlay.

(** The repr(C) rule: each field at the next multiple of its alignment; the whole
    padded to the largest alignment. *)
Fixpoint place (cur : N) (ls : list layout) : list N :=
  match ls with
  | [] => []
  | l :: ls' => round_up cur (l_align l) :: place (round_up cur (l_align l) + l_size l) ls'
  end.
Fixpoint place_end (cur : N) (ls : list layout) : N :=
  match ls with
  | [] => cur
  | l :: ls' => place_end (round_up cur (l_align l) + l_size l) ls'
  end.
Definition max_align (ls : list layout) : N := fold_right (fun l a => N.max (l_align l) a) 1 ls.
Definition struct_layout (ls : list layout) : layout :=
  mkLayout (round_up (place_end 0 ls) (max_align ls)) (max_align ls).
(** repr(uN) enum: the tag, then the fields of the variant; as large as the largest variant. *)
Definition max_end (tag : N) (vs : list (list layout)) : N :=
  fold_right (fun ls e => N.max (place_end tag ls) e) tag vs.
Definition enum_layout (tag : N) (vs : list (list layout)) : layout :=
  let al := N.max tag (max_align (concat vs)) in
  mkLayout (round_up (max_end tag vs) al) al.

Definition table := nat -> layout.
Fixpoint lay (T : table) (s : sty) : layout :=
  match s with
  | SPrim l _ => l
  | SBox _ | SOptBox _ => mkLayout pW pW
  | SVec _ | SString => mkLayout (3 * pW) pW
  | SArray s n => mkLayout (l_size (lay T s) * n) (l_align (lay T s))
  | STuple ss => struct_layout (map (lay T) ss)
  | SOption s => enum_layout 1 [[]; [lay T s]]
  | SName id => T id
  end.
Definition decl_layout (T : table) (d : decl) : layout :=
  match d with
  | DStruct ss => struct_layout (map (lay T) ss)
  | DEnum tag vs => enum_layout tag (map (map (lay T)) vs)
  end.
Definition look (L : list layout) : table := fun id => nth id L (mkLayout 0 1).
Definition layouts (D : list decl) : list layout :=
  fold_left (fun L d => L ++ [decl_layout (look L) d]) D [].

(** The type with its layout. *)
Fixpoint elab (T : table) (s : sty) : ty :=
  match s with
  | SPrim l ok => TPrim l ok
  | SBox s => TBox (elab T s)
  | SVec s => TVec vl (elab T s)
  | SString => TString vl
  | SArray s n => TArray (elab T s) n
  | STuple ss =>
      TStruct (struct_layout (map (lay T) ss)) (combine (place 0 (map (lay T) ss)) (map (elab T) ss))
  | SOption s =>
      TEnum (enum_layout 1 [[]; [lay T s]]) (DTag 0 1 [0; 1]) [[]; combine (place 1 [lay T s]) [elab T s]]
  | SOptBox s => TEnum (mkLayout pW pW) (DNiche 0 pW 1 [(0, 0%nat)]) [[]; [(0, TBox (elab T s))]]
  | SName id => TNamed id
  end.
Definition elab_decl (T : table) (d : decl) : ty :=
  match d with
  | DStruct ss =>
      TStruct (struct_layout (map (lay T) ss)) (combine (place 0 (map (lay T) ss)) (map (elab T) ss))
  | DEnum tag vs =>
      TEnum (enum_layout tag (map (map (lay T)) vs))
        (DTag 0 tag (map N.of_nat (seq 0 (length vs))))
        (map (fun ss => combine (place tag (map (lay T) ss)) (map (elab T) ss)) vs)
  end.

Definition type_table (D : list decl) : table := look (layouts D).
Definition type_env (D : list decl) : tenv :=
  fun id => option_map (elab_decl (type_table D)) (nth_error D id).
Definition type_of (D : list decl) (s : sty) : ty := elab (type_table D) s.

(** What Rust and the crate's compile-time assertions ask: no type larger than isize::MAX
    bytes, none with an alignment above MAX_VALUE_ALIGNMENT (storage/mod.rs:379-395). *)
Definition fits (l : layout) : Prop := l_size l <= imax /\ l_align l <= MVA.
Fixpoint accepted (T : table) (s : sty) : Prop :=
  fits (lay T s) /\
  match s with
  | SPrim l _ => pow2 (l_align l) /\ (l_align l | l_size l)
  | SString | SName _ => True
  | SBox s | SVec s | SOptBox s | SArray s _ | SOption s => accepted T s
  | STuple ss => fold_right (fun s Q => accepted T s /\ Q) True ss
  end.
Definition accepted_all T ss := fold_right (fun s Q => accepted T s /\ Q) True ss.
Definition decl_accepted (T : table) (d : decl) : Prop :=
  fits (decl_layout T d) /\
  match d with
  | DStruct ss => accepted_all T ss
  | DEnum tag vs =>
      pow2 tag /\ N.of_nat (length vs) <= 256 ^ tag /\ Forall (accepted_all T) vs
  end.
Definition program_accepted (D : list decl) : Prop :=
  decls_scoped D /\ Forall (decl_accepted (type_table D)) D.
Definition type_accepted (D : list decl) (s : sty) : Prop :=
  scoped (length D) (length D) s /\ accepted (type_table D) s.

End Layout.

(** Values of a type expression. *)
Inductive has_sty {P : Params} (D : list decl) : sty -> val -> Prop :=
| HS_prim l ok n : ok n = true -> n < 256 ^ l_size l -> has_sty D (SPrim l ok) (VPrim n)
| HS_box s v : has_sty D s v -> has_sty D (SBox s) (VBox v)
| HS_vec s vs : N.of_nat (length vs) < umod -> all_sty D s vs -> has_sty D (SVec s) (VVec vs)
| HS_string bs : Forall (fun b => b < 256) bs -> has_sty D SString (VString bs)
| HS_array s n vs : N.of_nat (length vs) = n -> all_sty D s vs -> has_sty D (SArray s n) (VArray vs)
| HS_tuple ss vs : list_sty D ss vs -> has_sty D (STuple ss) (VStruct vs)
| HS_none s : has_sty D (SOption s) (VEnum 0 [])
| HS_some s v : has_sty D s v -> has_sty D (SOption s) (VEnum 1 [v])
| HS_none_box s : has_sty D (SOptBox s) (VEnum 0 [])
| HS_some_box s v : has_sty D s v -> has_sty D (SOptBox s) (VEnum 1 [VBox v])
| HS_struct id ss vs : nth_error D id = Some (DStruct ss) -> list_sty D ss vs -> has_sty D (SName id) (VStruct vs)
| HS_enum id tag vss k ss vs :
    nth_error D id = Some (DEnum tag vss) -> nth_error vss k = Some ss ->
    list_sty D ss vs -> has_sty D (SName id) (VEnum k vs)
with all_sty {P : Params} (D : list decl) : sty -> list val -> Prop :=
| AS_nil s : all_sty D s []
| AS_cons s v vs : has_sty D s v -> all_sty D s vs -> all_sty D s (v :: vs)
with list_sty {P : Params} (D : list decl) : list sty -> list val -> Prop :=
| LS_nil : list_sty D [] []
| LS_cons s ss v vs : has_sty D s v -> list_sty D ss vs -> list_sty D (s :: ss) (v :: vs).

Scheme has_sty_mind := Induction for has_sty Sort Prop
with all_sty_mind := Induction for all_sty Sort Prop
with list_sty_mind := Induction for list_sty Sort Prop.
Combined Scheme has_sty_all from has_sty_mind, all_sty_mind, list_sty_mind.

(** ** Induction on type expressions *)
Section SInd.
Variable Q : sty -> Prop.
Hypothesis Hp : forall l ok, Q (SPrim l ok).
Hypothesis Hb : forall s, Q s -> Q (SBox s).
Hypothesis Hv : forall s, Q s -> Q (SVec s).
Hypothesis Hs : Q SString.
Hypothesis Ha : forall s n, Q s -> Q (SArray s n).
Hypothesis Ht : forall ss, Forall Q ss -> Q (STuple ss).
Hypothesis Ho : forall s, Q s -> Q (SOption s).
Hypothesis Hob : forall s, Q s -> Q (SOptBox s).
Hypothesis Hn : forall id, Q (SName id).
Fixpoint sty_rec' (s : sty) : Q s :=
  match s with
  | SPrim l ok => Hp l ok
  | SBox s => Hb s (sty_rec' s)
  | SVec s => Hv s (sty_rec' s)
  | SString => Hs
  | SArray s n => Ha s n (sty_rec' s)
  | STuple ss => Ht ss ((fix go ss := match ss return Forall Q ss with
                                      | [] => Forall_nil _
                                      | s :: ss' => Forall_cons _ (sty_rec' s) (go ss') end) ss)
  | SOption s => Ho s (sty_rec' s)
  | SOptBox s => Hob s (sty_rec' s)
  | SName id => Hn id
  end.
End SInd.

Lemma fold_and {A} (Q : A -> Prop) l : fold_right (fun x R => Q x /\ R) True l <-> Forall Q l.
Proof.
  induction l; simpl; split; intros H; auto.
  - constructor; tauto.
  - inversion H; tauto.
Qed.

Section Facts.
Context {P : Params}.
Variable vl : vlay.
Hypothesis C : cfg_ok.

(** ** The table of layouts *)
Lemma lay_ext T T' n k s : scoped n k s -> (forall id, (id < k)%nat -> T id = T' id) -> lay T s = lay T' s.
Proof.
  revert k. induction s using sty_rec'; simpl; intros k Hs HT; auto.
  - rewrite (IHs k); auto.
  - f_equal. apply map_ext_in. intros s Hi. apply fold_and in Hs.
    rewrite Forall_forall in H, Hs. eapply H; eauto.
  - rewrite (IHs k); auto.
Qed.
Lemma lay_all_ext T T' n k ss : scoped_all n k ss -> (forall id, (id < k)%nat -> T id = T' id) ->
  map (lay T) ss = map (lay T') ss.
Proof.
  intros Hs HT. apply map_ext_in. intros s Hi. apply fold_and in Hs. rewrite Forall_forall in Hs.
  eapply lay_ext; eauto.
Qed.
Lemma decl_layout_ext T T' n k d : decl_scoped n k d -> (forall id, (id < k)%nat -> T id = T' id) ->
  decl_layout T d = decl_layout T' d.
Proof.
  destruct d as [ss|tag vs]; simpl; intros Hs HT.
  - f_equal. eapply lay_all_ext; eauto.
  - f_equal. apply map_ext_in. intros ss Hi. rewrite Forall_forall in Hs. eapply lay_all_ext; eauto.
Qed.

Definition grow_table := fold_left (fun L d => L ++ [decl_layout (look L) d]).
Lemma grow_length D L : length (grow_table D L) = (length L + length D)%nat.
Proof.
  revert L. induction D as [|d D IH]; intros L; simpl; [lia|]. unfold grow_table in *. simpl.
  rewrite IH, app_length. simpl. lia.
Qed.
Lemma grow_keeps D L id : (id < length L)%nat -> look (grow_table D L) id = look L id.
Proof.
  revert L. induction D as [|d D IH]; intros L Hi; simpl; auto. unfold grow_table in *. simpl.
  rewrite IH; [|rewrite app_length; simpl; lia]. unfold look. rewrite app_nth1; auto.
Qed.
Lemma grow_spec D n : forall L,
  (forall i d, nth_error D i = Some d -> decl_scoped n (length L + i)%nat d) ->
  forall i d, nth_error D i = Some d ->
  look (grow_table D L) (length L + i)%nat = decl_layout (look (grow_table D L)) d.
Proof.
  induction D as [|d0 D IH]; intros L Hs i d Hi; [destruct i; discriminate|].
  destruct i as [|i]; simpl in Hi.
  - injection Hi as <-. rewrite Nat.add_0_r. unfold grow_table. simpl. fold grow_table.
    rewrite grow_keeps; [|rewrite app_length; simpl; lia].
    unfold look at 1. rewrite app_nth2, Nat.sub_diag; [simpl|lia].
    assert (H0 : decl_scoped n (length L) d0) by (specialize (Hs 0%nat d0 eq_refl); now rewrite Nat.add_0_r in Hs).
    eapply decl_layout_ext; [exact H0|]. intros id Hid.
    rewrite grow_keeps; [|rewrite app_length; simpl; lia]. unfold look. rewrite app_nth1; auto.
  - unfold grow_table. simpl. fold grow_table.
    specialize (IH (L ++ [decl_layout (look L) d0])).
    rewrite app_length in IH. simpl in IH.
    replace (length L + S i)%nat with (length L + 1 + i)%nat by lia.
    apply IH; auto. intros j e Hj. replace (length L + 1 + j)%nat with (length L + S j)%nat by lia.
    apply Hs. auto.
Qed.

Variable D : list decl.
Hypothesis HS : decls_scoped D.
Let T := type_table D.
Let E := type_env vl D.

Lemma table_at id d : nth_error D id = Some d -> T id = decl_layout T d.
Proof.
  intros Hd. unfold T, type_table, layouts. fold grow_table.
  apply (grow_spec D (length D) []); auto.
Qed.
Lemma table_out id : nth_error D id = None -> T id = mkLayout 0 1.
Proof.
  intros Hd. unfold T, type_table, look. apply nth_overflow. unfold layouts. fold grow_table.
  rewrite grow_length. simpl. now apply nth_error_None.
Qed.
Lemma layout_named id : layout_of E (TNamed id) = T id.
Proof.
  simpl. unfold E, type_env. destruct (nth_error D id) as [d|] eqn:Hd; simpl.
  - fold T. rewrite (table_at id d Hd). destruct d; auto.
  - now rewrite table_out.
Qed.
Lemma layout_elab s : layout_of E (elab vl T s) = lay T s.
Proof.
  induction s using sty_rec'; auto.
  - simpl. now rewrite IHs.
  - apply layout_named.
Qed.
Lemma layouts_elab ss : map (layout_of E) (map (elab vl T) ss) = map (lay T) ss.
Proof. rewrite map_map. apply map_ext. intros s. apply layout_elab. Qed.

(** ** Fields *)
Lemma place_end_ge ls cur : (forall l, In l ls -> 0 < l_align l) -> cur <= place_end cur ls.
Proof.
  revert cur. induction ls as [|l ls IH]; intros cur Hl; simpl; [lia|].
  etransitivity; [|apply IH; intros; apply Hl; now right].
  pose proof (round_up_ge cur (l_align l) (Hl l (or_introl eq_refl))). lia.
Qed.
Lemma combine_in o t ts cur : In (o, t) (combine (place cur (map (layout_of E) ts)) ts) ->
  (forall u, In u ts -> 0 < align_of E u) -> In t ts /\ cur <= o.
Proof.
  revert cur. induction ts as [|u ts IH]; intros cur Hi Hp; [destruct Hi|].
  assert (Hu : 0 < align_of E u) by (apply Hp; now left).
  pose proof (round_up_ge cur _ Hu) as Hr.
  simpl in Hi. destruct Hi as [Hi|Hi].
  - injection Hi as <- <-. split; [now left|]. exact Hr.
  - apply IH in Hi; [|intros; apply Hp; now right]. destruct Hi as [A B]. split; [now right|].
    unfold align_of in Hr. lia.
Qed.
Lemma fields_place l ts : forall cur,
  (forall t, In t ts -> pow2 (align_of E t) /\ align_of E t <= l_align l) ->
  place_end cur (map (layout_of E) ts) <= l_size l ->
  fields_ok E l (combine (place cur (map (layout_of E) ts)) ts).
Proof.
  induction ts as [|t ts IH]; intros cur Ht He; [constructor|].
  assert (Hpos : forall u, In u (t :: ts) -> 0 < align_of E u) by (intros u Hu; apply pow2_pos, Ht, Hu).
  simpl in He |- *. constructor.
  - etransitivity; [|exact He]. apply place_end_ge. intros x Hx. apply in_map_iff in Hx.
    destruct Hx as (u & <- & Hu). apply Hpos. now right.
  - apply round_up_divide.
  - apply Ht. now left.
  - intros o u Hi. apply combine_in in Hi; [|intros; apply Hpos; now right]. left. apply Hi.
  - apply IH; auto. intros u Hu. apply Ht. now right.
Qed.

Lemma max_align_ge ls l : In l ls -> l_align l <= max_align ls.
Proof.
  induction ls as [|x ls IH]; intros H; [destruct H|]; destruct H as [H|H]; [subst; unfold max_align; simpl; lia|]. specialize (IH H).
  unfold max_align in *. simpl. lia.
Qed.
Lemma max_align_pow2 ls : (forall l, In l ls -> pow2 (l_align l)) -> pow2 (max_align ls).
Proof.
  induction ls as [|x ls IH]; intros H; [apply pow2_1|]. unfold max_align. simpl. apply pow2_max.
  - apply H. now left.
  - apply IH. intros; apply H. now right.
Qed.
Lemma max_end_ge tag vs ls : In ls vs -> place_end tag ls <= max_end tag vs.
Proof.
  induction vs as [|x vs IH]; intros H; [destruct H|]; destruct H as [H|H]; [subst; unfold max_end; simpl; lia|]. specialize (IH H).
  unfold max_end in *. simpl. lia.
Qed.
Lemma max_end_tag tag vs : tag <= max_end tag vs.
Proof. induction vs as [|x vs IH]; unfold max_end in *; simpl; lia. Qed.

Lemma struct_wf ts l :
  l = struct_layout (map (layout_of E) ts) -> fits l ->
  (forall t, In t ts -> wf_ty E t /\ pow2 (align_of E t)) ->
  wf_ty E (TStruct l (combine (place 0 (map (layout_of E) ts)) ts)).
Proof.
  intros -> [F1 F2] Ht.
  assert (Hm : pow2 (max_align (map (layout_of E) ts))).
  { apply max_align_pow2. intros x Hx. apply in_map_iff in Hx. destruct Hx as (t & <- & Hx). apply Ht, Hx. }
  constructor.
  - split; [exact Hm|]. split; [apply round_up_divide|]. split; auto.
  - apply fields_place.
    + intros t Hi. split; [apply Ht, Hi|]. apply max_align_ge, in_map, Hi.
    + apply round_up_ge, pow2_pos, Hm.
  - intros o t Hi. apply in_combine_r in Hi. apply Ht, Hi.
Qed.
Lemma enum_wf tag tss vals l :
  l = enum_layout tag (map (map (layout_of E)) tss) -> fits l -> pow2 tag ->
  (forall ts t, In ts tss -> In t ts -> wf_ty E t /\ pow2 (align_of E t)) ->
  wf_ty E (TEnum l (DTag 0 tag vals) (map (fun ts => combine (place tag (map (layout_of E) ts)) ts) tss)).
Proof.
  intros -> [F1 F2] Htag Ht.
  assert (Hm : pow2 (N.max tag (max_align (concat (map (map (layout_of E)) tss))))).
  { apply pow2_max; auto. apply max_align_pow2. intros x Hx. rewrite <- concat_map in Hx.
    apply in_map_iff in Hx. destruct Hx as (t & <- & Hx). apply in_concat in Hx. destruct Hx as (ts & A & B).
    eapply Ht; eauto. }
  pose proof (pow2_pos _ Hm) as Hm0.
  assert (Hsz : max_end tag (map (map (layout_of E)) tss) <=
                l_size (enum_layout tag (map (map (layout_of E)) tss))) by (apply round_up_ge, Hm0).
  assert (Hnth : forall k fs, nth_error (map (fun ts => combine (place tag (map (layout_of E) ts)) ts) tss) k = Some fs ->
            exists ts, In ts tss /\ fs = combine (place tag (map (layout_of E) ts)) ts).
  { intros k fs Hk. rewrite nth_error_map in Hk. destruct (nth_error tss k) as [ts|] eqn:Hn; [|discriminate].
    simpl in Hk. injection Hk as <-. exists ts. split; auto. eapply nth_error_In; eauto. }
  constructor.
  - split; [exact Hm|]. split; [apply round_up_divide|]. split; auto.
  - constructor.
    + pose proof (max_end_tag tag (map (map (layout_of E)) tss)). lia.
    + intros k fs Hk o t Hi. destruct (Hnth _ _ Hk) as (ts & Hts & ->).
      apply combine_in in Hi; [|intros u Hu; eapply pow2_pos, Ht; eauto]. left. lia.
  - intros k fs Hk. destruct (Hnth _ _ Hk) as (ts & Hts & ->). apply fields_place.
    + intros t Hi. split; [eapply Ht; eauto|].
      etransitivity; [|apply N.le_max_r]. apply max_align_ge. rewrite <- concat_map. apply in_map.
      apply in_concat. eauto.
    + etransitivity; [|exact Hsz]. apply max_end_ge. apply in_map, Hts.
  - intros k fs o t Hk Hi. destruct (Hnth _ _ Hk) as (ts & Hts & ->).
    apply in_combine_r in Hi. eapply Ht; eauto.
Qed.

Hypothesis HA : Forall (decl_accepted T) D.

(** Alignments of all types are powers of two: first of the named ones, in order of declaration. *)
Lemma pow2_scoped k s : scoped (length D) k s -> accepted T s -> (forall id, (id < k)%nat -> pow2 (l_align (T id))) ->
  pow2 (l_align (lay T s)).
Proof.
  intros Hs Ha Hk. revert Hs Ha. induction s using sty_rec'; simpl; intros Hs Ha; destruct Ha as [Hf Ha].
  - tauto.
  - apply pW_pow2, C.
  - apply pW_pow2, C.
  - apply pW_pow2, C.
  - auto.
  - apply max_align_pow2. intros l Hl. apply in_map_iff in Hl. destruct Hl as (s & <- & Hl).
    apply fold_and in Hs, Ha. rewrite Forall_forall in H, Hs, Ha. auto.
  - apply pow2_max; [apply pow2_1|]. apply pow2_max; auto. apply pow2_1.
  - apply pW_pow2, C.
  - auto.
Qed.
Lemma pow2_named id : (id < length D)%nat -> pow2 (l_align (T id)).
Proof.
  induction id as [id IH] using (well_founded_induction Nat.lt_wf_0). intros Hid.
  destruct (nth_error D id) as [d|] eqn:Hd; [|apply nth_error_None in Hd; lia].
  rewrite (table_at id d Hd). pose proof (HS id d Hd) as Hsc.
  assert (Hacc : decl_accepted T d) by (rewrite Forall_forall in HA; apply HA; eapply nth_error_In; eauto).
  assert (IH' : forall j, (j < id)%nat -> pow2 (l_align (T j))) by (intros j Hj; apply IH; lia).
  destruct d as [ss|tag vs]; simpl in *; destruct Hacc as [_ Hacc].
  - apply max_align_pow2. intros l Hl. apply in_map_iff in Hl. destruct Hl as (s & <- & Hl).
    apply fold_and in Hsc, Hacc. rewrite Forall_forall in Hsc, Hacc. eapply pow2_scoped; eauto.
  - destruct Hacc as (Htag & _ & Hacc). apply pow2_max; auto. apply max_align_pow2. intros l Hl.
    rewrite <- concat_map in Hl. apply in_map_iff in Hl. destruct Hl as (s & <- & Hl).
    apply in_concat in Hl. destruct Hl as (ss & A & B). rewrite Forall_forall in Hacc, Hsc.
    specialize (Hacc _ A). specialize (Hsc _ A).
    apply fold_and in Hsc, Hacc. rewrite Forall_forall in Hsc, Hacc. eapply pow2_scoped; eauto.
Qed.
Lemma pow2_all s k : (k <= length D)%nat -> scoped (length D) k s -> accepted T s -> pow2 (align_of E (elab vl T s)).
Proof.
  intros Hk Hs Ha. unfold align_of. rewrite layout_elab. eapply pow2_scoped; eauto.
  intros id Hid. apply pow2_named. lia.
Qed.

Lemma wf_elab s : forall k, (k <= length D)%nat -> scoped (length D) k s -> accepted T s -> wf_ty E (elab vl T s).
Proof.
  induction s using sty_rec'; intros k Hk Hs Ha; pose proof Ha as [Hf Ha']; simpl in Hs, Ha', Hf |- *.
  - constructor. destruct Hf, Ha'. repeat split; auto.
  - constructor; [eapply (IHs (length D)); eauto|apply Hf].
  - constructor; [eapply (IHs (length D)); eauto|apply Hf].
  - constructor. apply Hf.
  - constructor; [eapply IHs; eauto|]. unfold size_of. rewrite layout_elab. apply Hf.
  - rewrite <- layouts_elab. apply struct_wf; auto.
    + unfold fits. rewrite layouts_elab. exact Hf.
    + intros t Hi. apply in_map_iff in Hi. destruct Hi as (s & <- & Hi).
      apply fold_and in Hs, Ha'. rewrite Forall_forall in H, Hs, Ha'. split; [eapply H; eauto|eapply pow2_all; eauto].
  - pose proof (enum_wf 1 [[]; [elab vl T s]] [0; 1] (enum_layout 1 [[]; [lay T s]])) as He.
    simpl in He. rewrite layout_elab in He. apply He; auto; [apply pow2_1|].
    intros ts t [<-|[<-|[]]] Hi; [destruct Hi|]. destruct Hi as [<-|[]].
    split; [eapply IHs; eauto|eapply pow2_all; eauto].
  - assert (Hw : wf_ty E (elab vl T s)) by (eapply (IHs (length D)); eauto).
    constructor.
    + split; [apply pW_pow2, C|]. split; [apply N.divide_refl|]. exact Hf.
    + eapply DO_niche with (fs := [(0, TBox (elab vl T s))]) (o := 0) (off' := 0); simpl; auto.
      * lia.
      * intros n k' [Hi|[]]. injection Hi as <- <-. discriminate.
      * intros k' gs Hg Hn. destruct k' as [|[|k']]; simpl in Hg; try congruence.
        { injection Hg as <-. intros o t []. } { destruct k'; discriminate. }
      * constructor. intros n Hn k' [Hi|[]]. injection Hi as Hi _. auto.
    + intros k' fs Hk'. destruct k' as [|[|k']]; simpl in Hk'; [| |destruct k'; discriminate];
        injection Hk' as <-; [constructor|].
      constructor; [simpl; unfold size_of; simpl; lia|apply N.divide_0_r|simpl; unfold align_of; simpl; lia|intros o u []|constructor].
    + intros k' fs o t Hk' Hi. destruct k' as [|[|k']]; simpl in Hk'; [| |destruct k'; discriminate];
        injection Hk' as <-; [destruct Hi|]. destruct Hi as [Hi|[]]. injection Hi as _ <-.
      constructor; auto. apply Hf.
  - destruct (nth_error D id) as [d|] eqn:Hd; [|apply nth_error_None in Hd; lia].
    econstructor. unfold E, type_env. rewrite Hd. reflexivity.
Qed.

Lemma wf_source : wf_env E.
Proof.
  intros id t He. unfold E, type_env in He. destruct (nth_error D id) as [d|] eqn:Hd; [|discriminate].
  simpl in He. injection He as <-. fold T.
  pose proof (HS id d Hd) as Hsc.
  assert (Hid : (id <= length D)%nat) by (apply Nat.lt_le_incl, nth_error_Some; congruence).
  assert (Hacc : decl_accepted T d) by (rewrite Forall_forall in HA; apply HA; eapply nth_error_In; eauto).
  split; [|destruct d; exact Logic.I].
  destruct d as [ss|tag vs]; simpl in Hsc, Hacc |- *; destruct Hacc as [Hf Hacc].
  - rewrite <- layouts_elab. apply struct_wf; auto.
    + simpl in Hf. rewrite layouts_elab. exact Hf.
    + intros t Hi. apply in_map_iff in Hi. destruct Hi as (s & <- & Hi).
      apply fold_and in Hsc, Hacc. rewrite Forall_forall in Hsc, Hacc.
      split; [eapply wf_elab; eauto|eapply pow2_all; eauto].
  - destruct Hacc as (Htag & Hlen & Hacc).
    pose proof (enum_wf tag (map (map (elab vl T)) vs) (map N.of_nat (seq 0 (length vs)))
      (enum_layout tag (map (map (lay T)) vs))) as He.
    assert (Hmm : map (map (layout_of E)) (map (map (elab vl T)) vs) = map (map (lay T)) vs)
      by (rewrite map_map; apply map_ext; intros; apply layouts_elab).
    rewrite Hmm in He. rewrite map_map in He.
    rewrite (map_ext _ (fun ss => combine (place tag (map (lay T) ss)) (map (elab vl T) ss))) in He.
    2:{ intros ss. now rewrite layouts_elab. }
    apply He; auto. intros ts t Hts Hi. apply in_map_iff in Hts. destruct Hts as (ss & <- & Hss).
    apply in_map_iff in Hi. destruct Hi as (s & <- & Hi). rewrite Forall_forall in Hsc, Hacc.
    specialize (Hsc _ Hss). specialize (Hacc _ Hss). apply fold_and in Hsc, Hacc.
    rewrite Forall_forall in Hsc, Hacc. split; [eapply wf_elab; eauto|eapply pow2_all; eauto].
Qed.

(** ** Values *)
Lemma index_seq k n st : (k < n)%nat -> index_of (N.of_nat (st + k)) (map N.of_nat (seq st n)) = Some k.
Proof.
  revert st k. induction n as [|n IH]; intros st k Hk; [lia|]. simpl.
  destruct k as [|k].
  - rewrite Nat.add_0_r, N.eqb_refl. reflexivity.
  - destruct (N.eqb_spec (N.of_nat st) (N.of_nat (st + S k))); [lia|].
    replace (st + S k)%nat with (S st + k)%nat by lia. rewrite IH by lia. reflexivity.
Qed.

Lemma values_have_type :
  (forall s v, has_sty D s v -> has_ty E (elab vl T s) v) /\
  (forall s vs, all_sty D s vs -> all_ty E (elab vl T s) vs) /\
  (forall ss vs, list_sty D ss vs -> forall cur,
     fields_ty E (combine (place cur (map (lay T) ss)) (map (elab vl T) ss)) vs).
Proof.
  apply has_sty_all; intros; simpl; try solve [constructor; auto].
  - econstructor; [reflexivity| |constructor]. exists 0. split; [lia|reflexivity].
  - eapply HT_enum with (k := 1%nat); [reflexivity| |].
    + exists 1. split; [lia|reflexivity].
    + constructor; [auto|constructor].
  - econstructor; [reflexivity| |constructor]. right. exists 0. split; [|reflexivity].
    apply N.neq_0_lt_0, N.pow_nonzero. lia.
  - eapply HT_enum with (k := 1%nat); [reflexivity| |].
    + now left.
    + constructor; [constructor; auto|constructor].
  - econstructor; [unfold E, type_env; rewrite e; reflexivity|]. constructor. apply H.
  - econstructor; [unfold E, type_env; rewrite e; reflexivity|]. fold T. simpl.
    econstructor; [rewrite nth_error_map, e0; reflexivity| |apply H].
    assert (Hk : (k < length vss)%nat) by (apply nth_error_Some; congruence).
    rewrite Forall_forall in HA. specialize (HA _ (nth_error_In _ _ e)). destruct HA as (_ & _ & Hl & _).
    exists (N.of_nat k). split; [lia|]. apply (index_seq k (length vss) 0 Hk).
Qed.

Definition decl_value (d : decl) (v : val) : Prop :=
  match d, v with
  | DStruct ss, VStruct vs => list_sty D ss vs
  | DEnum _ vss, VEnum k vs => exists ss, nth_error vss k = Some ss /\ list_sty D ss vs
  | _, _ => False
  end.
Lemma type_has_values :
  (forall t v, has_ty E t v ->
     (forall s, t = elab vl T s -> has_sty D s v) /\ (forall d, t = elab_decl vl T d -> decl_value d v)) /\
  (forall t vs, all_ty E t vs -> forall s, t = elab vl T s -> all_sty D s vs) /\
  (forall fs vs, fields_ty E fs vs -> forall cur ss,
     fs = combine (place cur (map (lay T) ss)) (map (elab vl T) ss) -> list_sty D ss vs).
Proof.
  apply has_ty_mut; intros.
  - split; [|intros [] ?; discriminate]. intros s Hs. destruct s; try discriminate. injection Hs as <- <-.
    constructor; auto.
  - split; [|intros [] ?; discriminate]. intros s Hs. destruct s; try discriminate. injection Hs as ->.
    constructor. apply H0. reflexivity.
  - split; [|intros [] ?; discriminate]. intros s Hs. destruct s; try discriminate. injection Hs as -> ->.
    constructor; auto.
  - split; [|intros [] ?; discriminate]. intros s Hs. destruct s; try discriminate.
    constructor; auto.
  - split; [|intros [] ?; discriminate]. intros s Hs. destruct s; try discriminate. injection Hs as -> <-.
    constructor; auto.
  - split.
    + intros s Hs. destruct s; try discriminate. injection Hs as -> Hs. constructor. eapply H0. exact Hs.
    + intros d Hd. destruct d; try discriminate. injection Hd as -> Hd. simpl. eapply H0. exact Hd.
  - split.
    + intros s Hs. destruct s; try discriminate.
      * injection Hs as -> -> ->. destruct k as [|[|k]]; simpl in H; [| |destruct k; discriminate]; injection H as <-.
        { inversion H1. constructor. }
        { specialize (H2 1 [s] eq_refl). inversion H2 as [|? ? ? ? Hv Hvs]; subst. inversion Hvs; subst. constructor. auto. }
      * injection Hs as -> -> ->. destruct k as [|[|k]]; simpl in H; [| |destruct k; discriminate]; injection H as <-.
        { inversion H1. constructor. }
        { specialize (H2 0 [SBox s]). simpl in H2. rewrite round_up_id in H2;
            [|apply pow2_pos, pW_pow2, C|apply N.divide_0_r].
          specialize (H2 eq_refl). inversion H2 as [|? ? ? ? Hv Hvs]; subst. inversion Hvs; subst.
          inversion Hv; subst. constructor. auto. }
    + intros d0 Hd. destruct d0 as [|tag vs']; try discriminate. injection Hd as -> -> ->. simpl.
      rewrite nth_error_map in H. destruct (nth_error vs' k) as [ss|] eqn:Hn; [|discriminate]. simpl in H.
      injection H as <-. exists ss. split; auto. eapply H2. reflexivity.
  - split; [|intros [] ?; discriminate]. intros s Hs. destruct s; try discriminate. injection Hs as <-.
    unfold E, type_env in H. destruct (nth_error D id) as [d'|] eqn:Hd; [|discriminate]. simpl in H.
    injection H as <-. destruct H1 as [_ H1]. specialize (H1 d' eq_refl).
    destruct d' as [ss|tag vss], v; simpl in H1; try contradiction.
    + econstructor; eauto.
    + destruct H1 as (ss & A & B). eapply HS_enum; eauto.
  - constructor.
  - constructor; auto. apply H0; auto.
  - destruct ss; [constructor|discriminate].
  - destruct ss as [|s ss]; [discriminate|]. simpl in H3. injection H3 as -> -> ->.
    constructor; [apply H0; auto|]. eapply H2. reflexivity.
Qed.

Lemma has_sty_iff s v : has_sty D s v <-> has_ty E (elab vl T s) v.
Proof. split; intros H; [apply values_have_type, H|]. now apply type_has_values in H as [H _]; apply H. Qed.

End Facts.
