(** * PropMono: C86 — what compiles is safe to serialize.

    The theorems about storages and serializers assume constants in order ([cfg_ok]) and types whose
    alignment the storage can provide ([wf_env], [wf_ty], [good_layout]).  Here these are consequences of
    the program having been accepted by the compiler (Mono.v). *)
From Coq Require Import List NArith Lia.
From Verif Require Import Base Types Storage Serializer Serialize ArithFacts Spec TypeFacts StorageFacts StorageHist StorageProps SerFacts SerValue SerMain SerRoot SerProps Mono PropStorage PropSerialize.
Import ListNotations.
Local Open Scope N_scope.

(** ** Specification *)
Section Language.
Context {P : Params}.

(** What the language guarantees of a layout: the alignment is a power of two that divides the size. *)
Definition lang_layout (l : layout) : Prop := pow2 (l_align l) /\ (l_align l | l_size l) /\ l_size l <= imax.

(** Types as the compiler lays them out: fields inside, aligned and apart, the whole aligned at least as its fields;
    nothing about what the storage can do ([wf_ty] without MAX_VALUE_ALIGNMENT). *)
Inductive lang_ty (E : tenv) : ty -> Prop :=
| L_prim l ok : lang_layout l -> lang_ty E (TPrim l ok)
| L_box t : lang_ty E t -> lang_ty E (TBox t)
| L_vec vl t : lang_ty E t -> lang_ty E (TVec vl t)
| L_string vl : lang_ty E (TString vl)
| L_array t n : lang_ty E t -> size_of E t * n <= imax -> lang_ty E (TArray t n)
| L_struct l fs :
    lang_layout l -> fields_ok E l fs ->
    (forall o t, In (o, t) fs -> lang_ty E t) ->
    lang_ty E (TStruct l fs)
| L_enum l d vss :
    lang_layout l -> discr_ok E l vss d ->
    (forall k fs, nth_error vss k = Some fs -> fields_ok E l fs) ->
    (forall k fs o t, nth_error vss k = Some fs -> In (o, t) fs -> lang_ty E t) ->
    lang_ty E (TEnum l d vss)
| L_named id d : E id = Some d -> lang_ty E (TNamed id).
Definition lang_env (E : tenv) : Prop :=
  forall id d, E id = Some d ->
    lang_ty E d /\ match d with TStruct _ _ | TEnum _ _ _ => True | _ => False end.

(** [u] is part of a [t] by value: a [t] or in a field, an element or a variant of it. *)
Inductive inside (E : tenv) : ty -> ty -> Prop :=
| I_self t : inside E t t
| I_array t n u : inside E t u -> inside E (TArray t n) u
| I_struct l fs o t u : In (o, t) fs -> inside E t u -> inside E (TStruct l fs) u
| I_enum l d vss fs o t u : In fs vss -> In (o, t) fs -> inside E t u -> inside E (TEnum l d vss) u
| I_named id d u : E id = Some d -> inside E d u -> inside E (TNamed id) u.
(** A [t] may own [u]s in allocations of their own. *)
Inductive owns (E : tenv) : ty -> ty -> Prop :=
| O_box t u : inside E t (TBox u) -> owns E t u
| O_vec t vl u : inside E t (TVec vl u) -> owns E t u
| O_string t vl : inside E t (TString vl) -> owns E t u8_ty
| O_box_in t u w : inside E t (TBox u) -> owns E u w -> owns E t w
| O_vec_in t vl u w : inside E t (TVec vl u) -> owns E u w -> owns E t w.

(** The types an instance writes to the storage as allocations of their own. *)
Definition writes (E : tenv) (f : inst) (u : ty) : Prop :=
  match f with
  | FSerialize _ t | FSerializeValue _ t => u = t \/ owns E t u
  | FData _ t => owns E t u
  | FPush _ t | FPushSlice _ t | FPushProcess _ t | FPushProcessSlice _ t | FPushRaw _ t | FPushRawSlice _ t
  | FPushEmpty _ t | FPushEmptySlice _ t | FStPush t | FStPushSlice t | FStPushEmpty t | FStPushEmptySlice t | FAlignFor t => u = t
  | FPushRawBytes _ | FStPushBytes => u = u8_ty
  | _ => False
  end.
(** It makes a storage. *)
Definition makes_storage (f : inst) : Prop :=
  match f with FNew | FWithCapacity | FWithCapacityUnchecked => True | _ => False end.
(** It is for types of the language. *)
Definition lang_inst (E : tenv) (f : inst) : Prop :=
  match f with
  | FSerialize _ t | FSerializeValue _ t | FData _ t
  | FPush _ t | FPushSlice _ t | FPushProcess _ t | FPushProcessSlice _ t | FPushRaw _ t | FPushRawSlice _ t
  | FPushEmpty _ t | FPushEmptySlice _ t | FStPush t | FStPushSlice t | FStPushEmpty t | FStPushEmptySlice t | FAlignFor t => lang_ty E t
  | _ => True
  end.
End Language.

(** ** Proofs *)
Section Mono.
Context {P : Params}.
Variable E : tenv.
Hypothesis LE : lang_env E.

Lemma layout_lang t : machine_ok -> lang_ty E t -> lang_layout (layout_of E t).
Proof.
  intros M H. assert (W : lang_layout usize_layout /\ lang_layout (mkLayout (3 * pW) pW)).
  { unfold lang_layout, usize_layout. cbn [l_size l_align]. pose proof (pW_pow2 M). pose proof (imax_big M). pose proof (pW_vals M). ands; auto; try lia.
    - apply N.divide_refl.
    - apply N.divide_factor_r. }
  induction H as [l ok H|t H IH|vl t H IH|vl|t n H IH Hn|l fs H H1 H2 H3|l d vss H H0 H1 H2 H3|id d H]; cbn [layout_of]; try tauto.
  - destruct IH as (I1 & I2 & I3). unfold lang_layout. cbn. ands; auto. apply N.divide_mul_l. exact I2.
  - rewrite H. destruct (LE id d H) as (H1 & H2). destruct d; try contradiction; inversion H1; assumption.
Qed.

Lemma inside_made k fs t u : made E fs (FData k t) -> inside E t u -> made E fs (FData k u).
Proof.
  intros Hm Hi. induction Hi as [t|t n u H IH|l gs o t u Hin H IH|l d vss gs o t u Hv Hin H IH|id d u He H IH]; [exact Hm| | | |];
    apply IH; (eapply made_by; [exact Hm|]); cbn [mentions].
  - now left.
  - apply in_map_iff. exists (o, t). auto.
  - apply in_map_iff. exists (o, t). split; [reflexivity|]. apply in_concat. eauto.
  - rewrite He. now left.
Qed.

(** An instance that writes a [u] makes the instance that checks the alignment of [u]. *)
Lemma st_push_made fs t : made E fs (FStPushSlice t) -> made E fs (FAlignFor t).
Proof. intros H. eapply made_by; [exact H|]. now left. Qed.
Lemma raw_slice_made k fs t : made E fs (FPushRawSlice k t) -> made E fs (FAlignFor t).
Proof. intros H. apply st_push_made. eapply made_by; [exact H|]. now left. Qed.
Lemma proc_slice_made k fs t : made E fs (FPushProcessSlice k t) -> made E fs (FAlignFor t).
Proof.
  intros H. destruct k; [|apply st_push_made; eapply made_by; [exact H|now left]..].
  apply (raw_slice_made PureCopy). eapply made_by; [exact H|]. now left.
Qed.
Lemma push_slice_made k fs t : made E fs (FPushSlice k t) -> made E fs (FAlignFor t).
Proof.
  intros H. destruct k; [apply (proc_slice_made PureCopy)|eapply raw_slice_made..]; (eapply made_by; [exact H|]); now left.
Qed.
Lemma owns_made k fs t u : made E fs (FData k t) -> owns E t u -> made E fs (FAlignFor u).
Proof.
  intros Hm Ho. induction Ho as [t u Hi|t vl u Hi|t vl Hi|t u w Hi Ho IH|t vl u w Hi Ho IH].
  - apply (inside_made k fs t) in Hi; [|exact Hm]. apply (proc_slice_made k).
    eapply made_by with (f := FPushProcess k u); [|now left]. eapply made_by; [exact Hi|]. now left.
  - apply (inside_made k fs t) in Hi; [|exact Hm]. apply (proc_slice_made k). eapply made_by; [exact Hi|]. cbn. tauto.
  - apply (inside_made k fs t) in Hi; [|exact Hm]. apply (push_slice_made k). eapply made_by; [exact Hi|]. cbn. tauto.
  - apply IH. apply (inside_made k fs t) in Hi; [|exact Hm]. eapply made_by; [exact Hi|]. cbn. tauto.
  - apply IH. apply (inside_made k fs t) in Hi; [|exact Hm]. eapply made_by; [exact Hi|]. cbn. tauto.
Qed.
Lemma writes_made fs f u : made E fs f -> writes E f u -> made E fs (FAlignFor u).
Proof.
  intros Hm Hw.
  assert (SV : forall k t, made E fs (FSerializeValue k t) -> u = t \/ owns E t u -> made E fs (FAlignFor u)).
  { intros k t H [->|Ho].
    - apply (raw_slice_made k). eapply made_by with (f := FPushRaw k t); [|now left]. eapply made_by; [exact H|]. now left.
    - eapply (owns_made k); [|exact Ho]. eapply made_by; [exact H|]. cbn. tauto. }
  assert (PE : forall t, made E fs (FStPushEmptySlice t) -> made E fs (FAlignFor t)).
  { intros t H. eapply made_by; [exact H|]. now left. }
  destruct f; cbn [writes] in Hw; try contradiction; try (subst u).
  - eapply SV; [|exact Hw]. eapply made_by; [exact Hm|]. now left.
  - eapply SV; eauto.
  - apply (push_slice_made k). eapply made_by; [exact Hm|]. now left.
  - apply (push_slice_made k). exact Hm.
  - apply (proc_slice_made k). eapply made_by; [exact Hm|]. now left.
  - apply (proc_slice_made k). exact Hm.
  - apply (raw_slice_made k). eapply made_by; [exact Hm|]. now left.
  - apply (raw_slice_made k). exact Hm.
  - apply st_push_made. eapply made_by with (f := FStPushBytes); [|now left]. eapply made_by; [exact Hm|]. now left.
  - apply PE. eapply made_by with (f := FStPushEmpty t); [|now left]. eapply made_by; [exact Hm|]. now left.
  - apply PE. eapply made_by; [exact Hm|]. now left.
  - eapply owns_made; eauto.
  - apply st_push_made. eapply made_by; [exact Hm|]. now left.
  - apply st_push_made. exact Hm.
  - apply st_push_made. eapply made_by; [exact Hm|]. now left.
  - apply PE. eapply made_by; [exact Hm|]. now left.
  - apply PE. exact Hm.
  - exact Hm.
Qed.

Lemma u8_lang : machine_ok -> lang_ty E u8_ty.
Proof. intros M. constructor. unfold lang_layout, u8_layout. cbn. pose proof (imax_big M). ands; [exists 0; reflexivity|exists 1; reflexivity|lia]. Qed.

(** An instance mentioned by another writes nothing the other does not, and is for types of the language if the other is. *)
Lemma owns_inside t u w : inside E t u -> owns E u w -> owns E t w.
Proof.
  assert (T : forall a b c, inside E a b -> inside E b c -> inside E a c).
  { intros a b c H. induction H; intros Hc; [exact Hc|..]; econstructor; eauto. }
  intros Hi Ho. destruct Ho; [eapply O_box|eapply O_vec|eapply O_string|eapply O_box_in|eapply O_vec_in]; eauto.
Qed.
Lemma mentioned_writes f g u : In g (mentions E f) -> writes E g u -> writes E f u.
Proof.
  intros Hg Hw. destruct f; try (destruct k); cbn [mentions] in Hg; cbn [In] in Hg;
    try (repeat destruct Hg as [<-|Hg]; [..|contradiction]; cbn [writes] in *; auto; tauto); try contradiction.
  all: destruct t; cbn [In] in Hg; try contradiction.
  all: try (repeat destruct Hg as [<-|Hg]; [..|contradiction]; cbn [writes] in *; try contradiction; subst;
    first [eapply O_box; apply I_self|eapply O_vec; apply I_self|eapply O_string; apply I_self|eapply O_box_in; [apply I_self|exact Hw]
      |eapply O_vec_in; [apply I_self|exact Hw]|eapply owns_inside; [|exact Hw]; apply I_array, I_self]).
  all: try (apply in_map_iff in Hg as ([o t'] & <- & Hin); cbn [writes snd] in *; eapply owns_inside; [|exact Hw]).
  all: try (eapply I_struct; [exact Hin|apply I_self]).
  all: try (apply in_concat in Hin as (gs & G1 & G2); eapply I_enum; [exact G1|exact G2|apply I_self]).
  all: destruct (E id) as [d|] eqn:He; [|contradiction]; destruct Hg as [<-|[]]; cbn [writes] in *; eapply owns_inside; [|exact Hw]; eapply I_named; [exact He|apply I_self].
Qed.
Lemma mentioned_lang f g : machine_ok -> In g (mentions E f) -> lang_inst E f -> lang_inst E g.
Proof.
  intros M Hg Hl. pose proof (u8_lang M) as U8.
  destruct f; try (destruct k); cbn [mentions] in Hg; cbn [In] in Hg;
    try (repeat destruct Hg as [<-|Hg]; [..|contradiction]; cbn [lang_inst] in *; auto; fail); try contradiction.
  all: cbn [lang_inst] in Hl; destruct t; cbn [In] in Hg; try contradiction; inversion Hl; subst.
  all: try (repeat destruct Hg as [<-|Hg]; [..|contradiction]; cbn [lang_inst] in *; auto; fail).
  all: try (apply in_map_iff in Hg as ([o t'] & <- & Hin); cbn [lang_inst snd] in *; eauto; fail).
  all: try (apply in_map_iff in Hg as ([o t'] & <- & Hin); cbn [lang_inst snd] in *; apply in_concat in Hin as (gs & G1 & G2);
    apply In_nth_error in G1 as [n G1]; eauto; fail).
  all: match goal with H : E _ = Some ?d |- _ => rewrite H in Hg; destruct Hg as [<-|[]]; cbn [lang_inst]; exact (proj1 (LE _ _ H)) end.
Qed.
Lemma mentioned_storage f g : In g (mentions E f) -> makes_storage g -> makes_storage f.
Proof.
  intros Hg Hs. destruct f; try (destruct k); cbn [mentions] in Hg; cbn [In] in Hg;
    try (repeat destruct Hg as [<-|Hg]; [..|contradiction]; cbn [makes_storage] in *; auto; fail); try contradiction.
  all: destruct t; cbn [In] in Hg; try contradiction.
  all: try (repeat destruct Hg as [<-|Hg]; [..|contradiction]; contradiction).
  all: try (apply in_map_iff in Hg as ([o t'] & <- & Hin); contradiction).
  all: destruct (E id) as [d|]; [|contradiction]; destruct Hg as [<-|[]]; contradiction.
Qed.
Lemma made_from fs f : machine_ok -> Forall (lang_inst E) fs -> made E fs f ->
  lang_inst E f /\ (forall u, writes E f u -> exists e, In e fs /\ writes E e u) /\ (makes_storage f -> exists e, In e fs /\ makes_storage e).
Proof.
  intros M HF H. induction H as [f Hf|f g H (I1 & I2 & I3) Hg].
  - ands; [rewrite Forall_forall in HF; auto|eauto|eauto].
  - ands; [eapply mentioned_lang; eauto| |].
    + intros u Hu. apply I2. eapply mentioned_writes; eauto.
    + intros Hs. apply I3. eapply mentioned_storage; eauto.
Qed.
End Mono.

(** ** Theorems *)

(** A program is accepted exactly if the storages it makes have constants in order and every type that may be
    written as an allocation of its own (values serialized or pushed, and whatever they may own through boxes,
    vecs and strings, in any variant) has an alignment of at most MAX_VALUE_ALIGNMENT. *)
Theorem C86_exact {P : Params} : forall E fs,
  machine_ok -> SA < umod -> lang_env E -> Forall (lang_inst E) fs ->
  (accepted E fs <->
     ((exists e, In e fs /\ makes_storage e) -> consts_ok) /\
     (forall e u, In e fs -> writes E e u -> align_of E u <= MVA)).
Proof.
  intros E fs M HS LE HF. split.
  - intros HA. split.
    + intros (e & He & Hs). specialize (HA e (made_here E fs e He)).
      apply (C17_validation unit tt M HS). destruct e; try contradiction; cbn in HA;
        (destruct (assert_alignments_valid tt) as [[] []| | | |]; [reflexivity|discriminate..]).
    + intros e u He Hw. pose proof (writes_made E fs e u (made_here E fs e He) Hw) as Hm. apply HA in Hm. apply N.leb_le. exact Hm.
  - intros (H1 & H2) f Hf. destruct (made_from E LE fs f M HF Hf) as (I1 & I2 & I3).
    assert (SZ : forall t, lang_ty E t -> align_of E t <> 0).
    { intros t Ht. destruct (layout_lang E LE t M Ht) as ((k & K) & _). unfold align_of. rewrite K. apply N.pow_nonzero. lia. }
    assert (SC : makes_storage f -> match assert_alignments_valid tt with Ok _ _ => true | _ => false end = true).
    { intros Hs. rewrite (proj2 (proj1 (C17_validation unit tt M HS)) (H1 (I3 Hs))). reflexivity. }
    destruct f; cbn [consts_hold]; try reflexivity; try (apply SC; exact Logic.I).
    + destruct t; auto.
      * unfold size_of. cbn. apply N.eqb_refl.
      * cbn in I1. inversion I1; subst. rewrite (vec_offsets_ok vl) by auto. reflexivity.
      * rewrite (vec_offsets_ok vl) by lia. reflexivity.
    + apply N.leb_le. destruct (I2 t eq_refl) as (e & He & Hw). eauto.
Qed.

(** [E] names types that values of the type [t] are made of. *)
Definition concerns {P : Params} (E : tenv) (t u : ty) : Prop := inside E t u \/ exists w, owns E t w /\ inside E w u.

Lemma fields_ok_align {P : Params} E l fs : fields_ok E l fs -> forall o t, In (o, t) fs -> align_of E t <= l_align l.
Proof.
  induction 1 as [|off t fs F1 F2 F3 F4 F5 IH]; intros o u Hin; [contradiction|].
  destruct Hin as [Hin|Hin]; [injection Hin as <- <-; exact F3|eauto].
Qed.
Lemma inside_lang {P : Params} E t u : lang_env E -> inside E t u -> lang_ty E t -> lang_ty E u /\ align_of E u <= align_of E t.
Proof.
  intros LE H. induction H as [t|t n u H IH|l gs o t u Hin H IH|l d vss gs o t u Hv Hin H IH|id d u He H IH]; intros Ht.
  - split; [exact Ht|lia].
  - inversion Ht; subst. apply IH. assumption.
  - inversion Ht as [| | | | |l0 gs0 K1 K2 K3| |]; subst. destruct (IH (K3 o t Hin)) as (I1 & I2). split; [exact I1|].
    pose proof (fields_ok_align E l gs K2 o t Hin). unfold align_of in *. cbn [layout_of]. lia.
  - inversion Ht as [| | | | | |l0 d0 vss0 K1 K2 K3 K4|]; subst. apply In_nth_error in Hv as [n Hn]. destruct (IH (K4 n gs o t Hn Hin)) as (I1 & I2). split; [exact I1|].
    pose proof (fields_ok_align E l gs (K3 n gs Hn) o t Hin). unfold align_of in *. cbn [layout_of]. lia.
  - destruct (LE id d He) as (H1 & H2). destruct (IH H1) as (I1 & I2). split; [exact I1|].
    unfold align_of in *. cbn [layout_of]. rewrite He. destruct d; try contradiction; exact I2.
Qed.
Lemma owns_lang {P : Params} E t u : machine_ok -> lang_env E -> owns E t u -> lang_ty E t -> lang_ty E u.
Proof.
  intros M LE H. induction H as [t u Hi|t vl u Hi|t vl Hi|t u w Hi Ho IH|t vl u w Hi Ho IH]; intros Ht.
  - destruct (inside_lang E t _ LE Hi Ht) as (H1 & _). inversion H1. assumption.
  - destruct (inside_lang E t _ LE Hi Ht) as (H1 & _). inversion H1. assumption.
  - apply u8_lang. exact M.
  - apply IH. destruct (inside_lang E t _ LE Hi Ht) as (H1 & _). inversion H1. assumption.
  - apply IH. destruct (inside_lang E t _ LE Hi Ht) as (H1 & _). inversion H1. assumption.
Qed.
Lemma owned_named_made {P : Params} E k fs t w id : owns E t w -> inside E w (TNamed id) -> made E fs (FData k t) -> made E fs (FData k (TNamed id)).
Proof.
  intros H Hw. induction H as [t u Hi|t vl u Hi|t vl Hi|t u w Hi Ho IH|t vl u w Hi Ho IH]; intros Hm.
  - apply (inside_made E k fs t) in Hi; [|exact Hm]. eapply inside_made; [|exact Hw]. eapply made_by; [exact Hi|]. cbn. tauto.
  - apply (inside_made E k fs t) in Hi; [|exact Hm]. eapply inside_made; [|exact Hw]. eapply made_by; [exact Hi|]. cbn. tauto.
  - inversion Hw.
  - apply (inside_made E k fs t) in Hi; [|exact Hm]. apply IH; [exact Hw|]. eapply made_by; [exact Hi|]. cbn. tauto.
  - apply (inside_made E k fs t) in Hi; [|exact Hm]. apply IH; [exact Hw|]. eapply made_by; [exact Hi|]. cbn. tauto.
Qed.

Lemma lang_wf {P : Params} E k fs : machine_ok -> lang_env E -> accepted E fs ->
  forall t, lang_ty E t -> align_of E t <= MVA -> made E fs (FData k t) -> wf_ty E t.
Proof.
  intros M LE HA t Ht. induction Ht as [l ok H|t H IH|vl t H IH|vl|t n H IH Hn|l gs H H1 H2 IH|l d vss H H0 H1 H2 IH|id d H]; intros Ha Hm.
  - constructor. destruct H as (H1 & H2 & H3). unfold good_layout. auto.
  - constructor; [|exact Ha]. apply IH.
    + apply N.leb_le. apply (HA (FAlignFor t)). eapply owns_made; [exact Hm|]. eapply O_box, I_self.
    + eapply made_by; [exact Hm|]. cbn. tauto.
  - constructor; [|exact Ha]. apply IH.
    + apply N.leb_le. apply (HA (FAlignFor t)). eapply owns_made; [exact Hm|]. eapply O_vec, I_self.
    + eapply made_by; [exact Hm|]. cbn. tauto.
  - constructor. exact Ha.
  - constructor; [|exact Hn]. apply IH; [exact Ha|]. eapply made_by; [exact Hm|]. cbn. tauto.
  - destruct H as (K1 & K2 & K3). constructor; [unfold good_layout; auto|exact H1|].
    intros o t Hin. eapply IH; [exact Hin| |].
    + pose proof (fields_ok_align E l gs H1 o t Hin). unfold align_of in *. cbn [layout_of] in Ha. lia.
    + eapply inside_made; [exact Hm|]. eapply I_struct; [exact Hin|apply I_self].
  - destruct H as (K1 & K2 & K3). constructor; [unfold good_layout; auto|exact H0|exact H1|].
    intros n gs o t Hn Hin. eapply IH; [exact Hn|exact Hin| |].
    + pose proof (fields_ok_align E l gs (H1 n gs Hn) o t Hin). unfold align_of in *. cbn [layout_of] in Ha. lia.
    + eapply inside_made; [exact Hm|]. eapply I_enum; [eapply nth_error_In; exact Hn|exact Hin|apply I_self].
  - econstructor. exact H.
Qed.

Definition serializes (fs : list inst) (k : kind) (t : ty) : Prop := In (FSerialize k t) fs \/ In (FSerializeValue k t) fs.

(** So if a program that makes a storage and serializes values compiles, the constants are in order and the types,
    those it serializes and the named ones they are made of, are supported: what the theorems about serializers assume. *)
Theorem C86_enough {P : Params} : forall E fs,
  machine_ok -> SA < umod -> lang_env E -> Forall (lang_inst E) fs -> accepted E fs ->
  (exists e, In e fs /\ makes_storage e) ->
  (forall id d, E id = Some d -> exists k t, serializes fs k t /\ concerns E t (TNamed id)) ->
  cfg_ok /\ wf_env E /\ (forall k t, serializes fs k t -> wf_ty E t).
Proof.
  intros E fs M HS LE HF HA HN HE.
  pose proof (proj1 (C86_exact E fs M HS LE HF) HA) as (H1 & H2).
  assert (SER : forall k t, serializes fs k t -> lang_ty E t /\ align_of E t <= MVA /\ made E fs (FData k t)).
  { intros k t Hs. assert (Hv : made E fs (FSerializeValue k t)).
    { destruct Hs as [Hs|Hs]; [eapply made_by; [apply made_here; exact Hs|now left]|apply made_here; exact Hs]. }
    rewrite Forall_forall in HF. ands.
    - destruct Hs as [Hs|Hs]; exact (HF _ Hs).
    - destruct Hs as [Hs|Hs]; exact (H2 _ t Hs (or_introl eq_refl)).
    - eapply made_by; [exact Hv|]. cbn. tauto. }
  ands.
  - split; [exact M|]. apply H1. exact HN.
  - intros id d Hd. destruct (LE id d Hd) as (L1 & L2). split; [|exact L2].
    destruct (HE id d Hd) as (k & t & Hs & Hc). destruct (SER k t Hs) as (S1 & S2 & S3).
    assert (HM : made E fs (FData k (TNamed id))).
    { destruct Hc as [Hc|(w & W1 & W2)]; [eapply inside_made; eauto|eapply owned_named_made; eauto]. }
    assert (HL : align_of E (TNamed id) <= MVA).
    { destruct Hc as [Hc|(w & W1 & W2)].
      - pose proof (proj2 (inside_lang E t _ LE Hc S1)). lia.
      - pose proof (proj2 (inside_lang E w _ LE W2 (owns_lang E t w M LE W1 S1))).
        assert (align_of E w <= MVA); [|lia].
        destruct Hs as [Hs|Hs]; exact (H2 _ w Hs (or_intror W1)). }
    eapply (lang_wf E k fs M LE HA d L1).
    + unfold align_of in *. cbn [layout_of] in HL. rewrite Hd in HL. destruct d; try contradiction; exact HL.
    + eapply made_by; [exact HM|]. cbn [mentions]. rewrite Hd. now left.
  - intros k t Hs. destruct (SER k t Hs) as (S1 & S2 & S3). exact (lang_wf E k fs M LE HA t S1 S2 S3).
Qed.

(** In a program that compiles, serializing a value ends by returning, by the panic of a full storage (exactly if
    the output does not fit) or by an abort for lack of memory; there is no undefined behaviour, and the output holds the value. *)
Theorem C86_safe {P : Params} : forall E fs k m t a v w fuel,
  machine_ok -> SA < umod -> lang_env E -> Forall (lang_inst E) fs -> accepted E fs ->
  (exists e, In e fs /\ makes_storage e) ->
  (forall id d, E id = Some d -> exists k t, serializes fs k t /\ concerns E t (TNamed id)) ->
  serializes fs k t -> alloc_ok -> storage_ok w ->
  a + size_of E t <= umod -> repr E any_header m t a v -> (vdepth v < fuel)%nat ->
  match serialize k E m fuel t a (from_storage w) with
  | Ok p z =>
      storage_ok (z_sw z) /\
      (forall f, (vdepth v < f)%nat -> decode_root E (out_mem 0 (z_sw z)) f t p = Some v) /\
      (k = PtrOffset -> repr E any_header (out_mem 0 (z_sw z)) t p v) /\
      (k = Complete -> repr E any_header (out_mem (s_ptr (sw_s (z_sw z))) (z_sw z)) t (s_ptr (sw_s (z_sw z)) + p) v)
  | Panic e z => e = PCapacity /\ storage_ok (z_sw z) /\ MAXC < end_pos (s_pos (sw_s w)) (allocations E t v)
  | Abort => alloc_failed
  | UB | OutOfFuel => False
  end.
Proof.
  intros E fs k m t a v w fuel M HS LE HF HA HN HE Hs HO Hw Hu Hr Hf.
  destruct (C86_enough E fs M HS LE HF HA HN HE) as (C & WE & WT).
  assert (Hv : valid_input E any_header m t a v) by (split; [exact (WT k t Hs)|split; assumption]).
  pose proof (ser_facts C HO E WE k m any_header any_header (transfers_any k) fuel t a v w Hw Hv Hf) as H.
  destruct (serialize k E m fuel t a (from_storage w)) as [p z|e z| | |] eqn:Er; auto.
  - ands; [apply H| | |].
    + intros f Hf'. exact (C18_pure_copy k E m t a v w fuel p z f C HO WE Hw Hv Hf Er Hf').
    + intros ->. exact (C19_ptr_offset E m t a v w fuel p z C HO WE Hw Hv Hf Er).
    + intros ->. exact (C21_complete E m t a v w fuel p z C HO WE Hw Hv Hf Er).
  - destruct H as (H1 & H2 & H3 & _). auto.
Qed.

(** The same for calls of the storage itself: in a program that compiles they are ones the theorems about storages cover. *)
Definition calls_storage {P : Params} (E : tenv) (fs : list inst) (o : sop) : Prop :=
  match o with
  | OPush l _ => exists t, In (FStPush t) fs /\ l = layout_of E t
  | OPushSlice l n _ => exists t, In (FStPushSlice t) fs /\ l = layout_of E t /\ l_size l * n <= imax
  | OPushBytes n _ => n <= imax
  | OPushEmpty l => exists t, In (FStPushEmpty t) fs /\ l = layout_of E t
  | OPushEmptySlice l n => exists t, In (FStPushEmptySlice t) fs /\ l = layout_of E t /\ n < umod
  | OReserve n => n < umod
  | OAlignFor l => exists t, In (FAlignFor t) fs /\ l = layout_of E t
  | OAlignAfter _ | OAlignAfterAny | OClear | OShrink => True
  end.
Theorem C86_storage {P : Params} : forall E fs c os w0,
  machine_ok -> SA < umod -> lang_env E -> Forall (lang_inst E) fs -> accepted E fs -> In FWithCapacity fs ->
  Forall (calls_storage E fs) os -> alloc_ok -> c < umod ->
  with_capacity c sw_new = Ok tt w0 ->
  Forall op_valid os /\
  match run_ops os w0 with
  | Ok _ w => storage_ok w
  | Abort => alloc_failed
  | UB => exists os1 o os2 w1, os = os1 ++ o :: os2 /\ run_ops os1 w0 = Ok tt w1 /\ empty_slice_push w1 o
  | Panic _ _ | OutOfFuel => False
  end.
Proof.
  intros E fs c os w0 M HS LE HF HA HN Ho HO Hc Hw.
  pose proof (proj1 (C86_exact E fs M HS LE HF) HA) as (H1 & H2).
  assert (C : cfg_ok). { split; [exact M|]. apply H1. exists FWithCapacity. split; [exact HN|exact Logic.I]. }
  rewrite Forall_forall in HF.
  assert (G : forall f t, In f fs -> writes E f t -> lang_ty E t -> good_layout (layout_of E t)).
  { intros f t Hf Hwr Ht. destruct (layout_lang E LE t M Ht) as (L1 & L2 & L3). unfold good_layout. ands; auto. exact (H2 f t Hf Hwr). }
  assert (HV : Forall op_valid os).
  { eapply Forall_impl; [|exact Ho]. intros o Hc'. destruct o; cbn [calls_storage op_valid] in *; auto.
    - destruct Hc' as (t & H3 & ->). eapply G; [exact H3|reflexivity|exact (HF _ H3)].
    - destruct Hc' as (t & H3 & -> & H4). split; [eapply G; [exact H3|reflexivity|exact (HF _ H3)]|exact H4].
    - destruct Hc' as (t & H3 & ->). eapply G; [exact H3|reflexivity|exact (HF _ H3)].
    - destruct Hc' as (t & H3 & -> & H4). split; [eapply G; [exact H3|reflexivity|exact (HF _ H3)]|exact H4].
    - destruct Hc' as (t & H3 & ->). eapply G; [exact H3|reflexivity|exact (HF _ H3)]. }
  split; [exact HV|].
  pose proof (history_ub C HO c os w0 Hc Hw HV) as H. destruct (run_ops os w0) as [[] w| | | |] eqn:Er; auto.
  exact (history_ok C HO c os w0 w Hc Hw HV Er).
Qed.

(** A type that may be written and needs more than MAX_VALUE_ALIGNMENT is refused, whether or not the code
    that would write it ever runs. *)
Theorem C86_rejects {P : Params} : forall E fs e u,
  In e fs -> writes E e u -> MVA < align_of E u -> ~ accepted E fs.
Proof.
  intros E fs e u He Hw Hlt HA. pose proof (HA _ (writes_made E fs e u (made_here E fs e He) Hw)) as H.
  cbn [consts_hold] in H. apply N.leb_le in H. lia.
Qed.

(** Types the theorems about serializers support are ones of the language. *)
Lemma wf_lang {P : Params} E t : wf_ty E t -> lang_ty E t.
Proof.
  assert (G : forall l, good_layout l -> lang_layout l) by (intros l (H1 & H2 & H3 & _); split; [|split]; assumption).
  induction 1; econstructor; eauto.
Qed.
Lemma wf_env_lang {P : Params} E : wf_env E -> lang_env E.
Proof. intros H id d Hd. destruct (H id d Hd) as (H1 & H2). split; [apply wf_lang; exact H1|exact H2]. Qed.

(** Conversely a program using only supported types compiles. *)
Definition wf_inst {P : Params} (E : tenv) (f : inst) : Prop :=
  match f with
  | FSerialize _ t | FSerializeValue _ t | FData _ t
  | FPush _ t | FPushSlice _ t | FPushProcess _ t | FPushProcessSlice _ t | FPushRaw _ t | FPushRawSlice _ t
  | FPushEmpty _ t | FPushEmptySlice _ t | FStPush t | FStPushSlice t | FStPushEmpty t | FStPushEmptySlice t | FAlignFor t => wf_ty E t
  | _ => True
  end.
Lemma inside_wf {P : Params} E t u : wf_env E -> inside E t u -> wf_ty E t -> wf_ty E u.
Proof.
  intros WE H. induction H as [t|t n u H IH|l gs o t u Hin H IH|l d vss gs o t u Hv Hin H IH|id d u He H IH]; intros Ht; [exact Ht| | | |].
  - apply IH. inversion Ht. assumption.
  - apply IH. inversion Ht; subst. eauto.
  - apply IH. apply In_nth_error in Hv as [n Hn]. inversion Ht; subst. eauto.
  - apply IH. exact (proj1 (WE id d He)).
Qed.
Lemma owns_wf {P : Params} E t u : machine_ok -> consts_ok -> wf_env E -> owns E t u -> wf_ty E t -> wf_ty E u.
Proof.
  intros M K WE H. induction H as [t u Hi|t vl u Hi|t vl Hi|t u w Hi Ho IH|t vl u w Hi Ho IH]; intros Ht.
  - pose proof (inside_wf E t _ WE Hi Ht) as H. inversion H. assumption.
  - pose proof (inside_wf E t _ WE Hi Ht) as H. inversion H. assumption.
  - constructor. apply u8_good. split; assumption.
  - apply IH. pose proof (inside_wf E t _ WE Hi Ht) as H. inversion H. assumption.
  - apply IH. pose proof (inside_wf E t _ WE Hi Ht) as H. inversion H. assumption.
Qed.
Theorem C86_supported_compile {P : Params} : forall E fs,
  cfg_ok -> SA < umod -> wf_env E -> Forall (wf_inst E) fs -> accepted E fs.
Proof.
  intros E fs (M & K) HS WE HF.
  apply (C86_exact E fs M HS (wf_env_lang E WE)).
  { eapply Forall_impl; [|exact HF]. intros f Hf. destruct f; cbn in *; auto using wf_lang. }
  split; [intros _; exact K|]. intros e u He Hw. rewrite Forall_forall in HF. specialize (HF e He).
  assert (G : wf_ty E u).
  { destruct e; cbn [writes wf_inst] in *; try contradiction; try (subst u; exact HF);
      try (subst u; constructor; apply u8_good; split; assumption); try (destruct Hw as [->|Hw]; [exact HF|]);
      eapply owns_wf; eauto. }
  exact (proj2 (proj2 (proj2 (wf_good (conj M K) E WE u G)))).
Qed.

(** ** Examples *)
From Verif Require Import Build PropDepth.

(** struct Node { x: u64, next: Option<Box<Node>> }, serialized with CompleteSerializer: it compiles and meets the hypotheses. *)
Definition node_program : list inst := [FWithCapacity; FSerialize Complete t_node].
Theorem C86_witness : accepted (P := demo) node_env node_program /\
  machine_ok (P := demo) /\ SA (Params := demo) < umod (P := demo) /\ lang_env (P := demo) node_env /\ Forall (lang_inst (P := demo) node_env) node_program /\
  (exists e, In e node_program /\ makes_storage e) /\
  (forall id d, node_env id = Some d -> exists k t, serializes node_program k t /\ concerns (P := demo) node_env t (TNamed id)).
Proof.
  ands.
  - apply C86_supported_compile; [exact demo_cfg|reflexivity|exact node_env_wf|]. repeat constructor. exact node_wf.
  - right. reflexivity.
  - reflexivity.
  - apply wf_env_lang. exact node_env_wf.
  - repeat constructor. eapply L_named. reflexivity.
  - exists FWithCapacity. split; [left; reflexivity|exact Logic.I].
  - intros [|id] d Hd; [|discriminate]. exists Complete, t_node. split; [left; right; left; reflexivity|left; apply I_self].
Qed.

(** An [Option<Box<Page>>] where a Page is aligned to 64 bytes: refused by a storage of MAX_VALUE_ALIGNMENT 16, though a None would
    fit, and accepted otherwise. *)
Definition t_page : ty := TStruct (mkLayout 64 64) [(0, TPrim (mkLayout 8 8) (fun _ => true))].
Definition t_opt_page : ty := TEnum (mkLayout 8 8) (DNiche 0 8 1 [(0, 0%nat)]) [[]; [(0, TBox t_page)]].
Theorem C86_page_refused : ~ accepted (P := demo) (fun _ => None) [FWithCapacity; FSerialize PureCopy t_opt_page].
Proof.
  apply (C86_rejects (P := demo) _ _ (FSerialize PureCopy t_opt_page) t_page); [right; left; reflexivity| |reflexivity].
  right. apply O_box. eapply I_enum; [right; left; reflexivity|left; reflexivity|apply I_self].
Qed.

(** Without the check, in a release build: a storage whose buffer is aligned to 8 bytes, a u64 and then a value aligned to 16. *)
Definition demo_small : Params :=
  {| pW := 8; pBE := false; dbg := false; SA := 8; MVA := 8; VA := 8; MAXC := 4096; orc := demo_alloc |}.
Theorem C86_check_needed :
  cfg_ok (P := demo_small) /\ alloc_ok (P := demo_small) /\ lang_layout (P := demo_small) (mkLayout 16 16) /\
  match run_ops (P := demo_small) [OPush u64_layout (bytes_src (repeat 7 8)); OPush (mkLayout 16 16) (bytes_src (repeat 7 16))] sw_new with
  | UB => True
  | _ => False
  end.
Proof.
  ands.
  - split; [right; reflexivity|]. unfold consts_ok, legal_layout. ands; conc.
  - intros n size. cbn [orc demo_small]. destruct (demo_alloc_facts n size) as [|(A & B & D)]; [left; assumption|right].
    split; [eapply N.divide_trans; [|exact A]; exists 2; reflexivity|]. change (@umod demo_small) with 18446744073709551616. lia.
  - unfold lang_layout. cbn. ands; conc.
  - vm_compute. exact Logic.I.
Qed.
