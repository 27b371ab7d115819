(** * Depth: how deep the calls of serialize_data nest (C74). *)
From Coq Require Import Arith.
From Verif Require Import Base Types Spec Storage Serializer Serialize SerProps ArithFacts SerRoot.
Local Open Scope N_scope.

Section D.
Context {P : Params}.
Variable k : kind.
Variable E : tenv.
Variable m : mem.

(** How many calls of serialize_data are active at once, at most, while the value [v]
    of type [t] is serialized: one for itself, and those of the deepest of the values
    in it or owned by it (primitives.rs:9, ptrs.rs:12-104, multiples.rs:8-26,
    other.rs:8-12).  Contents of size 0 are not visited (ptrs.rs:14, :39). *)
Fixpoint calls (t : ty) (v : val) {struct v} : nat :=
  let fields := fix go (vs : list val) (fs : list (N * ty)) : nat :=
    match vs, fs with
    | v :: vs', (_, t) :: fs' => Nat.max (calls t v) (go vs' fs')
    | _, _ => O
    end in
  S match resolve E t, v with
    | TBox t', VBox v' => if size_of E t' =? 0 then O else calls t' v'
    | TVec _ t', VVec vs => if size_of E t' =? 0 then O else list_max (map (calls t') vs)
    | TArray t' _, VArray vs => list_max (map (calls t') vs)
    | TStruct _ fs, VStruct vs => fields vs fs
    | TEnum _ _ vss, VEnum j vs =>
        match nth_error vss j with Some fs => fields vs fs | None => O end
    | _, _ => O
    end.
Fixpoint calls_fields (vs : list val) (fs : list (N * ty)) : nat :=
  match vs, fs with
  | v :: vs', (_, t) :: fs' => Nat.max (calls t v) (calls_fields vs' fs')
  | _, _ => O
  end.

Definition eqm {A} (f g : M zs A) : Prop := forall z, f z = g z.
Definition fails {A} (f : M zs A) : Prop := forall z a z', f z <> Ok a z'.

Lemma eqm_refl {A} (f : M zs A) : eqm f f. Proof. intros z. reflexivity. Qed.
Lemma eqm_bind {A B} (f f' : M zs A) (g g' : A -> M zs B) :
  eqm f f' -> (forall a, eqm (g a) (g' a)) -> eqm (bind f g) (bind f' g').
Proof. intros H1 H2 z. unfold bind. rewrite H1. destruct (f' z); try reflexivity. apply H2. Qed.
Lemma fails_1 {A B} (f : M zs A) (g : A -> M zs B) : fails f -> fails (bind f g).
Proof. intros H z a z'. unfold bind. specialize (H z). destruct (f z); try discriminate. exfalso. eapply H. reflexivity. Qed.
Lemma fails_2 {A B} (f : M zs A) (g : A -> M zs B) : (forall a, fails (g a)) -> fails (bind f g).
Proof. intros H z a z'. unfold bind. destruct (f z); try discriminate. apply H. Qed.

Lemma eqm_pps s a (f g : M zs unit) : eqm f g -> eqm (push_and_process_slice k s a f) (push_and_process_slice k s a g).
Proof.
  intros H. destruct k; cbn [push_and_process_slice]; unfold dflt_push_and_process_slice, pt_push_and_process_slice, pw_push_and_process_slice;
    repeat (apply eqm_bind; [first [exact H|apply eqm_refl]|intros ?]); apply eqm_refl.
Qed.
Lemma fails_pps s a (f : M zs unit) : fails f -> fails (push_and_process_slice k s a f).
Proof.
  intros H. destruct k; cbn [push_and_process_slice]; unfold dflt_push_and_process_slice, pt_push_and_process_slice, pw_push_and_process_slice;
    repeat first [apply fails_1; exact H|apply fails_2; intros ?].
Qed.
Lemma eqm_svw s (f g : M zs unit) : eqm f g -> eqm (serialize_value_with k s f) (serialize_value_with k s g).
Proof.
  intros H. destruct k; cbn [serialize_value_with];
    repeat (apply eqm_bind; [first [exact H|apply eqm_refl]|intros ?]); apply eqm_refl.
Qed.
Lemma fails_svw s (f : M zs unit) : fails f -> fails (serialize_value_with k s f).
Proof.
  intros H. destruct k; cbn [serialize_value_with]; repeat first [apply fails_1; exact H|apply fails_2; intros ?].
Qed.

Lemma load_ok a w z : read_word m a = Some w -> load_word (S := zs) m a z = Ok w z.
Proof. intros H. unfold load_word. rewrite H. reflexivity. Qed.

Lemma eqm_load {B} a w (g g' : N -> M zs B) : read_word m a = Some w -> eqm (g w) (g' w) ->
  eqm (bind (load_word m a) g) (bind (load_word m a) g').
Proof. intros H1 H2 z. unfold bind. rewrite (load_ok a w z H1). apply H2. Qed.
Lemma fails_load {B} a w (g : N -> M zs B) : read_word m a = Some w -> fails (g w) -> fails (bind (load_word m a) g).
Proof. intros H1 H2 z. unfold bind. rewrite (load_ok a w z H1). apply H2. Qed.

Lemma calls_struct t l fs vs : resolve E t = TStruct l fs -> calls t (VStruct vs) = S (calls_fields vs fs).
Proof.
  intros H. cbn [calls]. rewrite H. reflexivity.
Qed.
Lemma calls_enum t l d vss j fs vs : resolve E t = TEnum l d vss -> nth_error vss j = Some fs ->
  calls t (VEnum j vs) = S (calls_fields vs fs).
Proof.
  intros H Hn. cbn [calls]. rewrite H, Hn. reflexivity.
Qed.

Hypothesis HE : wf_env E.

Lemma named_resolve id d : E id = Some d -> resolve E (TNamed id) = d /\ resolve E d = d.
Proof. intros H. cbn [resolve]. rewrite H. destruct (HE id d H) as [_ Hd]. destruct d; try contradiction; auto. Qed.

Lemma data_named id d f a : E id = Some d -> ser_data k E m f (TNamed id) a = ser_data k E m f d a.
Proof. intros H. destruct (named_resolve id d H) as [R1 R2]. destruct f; [reflexivity|]. cbn [ser_data]. rewrite R1, R2. reflexivity. Qed.
Lemma calls_named id d v : E id = Some d -> calls (TNamed id) v = calls d v.
Proof. intros H. destruct (named_resolve id d H) as [R1 R2]. destruct v; cbn [calls]; rewrite R1, R2; reflexivity. Qed.

(** ** Enough: more allowance changes nothing. *)
Lemma enough H :
  (forall t a v, repr E H m t a v -> forall f, (calls t v <= f)%nat -> eqm (ser_data k E m f t a) (ser_data k E m (calls t v) t a)) /\
  (forall t a vs, repr_elems E H m t a vs -> forall f g, (list_max (map (calls t) vs) <= f)%nat -> (list_max (map (calls t) vs) <= g)%nat ->
     eqm (for_elems (length vs) a (size_of E t) (ser_data k E m f t)) (for_elems (length vs) a (size_of E t) (ser_data k E m g t))) /\
  (forall fs a vs, repr_fields E H m fs a vs -> forall f g, (calls_fields vs fs <= f)%nat -> (calls_fields vs fs <= g)%nat ->
     eqm (for_fields fs a (ser_data k E m f)) (for_fields fs a (ser_data k E m g))).
Proof.
  apply (repr_mut P E H m
    (fun t a v => forall f, (calls t v <= f)%nat -> eqm (ser_data k E m f t a) (ser_data k E m (calls t v) t a))
    (fun t a vs => forall f g, (list_max (map (calls t) vs) <= f)%nat -> (list_max (map (calls t) vs) <= g)%nat ->
       eqm (for_elems (length vs) a (size_of E t) (ser_data k E m f t)) (for_elems (length vs) a (size_of E t) (ser_data k E m g t)))
    (fun fs a vs => forall f g, (calls_fields vs fs <= f)%nat -> (calls_fields vs fs <= g)%nat ->
       eqm (for_fields fs a (ser_data k E m f)) (for_fields fs a (ser_data k E m g)))).
  - intros l ok a n H1 H2 [|f] Hf; [cbn in Hf; lia|]. apply eqm_refl.
  - intros t a p v H1 H2 H3 H4 IH [|f] Hf; [cbn in Hf; lia|]. cbn [calls resolve ser_data] in *. unfold ser_box.
    destruct (size_of E t =? 0); [apply eqm_refl|]. apply eqm_bind; [apply eqm_refl|intros pa].
    apply (eqm_load _ _ _ _ H1). unfold push_and_process.
    apply eqm_bind; [|intros; apply eqm_refl]. apply eqm_pps. apply IH. lia.
  - intros vl t a c p vs H1 H2 H3 H4 H5 H6 IH [|f] Hf; [cbn in Hf; lia|]. cbn [calls resolve ser_data] in *. unfold ser_vec.
    destruct (size_of E t =? 0); [apply eqm_refl|].
    apply (eqm_load _ _ _ _ H3). destruct (N.of_nat (length vs) =? 0); [apply eqm_refl|].
    apply eqm_bind; [apply eqm_refl|intros _]. apply eqm_bind; [apply eqm_refl|intros vo].
    apply eqm_bind; [apply eqm_refl|intros pa]. apply (eqm_load _ _ _ _ H2).
    apply eqm_bind; [|intros; apply eqm_refl]. apply eqm_pps. rewrite Nat2N.id. apply IH; lia.
  - intros vl a c p bs H1 H2 H3 H4 H5 H6 [|f] Hf; [cbn in Hf; lia|]. apply eqm_refl.
  - intros t n a vs -> H1 IH [|f] Hf; [cbn in Hf; lia|]. cbn [calls resolve ser_data] in *. rewrite Nat2N.id. apply IH; lia.
  - intros l fs a vs H1 IH f Hf. rewrite (calls_struct _ l fs) in * by reflexivity. destruct f as [|f]; [lia|].
    cbn [ser_data resolve]. apply IH; lia.
  - intros l d vss a j fs vs H1 H2 H3 IH f Hf. rewrite (calls_enum _ l d vss j fs) in * by (reflexivity || assumption).
    destruct f as [|f]; [lia|]. cbn [ser_data resolve]. rewrite H1, H2. apply IH; lia.
  - intros id d a v H1 H2 IH f Hf. rewrite (calls_named id d v H1) in *. rewrite !(data_named id d _ _ H1). apply IH. exact Hf.
  - intros t a f g _ _. apply eqm_refl.
  - intros t a v vs H1 IH1 H2 IH2 f g Hf Hg. cbn [map list_max fold_right] in Hf, Hg. fold (list_max (map (calls t) vs)) in Hf, Hg.
    cbn [length for_elems]. apply eqm_bind; [|intros _; apply IH2; lia].
    intros z. rewrite (IH1 f ltac:(lia) z), (IH1 g ltac:(lia) z). reflexivity.
  - intros a f g _ _. apply eqm_refl.
  - intros off t fs a v vs H1 IH1 H2 IH2 f g Hf Hg. cbn [calls_fields] in Hf, Hg. cbn [for_fields].
    apply eqm_bind; [|intros _; apply IH2; lia].
    intros z. rewrite (IH1 f ltac:(lia) z), (IH1 g ltac:(lia) z). reflexivity.
Qed.

(** ** Needed: with less, no success. *)
Lemma needed H :
  (forall t a v, repr E H m t a v -> forall f, (f < calls t v)%nat -> fails (ser_data k E m f t a)) /\
  (forall t a vs, repr_elems E H m t a vs -> forall f, (f < list_max (map (calls t) vs))%nat ->
     fails (for_elems (length vs) a (size_of E t) (ser_data k E m f t))) /\
  (forall fs a vs, repr_fields E H m fs a vs -> forall f, (f < calls_fields vs fs)%nat ->
     fails (for_fields fs a (ser_data k E m f))).
Proof.
  apply (repr_mut P E H m
    (fun t a v => forall f, (f < calls t v)%nat -> fails (ser_data k E m f t a))
    (fun t a vs => forall f, (f < list_max (map (calls t) vs))%nat -> fails (for_elems (length vs) a (size_of E t) (ser_data k E m f t)))
    (fun fs a vs => forall f, (f < calls_fields vs fs)%nat -> fails (for_fields fs a (ser_data k E m f)))).
  - intros l ok a n H1 H2 [|f] Hf; [intros ? ? ?; discriminate|cbn in Hf; lia].
  - intros t a p v H1 H2 H3 H4 IH [|f] Hf; [intros ? ? ?; discriminate|]. cbn [calls resolve ser_data] in *. unfold ser_box.
    destruct (size_of E t =? 0); [lia|]. apply fails_2. intros pa. apply (fails_load _ _ _ H1). unfold push_and_process.
    apply fails_1. apply fails_pps. apply IH. lia.
  - intros vl t a c p vs H1 H2 H3 H4 H5 H6 IH [|f] Hf; [intros ? ? ?; discriminate|]. cbn [calls resolve ser_data] in *. unfold ser_vec.
    destruct (size_of E t =? 0); [lia|].
    apply (fails_load _ _ _ H3).
    destruct (N.of_nat (length vs) =? 0) eqn:E0; [apply N.eqb_eq in E0; destruct vs; [cbn in Hf; lia|discriminate]|].
    apply fails_2. intros _. apply fails_2. intros vo. apply fails_2. intros pa.
    apply (fails_load _ _ _ H2). apply fails_1. apply fails_pps. rewrite Nat2N.id. apply IH; lia.
  - intros vl a c p bs H1 H2 H3 H4 H5 H6 [|f] Hf; [intros ? ? ?; discriminate|cbn in Hf; lia].
  - intros t n a vs -> H1 IH [|f] Hf; [intros ? ? ?; discriminate|]. cbn [calls resolve ser_data] in *. rewrite Nat2N.id. apply IH; lia.
  - intros l fs a vs H1 IH f Hf. rewrite (calls_struct _ l fs) in * by reflexivity. destruct f as [|f]; [intros ? ? ?; discriminate|].
    cbn [ser_data resolve]. apply IH; lia.
  - intros l d vss a j fs vs H1 H2 H3 IH f Hf. rewrite (calls_enum _ l d vss j fs) in * by (reflexivity || assumption).
    destruct f as [|f]; [intros ? ? ?; discriminate|]. cbn [ser_data resolve]. rewrite H1, H2. apply IH; lia.
  - intros id d a v H1 H2 IH f Hf. rewrite (calls_named id d v H1) in *. rewrite !(data_named id d _ _ H1). apply IH. exact Hf.
  - intros t a f Hf. cbn in Hf. lia.
  - intros t a v vs H1 IH1 H2 IH2 f Hf. cbn [map list_max fold_right] in Hf. fold (list_max (map (calls t) vs)) in Hf.
    cbn [length for_elems]. apply Nat.max_lt_iff in Hf. destruct Hf as [Hf|Hf]; [apply fails_1|apply fails_2; intros _]; auto.
  - intros a f Hf. cbn in Hf. lia.
  - intros off t fs a v vs H1 IH1 H2 IH2 f Hf. cbn [calls_fields] in Hf. cbn [for_fields].
    apply Nat.max_lt_iff in Hf. destruct Hf as [Hf|Hf]; [apply fails_1|apply fails_2; intros _]; auto.
Qed.

Lemma calls_vdepth : forall v t, (calls t v <= S (vdepth v))%nat.
Proof.
  assert (Hl : forall vs t, Forall (fun v => forall t, (calls t v <= S (vdepth v))%nat) vs ->
            (list_max (map (calls t) vs) <= S (list_max (map vdepth vs)))%nat).
  { intros vs t HF. induction HF as [|v vs H HF IH]; [cbn; lia|].
    cbn [map list_max fold_right]. fold (list_max (map (calls t) vs)) (list_max (map vdepth vs)). specialize (H t). lia. }
  assert (Hf : forall vs fs, Forall (fun v => forall t, (calls t v <= S (vdepth v))%nat) vs ->
            (calls_fields vs fs <= S (list_max (map vdepth vs)))%nat).
  { intros vs fs HF. revert fs. induction HF as [|v vs H HF IH]; intros fs; [destruct fs; cbn; lia|].
    destruct fs as [|[o t] fs]; cbn [calls_fields]; [lia|].
    cbn [map list_max fold_right]. fold (list_max (map vdepth vs)). specialize (H t). specialize (IH fs). lia. }
  induction v using val_ind2; intros t; cbn [vdepth].
  - cbn [calls]. destruct (resolve E t); lia.
  - cbn [calls]. destruct (resolve E t); try lia. destruct (_ =? 0); [lia|]. specialize (IHv t0). lia.
  - cbn [calls]. destruct (resolve E t); try lia. destruct (_ =? 0); [lia|]. specialize (Hl vs t0 H). lia.
  - cbn [calls]. destruct (resolve E t); lia.
  - cbn [calls]. destruct (resolve E t); try lia. specialize (Hl vs t0 H). lia.
  - destruct (resolve E t) eqn:Er; try (cbn [calls]; rewrite Er; lia).
    rewrite (calls_struct t _ _ vs Er). specialize (Hf vs fs H). lia.
  - destruct (resolve E t) as [| | | | | |l d vss|] eqn:Er; try (cbn [calls]; rewrite Er; lia).
    destruct (nth_error vss n) as [fs|] eqn:En; [|cbn [calls]; rewrite Er, En; lia].
    rewrite (calls_enum t l d vss n fs vs Er En). specialize (Hf vs fs H). lia.
Qed.

(** ** What the type alone says: [nests t n] if types inside [t] (through pointers too)
    nest at most [n] deep, itself included; no such [n] exists for a recursive type. *)
Inductive nests : ty -> nat -> Prop :=
| Ne_prim l ok n : nests (TPrim l ok) (S n)
| Ne_string vl n : nests (TString vl) (S n)
| Ne_box t n : nests t n -> nests (TBox t) (S n)
| Ne_vec vl t n : nests t n -> nests (TVec vl t) (S n)
| Ne_array t c n : nests t n -> nests (TArray t c) (S n)
| Ne_struct l fs n : (forall o t, In (o, t) fs -> nests t n) -> nests (TStruct l fs) (S n)
| Ne_enum l d vss n : (forall fs o t, In fs vss -> In (o, t) fs -> nests t n) -> nests (TEnum l d vss) (S n)
| Ne_named id d n : E id = Some d -> nests d n -> nests (TNamed id) n.

Lemma nests_resolve t n : nests t n -> nests (resolve E t) n.
Proof.
  intros H. destruct H; try (cbn [resolve]; constructor; assumption). cbn [resolve]. rewrite H. assumption.
Qed.

Lemma calls_nests : forall n t v, nests t n -> (calls t v <= n)%nat.
Proof.
  induction n as [|n IH]; intros t v Hn.
  - exfalso. apply nests_resolve in Hn. remember (resolve E t) as t' eqn:Et. remember O as z eqn:Ez.
    revert Et. destruct Hn; try discriminate. intros Et. destruct t; try discriminate. cbn [resolve] in Et.
    destruct (E id0) as [d'|] eqn:Ed.
    + destruct (HE _ _ Ed) as [_ Hd]. subst d'. contradiction.
    + injection Et as <-. congruence.
  - assert (Hl : forall t' vs, nests t' n -> (list_max (map (calls t') vs) <= n)%nat).
    { intros t' vs Ht. apply list_max_le. apply Forall_forall. intros x Hx. apply in_map_iff in Hx.
      destruct Hx as (y & <- & _). apply IH. exact Ht. }
    assert (Hf : forall vs fs, (forall o t, In (o, t) fs -> nests t n) -> (calls_fields vs fs <= n)%nat).
    { induction vs as [|x vs IHv]; intros [|[o t'] fs] Hfs; cbn [calls_fields]; try lia.
      specialize (IH t' x (Hfs o t' (or_introl eq_refl))).
      specialize (IHv fs (fun o t Hin => Hfs o t (or_intror Hin))). lia. }
    apply nests_resolve in Hn. destruct (resolve E t) eqn:Er.
    + destruct v; cbn [calls]; rewrite Er; lia.
    + inversion Hn; subst. destruct v; cbn [calls]; rewrite Er; try lia.
      destruct (_ =? 0); [lia|]. specialize (IH t0 v ltac:(assumption)). lia.
    + inversion Hn; subst. destruct v; cbn [calls]; rewrite Er; try lia.
      destruct (_ =? 0); [lia|]. specialize (Hl t0 vs ltac:(assumption)). lia.
    + destruct v; cbn [calls]; rewrite Er; lia.
    + inversion Hn; subst. destruct v; cbn [calls]; rewrite Er; try lia.
      specialize (Hl t0 vs ltac:(assumption)). lia.
    + inversion Hn; subst. destruct v; try (cbn [calls]; rewrite Er; lia).
      rewrite (calls_struct t _ _ vs Er). specialize (Hf vs fs ltac:(assumption)). lia.
    + inversion Hn as [| | | | | |? ? ? ? Hall|]; subst. destruct v as [| | | | | |j vs']; try (cbn [calls]; rewrite Er; lia).
      destruct (nth_error vs j) as [fs|] eqn:En; [|cbn [calls]; rewrite Er, En; lia].
      rewrite (calls_enum t _ _ _ j fs vs' Er En).
      specialize (Hf vs' fs (fun o t Hin => Hall fs o t (nth_error_In _ _ En) Hin)). lia.
    + destruct v; cbn [calls]; rewrite Er; lia.
Qed.

End D.
