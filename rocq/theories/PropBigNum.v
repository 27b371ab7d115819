(** * PropBigNum: BigInt and BigUint anywhere in a value keep their number (C84). *)
From Coq Require Import Arith ZArith.
From Verif Require Import Base Types Storage Serializer Serialize Spec ArithFacts MemFacts TypeFacts
  BigInt SerRoot SerProps Depth PropStorage PropSerialize WitnessSerialize.
Local Open Scope N_scope.

(** ** The numbers (specification)

    num_bigint: a BigUint is a Vec<usize> of digits, least significant first, the last
    one not 0; a BigInt is a sign and a BigUint, the sign being NoSign exactly for 0. *)
Section Numbers.
Context {P : Params}.

Fixpoint magnitude (ds : list N) : Z :=
  match ds with [] => 0 | d :: r => Z.of_N d + 2 ^ (8 * Z.of_N pW) * magnitude r end%Z.
Definition number (s : sign) (ds : list N) : Z :=
  match s with Plus => magnitude ds | Minus => - magnitude ds | NoSign => 0 end%Z.

(** At [a] in [m] there is a Vec<usize> (words in the order [vl]) holding these digits. *)
Definition stored_digits (vl : vlay) (m : mem) (a : N) (ds : list N) : Prop :=
  exists c p,
    read_word m (a + cap_off vl) = Some c /\ read_word m (a + ptr_off vl) = Some p /\
    read_word m (a + len_off vl) = Some (N.of_nat (length ds)) /\
    vec_ok usize_layout c p (N.of_nat (length ds)) /\
    (forall i d, nth_error ds i = Some d -> read_word m (p + N.of_nat i * pW) = Some d) /\
    last ds 1 <> 0.

(** At [a] in [m] there is a BigUint worth [z], a BigInt worth [z]. *)
Definition stored_uint (vl : vlay) (m : mem) (a : N) (z : Z) : Prop :=
  exists ds, stored_digits vl m a ds /\ z = magnitude ds.
Definition stored_int (bl : bigint_layout) (m : mem) (a : N) (z : Z) : Prop :=
  exists s ds,
    read_int m (a + sign_off bl) 1 = Some (bl_byte bl s) /\
    stored_digits (bl_vec bl) m (a + data_off bl) ds /\
    (s = NoSign <-> ds = []) /\ z = number s ds.

(** The three signs have three bytes. *)
Definition three_signs (bl : bigint_layout) : Prop :=
  bl_byte bl Plus <> bl_byte bl Minus /\ bl_byte bl Plus <> bl_byte bl NoSign /\
  bl_byte bl Minus <> bl_byte bl NoSign.
End Numbers.

(** ** Programs with big numbers *)
Section Program.
Context {P : Params}.

Inductive bignum := BigInt_ (bl : bigint_layout) | BigUint_ (vl : vlay).

(** bigint.rs:13-16 `BigUint` is just a wrapper around a `Vec<usize>`. *)
Definition biguint_ty (vl : vlay) : ty := TStruct (mkLayout (3 * pW) pW) [(0, TVec vl usize_ty)].
Definition bignum_ty (b : bignum) : ty :=
  match b with BigInt_ bl => bigint_ty bl | BigUint_ vl => biguint_ty vl end.

(** Which type names mean BigInt or BigUint. *)
Variable big : nat -> option bignum.

Definition declares (E : tenv) : Prop :=
  forall id b, big id = Some b -> E id = Some (bignum_ty b) /\
    match b with BigInt_ bl => three_signs bl | BigUint_ _ => True end.

Section Impl.
Variable k : kind.
Variable E : tenv.
Variable m : mem.

(** bigint.rs:17-54  the two impls; one call deeper, Vec<usize>::serialize_data *)
Definition ser_bignum (b : bignum) (fuel : nat) (a : N) : M zs unit :=
  match b with
  | BigInt_ bl => ser_bigint k E m bl fuel a
  | BigUint_ vl => ser_biguint k E m vl fuel a
  end.

(** <T as Serialize>::serialize_data as Serialize.ser_data has it (same lines), but that
    the types BigInt and BigUint have the impls of bigint.rs. *)
Fixpoint bn_data (fuel : nat) (t : ty) (a : N) : M zs unit :=
  match fuel with
  | O => fun _ => OutOfFuel
  | S fuel' =>
      match (match t with TNamed id => big id | _ => None end) with
      | Some b => ser_bignum b fuel' a
      | None =>
        match resolve E t with
        | TPrim _ _ => ret tt
        | TBox t' => ser_box k E m t' a (bn_data fuel')
        | TVec vl t' => ser_vec k E m vl t' a (bn_data fuel')
        | TString vl => ser_string k m vl a
        | TArray t' n => for_elems (N.to_nat n) a (size_of E t') (bn_data fuel' t')
        | TStruct _ fs => for_fields fs a (bn_data fuel')
        | TEnum _ d vss =>
            match read_discr m a d with
            | Some v =>
                match nth_error vss v with
                | Some fs => for_fields fs a (bn_data fuel')
                | None => ub
                end
            | None => ub
            end
        | TNamed _ => panics PAssert
        end
      end
  end.

(** serializer.rs:217-221, :260-269  serialize(&value) *)
Definition bn_serialize (fuel : nat) (t : ty) (a : N) : M zs N :=
  pos <- serialize_value_with k (slice_at m (layout_of E t) a 1) (bn_data fuel t a) ;;
  finalize k ;;;
  ret pos.

Hypothesis C : machine_ok.
Hypothesis HE : wf_env E.
Hypothesis HB : declares E.

(** A BigUint's impl does what the struct's would. *)
Lemma ser_biguint_is vl f a :
  eqm (ser_biguint k E m vl (S f) a) (ser_data k E m (S (S (S f))) (biguint_ty vl) a).
Proof.
  intros z.
  change (ser_data k E m (S (S (S f))) (biguint_ty vl) a z) with
    ((ser_vec k E m vl usize_ty (a + 0) (ser_data k E m (S f)) ;;; ret tt) z).
  rewrite N.add_0_r. unfold ser_biguint, bind.
  destruct (ser_vec k E m vl usize_ty a (ser_data k E m (S f)) z) as [[] z'| | | |]; reflexivity.
Qed.

Lemma more_fuel vl f g a :
  ser_biguint k E m vl (S f) a = ser_biguint k E m vl (S g) a.
Proof. reflexivity. Qed.
Lemma more_fuel_int bl f g a :
  ser_bigint k E m bl (S f) a = ser_bigint k E m bl (S g) a.
Proof. reflexivity. Qed.

Lemma ser_bignum_is id b H a v f :
  big id = Some b -> repr E H m (TNamed id) a v -> (vdepth v <= f)%nat ->
  eqm (ser_bignum b f a) (ser_data k E m (S f) (TNamed id) a).
Proof.
  intros Hb Hr Hf. destruct (HB id b Hb) as [Hd Hs].
  assert (Hv : repr E H m (bignum_ty b) a v).
  { inversion Hr as [| | | | | | |? d ? ? Hd']; subst. congruence. }
  rewrite (data_named k E m HE id _ _ _ Hd).
  assert (H2 : exists g, f = S (S g)).
  { assert (D : (2 <= vdepth v)%nat).
    { destruct b as [bl|vl]; cbn [bignum_ty] in Hv; unfold bigint_ty, biguint_ty in Hv;
        inversion Hv as [| | | | |? ? ? vs Hfs| |]; subst.
      - inversion Hfs as [|? ? ? ? v1 vs1 _ Hfs']; subst. inversion Hfs' as [|? ? ? ? v2 vs2 Hv2 _]; subst.
        inversion Hv2; subst. cbn [vdepth map list_max fold_right]. lia.
      - inversion Hfs as [|? ? ? ? v2 vs2 Hv2 _]; subst. inversion Hv2; subst.
        cbn [vdepth map list_max fold_right]. lia. }
    destruct f as [|[|g]]; [lia|lia|]. exists g. reflexivity. }
  destruct H2 as [g ->]. destruct b as [bl|vl]; cbn [ser_bignum bignum_ty].
  - rewrite (more_fuel_int bl (S g) g). intros z. apply (C33_serialize C). exact (proj1 Hs).
  - rewrite (more_fuel vl (S g) g). apply ser_biguint_is.
Qed.

Lemma bn_same H :
  (forall t a v, repr E H m t a v -> forall f, (vdepth v < f)%nat -> eqm (bn_data f t a) (ser_data k E m f t a)) /\
  (forall t a vs, repr_elems E H m t a vs -> forall f, (list_max (map vdepth vs) < f)%nat ->
     eqm (for_elems (length vs) a (size_of E t) (bn_data f t)) (for_elems (length vs) a (size_of E t) (ser_data k E m f t))) /\
  (forall fs a vs, repr_fields E H m fs a vs -> forall f, (list_max (map vdepth vs) < f)%nat ->
     eqm (for_fields fs a (bn_data f)) (for_fields fs a (ser_data k E m f))).
Proof.
  apply (repr_mut P E H m
    (fun t a v => forall f, (vdepth v < f)%nat -> eqm (bn_data f t a) (ser_data k E m f t a))
    (fun t a vs => forall f, (list_max (map vdepth vs) < f)%nat ->
       eqm (for_elems (length vs) a (size_of E t) (bn_data f t)) (for_elems (length vs) a (size_of E t) (ser_data k E m f t)))
    (fun fs a vs => forall f, (list_max (map vdepth vs) < f)%nat ->
       eqm (for_fields fs a (bn_data f)) (for_fields fs a (ser_data k E m f)))).
  - intros l ok a n H1 H2 [|f] Hf; [lia|]. apply eqm_refl.
  - intros t a p v H1 H2 H3 H4 IH [|f] Hf; [lia|]. cbn [vdepth resolve bn_data ser_data] in *. unfold ser_box.
    destruct (size_of E t =? 0); [apply eqm_refl|]. apply eqm_bind; [apply eqm_refl|intros pa].
    apply (eqm_load _ _ _ _ _ H1). unfold push_and_process.
    apply eqm_bind; [|intros; apply eqm_refl]. apply eqm_pps. apply IH. lia.
  - intros vl t a c p vs H1 H2 H3 H4 H5 H6 IH [|f] Hf; [lia|]. cbn [vdepth resolve bn_data ser_data] in *. unfold ser_vec.
    destruct (size_of E t =? 0); [apply eqm_refl|].
    apply (eqm_load _ _ _ _ _ H3). destruct (N.of_nat (length vs) =? 0); [apply eqm_refl|].
    apply eqm_bind; [apply eqm_refl|intros _]. apply eqm_bind; [apply eqm_refl|intros vo].
    apply eqm_bind; [apply eqm_refl|intros pa]. apply (eqm_load _ _ _ _ _ H2).
    apply eqm_bind; [|intros; apply eqm_refl]. apply eqm_pps. rewrite Nat2N.id. apply IH; lia.
  - intros vl a c p bs H1 H2 H3 H4 H5 H6 [|f] Hf; [lia|]. apply eqm_refl.
  - intros t n a vs -> H1 IH [|f] Hf; [lia|]. cbn [vdepth resolve bn_data ser_data] in *. rewrite Nat2N.id. apply IH; lia.
  - intros l fs a vs H1 IH [|f] Hf; [lia|]. cbn [vdepth resolve bn_data ser_data] in *. apply IH; lia.
  - intros l d vss a j fs vs H1 H2 H3 IH [|f] Hf; [lia|]. cbn [vdepth resolve bn_data ser_data] in *.
    rewrite H1, H2. apply IH; lia.
  - intros id d a v H1 H2 IH [|f] Hf; [lia|].
    destruct (big id) as [b|] eqn:Eb.
    + assert (Hr : repr E H m (TNamed id) a v) by (eapply R_named; eassumption).
      intros z. cbn [bn_data]. rewrite Eb. apply (ser_bignum_is id b H a v f Eb Hr). lia.
    + rewrite (data_named k E m HE id d _ _ H1). intros z. rewrite <- (IH (S f) Hf z).
      cbn [bn_data]. rewrite Eb. destruct (named_resolve E HE id d H1) as [R1 R2]. rewrite R1.
      destruct (HE id d H1) as [_ Hd]. destruct d; try contradiction; reflexivity.
  - intros t a f _. apply eqm_refl.
  - intros t a v vs H1 IH1 H2 IH2 f Hf. cbn [map list_max fold_right] in Hf. fold (list_max (map vdepth vs)) in Hf.
    cbn [length for_elems]. apply eqm_bind; [apply IH1; lia|intros _; apply IH2; lia].
  - intros a f _. apply eqm_refl.
  - intros off t fs a v vs H1 IH1 H2 IH2 f Hf. cbn [map list_max fold_right] in Hf. fold (list_max (map vdepth vs)) in Hf.
    cbn [for_fields]. apply eqm_bind; [apply IH1; lia|intros _; apply IH2; lia].
Qed.

End Impl.
End Program.

(** ** C84 *)
Section Stored.
Context {P : Params}.

Lemma usize_sz E : size_of E usize_ty = pW. Proof. reflexivity. Qed.

(** A digit list in memory is the value of type Vec<usize>. *)
Lemma elems_digits E m ds p :
  repr_elems E any_header m usize_ty p (map VPrim ds) <->
  (forall i d, nth_error ds i = Some d -> read_word m (p + N.of_nat i * pW) = Some d).
Proof.
  revert p. induction ds as [|d r IH]; intros p; cbn [map].
  - split; [intros _ [|i] d [=]|intros _; constructor].
  - split.
    + intros Hr. inversion Hr as [|? ? ? ? Hv He]; subst. inversion Hv; subst.
      rewrite usize_sz in He. intros [|i] d' Hn; cbn [nth_error] in Hn.
      * injection Hn as <-. change (N.of_nat 0) with 0. rewrite N.mul_0_l, N.add_0_r. assumption.
      * rewrite <- (proj1 (IH _) He i d' Hn). f_equal. lia.
    + intros Hd. constructor.
      * constructor; [|reflexivity]. specialize (Hd O d eq_refl). cbn in Hd. rewrite N.add_0_r in Hd. exact Hd.
      * rewrite usize_sz. apply IH. intros i d' Hn. rewrite <- (Hd (S i) d' Hn). f_equal. lia.
Qed.
Lemma elems_prims E m vs p : repr_elems E any_header m usize_ty p vs -> exists ds, vs = map VPrim ds.
Proof.
  revert p. induction vs as [|v r IH]; intros p Hr; [exists []; reflexivity|].
  inversion Hr as [|? ? ? ? Hv He]; subst. destruct (IH _ He) as [ds ->]. inversion Hv; subst.
  exists (n :: ds). reflexivity.
Qed.
Lemma vec_digits E m vl a ds :
  last ds 1 <> 0 ->
  repr E any_header m (TVec vl usize_ty) a (VVec (map VPrim ds)) <-> stored_digits vl m a ds.
Proof.
  intros HL. split.
  - intros Hr. inversion Hr as [| |? ? ? c p ? H1 H2 H3 H4 _ H6| | | | |]; subst. rewrite map_length in *.
    exists c, p. repeat split; try assumption; try apply H4. apply (proj1 (elems_digits E m ds p) H6).
  - intros (c & p & H1 & H2 & H3 & H4 & H5 & _).
    apply R_vec with (c := c) (p := p); rewrite ?map_length; try assumption; [exact Logic.I|].
    apply elems_digits. exact H5.
Qed.

(** The values that are big numbers. *)
Definition int_val (bl : bigint_layout) (s : sign) (ds : list N) : val :=
  VStruct [VPrim (bl_byte bl s); VVec (map VPrim ds)].
Definition uint_val (ds : list N) : val := VStruct [VVec (map VPrim ds)].

Lemma int_repr E m bl a s ds : last ds 1 <> 0 ->
  repr E any_header m (bigint_ty bl) a (int_val bl s ds) <->
  (read_int m (a + sign_off bl) 1 = Some (bl_byte bl s) /\ stored_digits (bl_vec bl) m (a + data_off bl) ds).
Proof.
  intros HL. rewrite <- (vec_digits E) by exact HL. split.
  - intros Hr. inversion Hr as [| | | | |? ? ? ? Hfs| |]; subst.
    inversion Hfs as [|? ? ? ? ? ? Hv1 Hfs']; subst. inversion Hfs' as [|? ? ? ? ? ? Hv2 _]; subst.
    split; [inversion Hv1; subst; assumption|exact Hv2].
  - intros [H1 H2]. constructor. constructor; [constructor; [exact H1|]|].
    + destruct s; rewrite N.eqb_refl; rewrite ?Bool.orb_true_r; reflexivity.
    + constructor; [exact H2|constructor].
Qed.
Lemma uint_repr E m vl a ds : last ds 1 <> 0 ->
  repr E any_header m (biguint_ty vl) a (uint_val ds) <-> stored_digits vl m a ds.
Proof.
  intros HL. rewrite <- (vec_digits E) by exact HL. split.
  - intros Hr. inversion Hr as [| | | | |? ? ? ? Hfs| |]; subst.
    inversion Hfs as [|? ? ? ? ? ? Hv1 _]; subst. rewrite N.add_0_r in Hv1. exact Hv1.
  - intros H1. constructor. constructor; [rewrite N.add_0_r; exact H1|constructor].
Qed.
Lemma digits_last vl m a ds : stored_digits vl m a ds -> last ds 1 <> 0.
Proof. intros (c & p & H). apply H. Qed.

End Stored.

Lemma nth_error_same {A} (l1 l2 : list A) : (forall i, nth_error l1 i = nth_error l2 i) -> l1 = l2.
Proof.
  revert l2. induction l1 as [|x l1 IH]; intros [|y l2] H; try reflexivity; try (specialize (H O); discriminate).
  pose proof (H O) as H0. injection H0 as ->. f_equal. apply IH. intros i. exact (H (S i)).
Qed.

(** What is stored at an address is one number at most. *)
Lemma digits_unique {P : Params} vl m a ds1 ds2 :
  stored_digits vl m a ds1 -> stored_digits vl m a ds2 -> ds1 = ds2.
Proof.
  intros (c1 & p1 & _ & P1 & L1 & _ & D1 & _) (c2 & p2 & _ & P2 & L2 & _ & D2 & _).
  assert (p1 = p2) by congruence. subst p2.
  assert (Hl : length ds1 = length ds2) by (apply Nat2N.inj; congruence).
  apply nth_error_same. intros i.
  destruct (nth_error ds1 i) as [d1|] eqn:E1; destruct (nth_error ds2 i) as [d2|] eqn:E2.
  - specialize (D1 i d1 E1). specialize (D2 i d2 E2). congruence.
  - apply nth_error_None in E2. assert (i < length ds1)%nat by (apply nth_error_Some; congruence). lia.
  - apply nth_error_None in E1. assert (i < length ds2)%nat by (apply nth_error_Some; congruence). lia.
  - reflexivity.
Qed.
Theorem C84_one_number {P : Params} : forall m a z1 z2,
  (forall bl, three_signs bl -> stored_int bl m a z1 -> stored_int bl m a z2 -> z1 = z2) /\
  (forall vl, stored_uint vl m a z1 -> stored_uint vl m a z2 -> z1 = z2).
Proof.
  intros m a z1 z2. split.
  - intros bl (T1 & T2 & T3) (s1 & ds1 & S1 & D1 & _ & ->) (s2 & ds2 & S2 & D2 & _ & ->).
    rewrite (digits_unique _ _ _ _ _ D1 D2). rewrite S1 in S2. injection S2 as S2.
    destruct s1, s2; congruence.
  - intros vl (ds1 & D1 & ->) (ds2 & D2 & ->). rewrite (digits_unique _ _ _ _ _ D1 D2). reflexivity.
Qed.

(** In any value of any type, BigInts and BigUints nested in any way: the impls of
    bigint.rs run exactly as the serialization of the fields of these types, so that
    every other theorem about serialize applies to types that contain them. *)
Theorem C84_same_run {P : Params} : forall big k E m t a v w fuel,
  cfg_ok -> wf_env E -> declares big E ->
  valid_input E any_header m t a v -> (vdepth v < fuel)%nat ->
  bn_serialize big k E m fuel t a (from_storage w) = serialize k E m fuel t a (from_storage w).
Proof.
  intros big k E m t a v w fuel [C _] HE HB (_ & _ & Hr) Hf.
  unfold bn_serialize, serialize, serialize_value.
  apply eqm_bind; [|intros; apply eqm_refl]. apply eqm_svw.
  apply (proj1 (bn_same big k E m C HE HB any_header) t a v Hr fuel Hf).
Qed.

(** So a value with big numbers in it, nested in any way, is in the output again. *)
Theorem C84_value {P : Params} : forall big k E m t a v w fuel p st,
  cfg_ok -> alloc_ok -> wf_env E -> declares big E -> storage_ok w ->
  valid_input E any_header m t a v -> (vdepth v < fuel)%nat ->
  bn_serialize big k E m fuel t a (from_storage w) = Ok p st ->
  let base := match k with Complete => s_ptr (sw_s (z_sw st)) | _ => 0 end in
  (k = PtrOffset \/ k = Complete -> repr E any_header (out_mem base (z_sw st)) t (base + p) v) /\
  (forall f, (vdepth v < f)%nat -> decode_root E (out_mem 0 (z_sw st)) f t p = Some v).
Proof.
  intros big k E m t a v w fuel p st HC HA HE HB Hw Hin Hf Hrun base.
  rewrite (C84_same_run big k E m t a v w fuel HC HE HB Hin Hf) in Hrun. split.
  - intros [-> | ->]; unfold base.
    + rewrite N.add_0_l. eapply C19_ptr_offset; eassumption.
    + eapply C21_complete; eassumption.
  - intros f Hv. apply (C18_pure_copy k E m t a v w fuel p st f HC HA HE Hw Hin Hf Hrun Hv).
Qed.

(** A BigInt serialized by a serializer that writes pointers is, in the output, a BigInt
    of the same number; a BigUint likewise. *)
Theorem C84_number {P : Params} : forall big k E m id b a z w fuel p st,
  cfg_ok -> alloc_ok -> wf_env E -> declares big E -> storage_ok w ->
  k = PtrOffset \/ k = Complete -> (2 < fuel)%nat ->
  big id = Some b -> a + size_of E (TNamed id) <= umod ->
  let stored m a := match b with BigInt_ bl => stored_int bl m a z | BigUint_ vl => stored_uint vl m a z end in
  stored m a ->
  bn_serialize big k E m fuel (TNamed id) a (from_storage w) = Ok p st ->
  let base := match k with Complete => s_ptr (sw_s (z_sw st)) | _ => 0 end in
  stored (out_mem base (z_sw st)) (base + p).
Proof.
  intros big k E m id b a z w fuel p st HC HA HE HB Hw Hk Hf Hb Ha stored Hs Hrun base.
  destruct (HB id b Hb) as [Hd H3].
  assert (Hwf : wf_ty E (TNamed id)). { destruct (HE id _ Hd) as [Hw' _]. econstructor; eassumption. }
  assert (Hgo : forall v, repr E any_header m (bignum_ty b) a v -> (vdepth v < fuel)%nat ->
            repr E any_header (out_mem base (z_sw st)) (bignum_ty b) (base + p) v).
  { intros v Hr Hv.
    assert (Hin : valid_input E any_header m (TNamed id) a v).
    { split; [exact Hwf|]. split; [exact Ha|]. eapply R_named; eassumption. }
    rewrite (C84_same_run big k E m (TNamed id) a v w fuel HC HE HB Hin Hv) in Hrun.
    assert (Ho : repr E any_header (out_mem base (z_sw st)) (TNamed id) (base + p) v).
    { destruct Hk as [-> | ->]; unfold base.
      - rewrite N.add_0_l. eapply C19_ptr_offset; eassumption.
      - eapply C21_complete; eassumption. }
    inversion Ho as [| | | | | | |? d ? ? Hd']; subst. congruence. }
  assert (Hdep : forall ds, (list_max (map vdepth (map VPrim ds)) = 0)%nat).
  { induction ds as [|d r IH]; [reflexivity|]. cbn [map list_max fold_right vdepth].
    fold (list_max (map vdepth (map VPrim r))). rewrite IH. reflexivity. }
  unfold stored in *. clear stored. destruct b as [bl|vl]; cbn [bignum_ty] in Hgo.
  - destruct Hs as (s & ds & S1 & D1 & Hn & Hz). pose proof (digits_last _ _ _ _ D1) as HL.
    exists s, ds.
    assert (Hr := proj2 (int_repr E m bl a s ds HL) (conj S1 D1)).
    apply Hgo in Hr.
    + destruct (proj1 (int_repr E _ bl _ s ds HL) Hr) as [S2 D2]. repeat split; try assumption; apply Hn.
    + unfold int_val. cbn [vdepth map list_max fold_right]. rewrite Hdep. lia.
  - destruct Hs as (ds & D1 & Hz). pose proof (digits_last _ _ _ _ D1) as HL.
    exists ds. assert (Hr := proj2 (uint_repr E m vl a ds HL) D1).
    apply Hgo in Hr.
    + split; [apply (proj1 (uint_repr E _ vl _ ds HL) Hr)|exact Hz].
    + unfold uint_val. cbn [vdepth map list_max fold_right]. rewrite Hdep. lia.
Qed.

(** A BigInt that is part of a larger value is worth what its digits and sign say, in
    whatever memory that value is (the input, or the output by C19 and C21). *)
Theorem C84_part {P : Params} : forall E big id b m a v,
  declares big E -> big id = Some b ->
  repr E any_header m (TNamed id) a v ->
  match b with
  | BigInt_ bl => exists s ds, v = int_val bl s ds /\
      (last ds 1 <> 0 -> (s = NoSign <-> ds = []) -> stored_int bl m a (number s ds))
  | BigUint_ vl => exists ds, v = uint_val ds /\
      (last ds 1 <> 0 -> stored_uint vl m a (magnitude ds))
  end.
Proof.
  intros E big id b m a v HB Hb Hr. destruct (HB id b Hb) as [Hd H3].
  assert (Hv : repr E any_header m (bignum_ty b) a v).
  { inversion Hr as [| | | | | | |? d ? ? Hd']; subst. congruence. }
  destruct b as [bl|vl]; cbn [bignum_ty] in Hv.
  - pose proof Hv as Hv0. inversion Hv as [| | | | |? ? ? vs Hfs| |]; subst.
    inversion Hfs as [|? ? ? ? v1 ? Hv1 Hfs']; subst. inversion Hfs' as [|? ? ? ? v2 ? Hv2 Hfs2]; subst.
    inversion Hfs2; subst. inversion Hv1 as [? ? ? n Hn Hok| | | | | | |]; subst.
    inversion Hv2 as [| |? ? ? c p ds' ? ? ? ? ? He| | | | |]; subst.
    destruct (elems_prims _ _ _ _ He) as [ds ->].
    assert (Hs : exists s, n = bl_byte bl s).
    { apply Bool.orb_true_iff in Hok. destruct Hok as [Hok|Hok]; [apply Bool.orb_true_iff in Hok; destruct Hok as [Hok|Hok]|];
        apply N.eqb_eq in Hok; eauto. }
    destruct Hs as [s ->]. exists s, ds. split; [reflexivity|]. intros HL HN.
    destruct (proj1 (int_repr E m bl a s ds HL) Hv0) as [S1 D1].
    exists s, ds. repeat split; try assumption; apply HN.
  - pose proof Hv as Hv0. inversion Hv as [| | | | |? ? ? vs Hfs| |]; subst.
    inversion Hfs as [|? ? ? ? v2 ? Hv2 Hfs2]; subst. inversion Hfs2; subst.
    inversion Hv2 as [| |? ? ? c p ds' ? ? ? ? ? He| | | | |]; subst.
    destruct (elems_prims _ _ _ _ He) as [ds ->].
    exists ds. split; [reflexivity|]. intros HL. exists ds. split; [|reflexivity].
    apply (proj1 (uint_repr E m vl a ds HL) Hv0).
Qed.

(** ** Every integer is a BigInt (so the theorems above are about all of them). *)
From Verif Require Import Build PropValues.

Lemma digits_exist {P : Params} : pW <> 0 -> forall n : N, exists ds,
  Forall (fun d => d < 256 ^ pW) ds /\ last ds 1 <> 0 /\ magnitude ds = Z.of_N n /\ (n = 0 <-> ds = []).
Proof.
  intros Hw n. induction n as [n IH] using (well_founded_induction N.lt_wf_0).
  destruct (N.eq_dec n 0) as [->|Hn].
  { exists []. repeat split; auto. cbn. lia. }
  assert (HB : 1 < 256 ^ pW) by (apply N.pow_gt_1; lia).
  assert (Hb0 : 256 ^ pW <> 0) by lia.
  destruct (IH (n / 256 ^ pW)) as (ds & F & L & M & Z0). { apply N.div_lt; lia. }
  exists (n mod 256 ^ pW :: ds). split; [constructor; [apply N.mod_lt; exact Hb0|exact F]|].
  pose proof (N.div_mod n (256 ^ pW) Hb0) as Hdm.
  split.
  { destruct ds as [|d r]; [|exact L]. cbn [last].
    assert (n / 256 ^ pW = 0) by (apply Z0; reflexivity). rewrite H in Hdm. lia. }
  split; [|split; [intros ->; contradiction|discriminate]].
  cbn [magnitude]. rewrite M.
  replace (2 ^ (8 * Z.of_N pW))%Z with (Z.of_N (256 ^ pW)).
  2:{ rewrite N2Z.inj_pow. change (Z.of_N 256) with (2 ^ 8)%Z. rewrite <- Z.pow_mul_r; [reflexivity|lia|lia]. }
  rewrite <- N2Z.inj_mul, <- N2Z.inj_add. f_equal. lia.
Qed.

Theorem C84_every_number {P : Params} : forall big E id bl z,
  cfg_ok -> wf_env E -> declares big E -> big id = Some (BigInt_ bl) ->
  (forall s, bl_byte bl s < 256) ->
  exists s ds, number s ds = z /\ last ds 1 <> 0 /\ (s = NoSign <-> ds = []) /\
    (N.of_nat (length ds) < umod ->
     MVA + end_pos 0 (allocations E (TNamed id) (int_val bl s ds)) <= imax + 1 ->
     exists m a, a + size_of E (TNamed id) <= umod /\ stored_int bl m a z).
Proof.
  intros big E id bl z C HE HB Hb Hby.
  assert (Hw : pW <> 0). { destruct C as [Hw _]. assert (H : pW = 4 \/ pW = 8) by exact Hw. lia. }
  destruct (digits_exist Hw (Z.abs_N z)) as (ds & F & L & M & Z0).
  set (s := match z with Z0 => NoSign | Zpos _ => Plus | Zneg _ => Minus end).
  assert (Hn : number s ds = z). { unfold s, number. rewrite M. destruct z; cbn [Z.abs_N Z.of_N]; lia. }
  assert (Hs : s = NoSign <-> ds = []).
  { rewrite <- Z0. unfold s. destruct z; cbn [Z.abs_N]; split; intros H; try reflexivity; discriminate. }
  clearbody s. exists s, ds. split; [exact Hn|]. split; [exact L|]. split; [exact Hs|].
  intros Hlen Hroom. destruct (HB id _ Hb) as [Hd _].
  assert (Hwf : wf_ty E (TNamed id)). { destruct (HE id _ Hd) as [Hw' _]. econstructor; eassumption. }
  assert (Ht : has_ty E (TNamed id) (int_val bl s ds)).
  { eapply HT_named; [exact Hd|]. constructor. constructor.
    - constructor; [destruct s; rewrite N.eqb_refl, ?Bool.orb_true_r; reflexivity|]. apply Hby.
    - constructor; [|constructor]. constructor; [rewrite map_length; exact Hlen|].
      clear - F. induction F as [|d r H F IH]; constructor; [|exact IH]. constructor; [reflexivity|exact H]. }
  pose proof (C71_every_value E (TNamed id) _ C HE Hwf Ht Hroom) as HV.
  destruct (build E 0 (TNamed id) (int_val bl s ds)) as [m a]. destruct HV as (_ & _ & _ & (_ & Ha & Hr) & _).
  exists m, a. split; [exact Ha|].
  assert (Hv : repr E any_header m (bigint_ty bl) a (int_val bl s ds)).
  { inversion Hr as [| | | | | | |? d ? ? Hd']; subst. cbn [bignum_ty] in Hd. congruence. }
  destruct (proj1 (int_repr E m bl a s ds L) Hv) as [S1 D1].
  exists s, ds. repeat split; try assumption; try apply Hs. symmetry. exact Hn.
Qed.

(** ** Witnesses: 64-bit words, BigInt with the sign last, BigUint with the pointer first. *)
Definition demo_bl : bigint_layout :=
  mkBL CPL false (fun s => match s with Minus => 0 | NoSign => 1 | Plus => 2 end).
Definition demo_big (id : nat) : option bignum :=
  match id with O => Some (BigInt_ demo_bl) | S O => Some (BigUint_ PCL) | _ => None end.
Definition demo_big_env : tenv := fun id => option_map (bignum_ty (P := demo)) (demo_big id).
(** -(2^64 + 5) *)
Definition demo_int : val := int_val demo_bl Minus [5; 1].
(** Vec<(BigInt, BigUint)> *)
Definition demo_pair : ty := TStruct (mkLayout 56 8) [(0, TNamed 0); (32, TNamed 1)].
Definition demo_nums : val :=
  VVec [VStruct [demo_int; uint_val [7; 0; 9]]; VStruct [int_val demo_bl NoSign []; uint_val []]].

Lemma demo_big_wf : wf_env (P := demo) demo_big_env /\ declares (P := demo) demo_big demo_big_env.
Proof.
  split.
  - intros [|[|id]] d; cbn; intros [= <-].
    + split; [|exact Logic.I]. apply (C33_supported (P := demo) demo_cfg). vm_compute. discriminate.
    + split; [|exact Logic.I]. constructor.
      * split; [exists 3; reflexivity|]. split; [exists 3; reflexivity|]. split; vm_compute; discriminate.
      * constructor; [vm_compute; discriminate|exists 0; reflexivity|vm_compute; discriminate|intros o u []|constructor].
      * intros o t [[= <- <-]|[]]. constructor; [|vm_compute; discriminate]. constructor.
        split; [exists 3; reflexivity|]. split; [exists 1; reflexivity|]. split; vm_compute; discriminate.
  - intros [|[|id]] b; cbn; intros [= <-]; (split; [reflexivity|]); [|exact Logic.I].
    repeat split; cbn; discriminate.
Qed.

Lemma demo_pair_wf : wf_ty (P := demo) demo_big_env (TVec CPL demo_pair).
Proof.
  constructor; [|vm_compute; discriminate]. constructor.
  - split; [exists 3; reflexivity|]. split; [exists 7; reflexivity|]. split; vm_compute; discriminate.
  - constructor; [vm_compute; discriminate|exists 0; reflexivity|vm_compute; discriminate| |].
    + intros o u [[= <- <-]|[]]. left. vm_compute. discriminate.
    + constructor; [vm_compute; discriminate|exists 4; reflexivity|vm_compute; discriminate|intros o u []|constructor].
  - intros o t [[= <- <-]|[[= <- <-]|[]]]; eapply W_named; try reflexivity.
Qed.
Lemma demo_int_ty s ds :
  (forall d, In d ds -> d < 2 ^ 64) -> (length ds < 8)%nat ->
  has_ty (P := demo) demo_big_env (TNamed 0) (int_val demo_bl s ds) /\
  has_ty (P := demo) demo_big_env (TNamed 1) (uint_val ds).
Proof.
  intros Hd Hl.
  assert (Hv : forall vl, has_ty (P := demo) demo_big_env (TVec vl (usize_ty (P := demo))) (VVec (map VPrim ds))).
  { intros vl. constructor. { rewrite map_length. change (umod (P := demo)) with (2 ^ 64). lia. }
    clear Hl. induction ds as [|d r IH]; cbn [map]; constructor.
    - constructor; [reflexivity|]. change (256 ^ l_size (usize_layout (P := demo))) with (2 ^ 64). apply Hd. left. reflexivity.
    - apply IH. intros x Hx. apply Hd. right. exact Hx. }
  split; (eapply HT_named; [reflexivity|]); constructor.
  - constructor; [constructor; destruct s; reflexivity|]. constructor; [apply Hv|constructor].
  - constructor; [apply Hv|constructor].
Qed.

Theorem C84_hypotheses :
  wf_env (P := demo) demo_big_env /\ declares (P := demo) demo_big demo_big_env /\
  (let (m, a) := build (P := demo) demo_big_env 0 (TVec CPL demo_pair) demo_nums in
   valid_input (P := demo) demo_big_env any_header m (TVec CPL demo_pair) a demo_nums) /\
  (let (m, a) := build (P := demo) demo_big_env 0 (TNamed 0) demo_int in
   stored_int (P := demo) demo_bl m a (- (2 ^ 64 + 5)) /\ a = 16).
Proof.
  destruct demo_big_wf as [W D]. split; [exact W|]. split; [exact D|]. split.
  - pose proof (C71_every_value (P := demo) demo_big_env (TVec CPL demo_pair) demo_nums demo_cfg W demo_pair_wf) as H.
    destruct (build (P := demo) demo_big_env 0 (TVec CPL demo_pair) demo_nums) as [m a].
    apply H; [|vm_compute; discriminate].
    assert (Hp : forall s ds ds', (forall d, In d ds \/ In d ds' -> d < 2 ^ 64) -> (length ds < 8)%nat -> (length ds' < 8)%nat ->
              has_ty (P := demo) demo_big_env demo_pair (VStruct [int_val demo_bl s ds; uint_val ds'])).
    { intros s ds ds' Hd L1 L2. constructor. constructor; [apply demo_int_ty; auto|].
      constructor; [apply (demo_int_ty NoSign); auto|constructor]. }
    apply HT_vec; [vm_compute; reflexivity|].
    apply AT_cons; [|apply AT_cons; [|apply AT_nil]]; (apply Hp; [|cbn; lia|cbn; lia]);
      cbn [In]; intros d Hd; repeat destruct Hd as [Hd|Hd]; try contradiction; subst; reflexivity.
  - assert (Ht : has_ty (P := demo) demo_big_env (TNamed 0) demo_int).
    { apply demo_int_ty; [|cbn; lia]. cbn [In]; intros d Hd; repeat destruct Hd as [Hd|Hd]; try contradiction; subst; reflexivity. }
    assert (Hw : wf_ty (P := demo) demo_big_env (TNamed 0)) by (eapply W_named; reflexivity).
    pose proof (C71_every_value (P := demo) demo_big_env (TNamed 0) demo_int demo_cfg W Hw Ht ltac:(vm_compute; discriminate)) as H.
    assert (Ha : snd (build (P := demo) demo_big_env 0 (TNamed 0) demo_int) = 16) by (vm_compute; reflexivity).
    destruct (build (P := demo) demo_big_env 0 (TNamed 0) demo_int) as [m a]. cbn [snd] in Ha.
    split; [|exact Ha]. destruct H as (_ & _ & _ & (_ & _ & Hr) & _).
    destruct (C84_part (P := demo) demo_big_env demo_big 0 _ m a demo_int D eq_refl Hr) as (s & ds & E & K).
    unfold demo_int, int_val in E. injection E as E1 E2.
    assert (s = Minus) by (destruct s; try discriminate; reflexivity). subst s.
    destruct ds as [|d0 [|d1 [|? ?]]]; try discriminate. injection E2 as <- <-.
    apply K; [discriminate|]. split; discriminate.
Qed.

(** It is serialized, and the number is there again. *)
Theorem C84_witness :
  let (m, a) := build (P := demo) demo_big_env 0 (TNamed 0) demo_int in
  match bn_serialize (P := demo) demo_big Complete demo_big_env m 3 (TNamed 0) a (from_storage demo_w) with
  | Ok p st => let base := s_ptr (sw_s (z_sw st)) in
               stored_int (P := demo) demo_bl (out_mem base (z_sw st)) (base + p) (- (2 ^ 64 + 5))
  | _ => False
  end /\
  let (m, a) := build (P := demo) demo_big_env 0 (TVec CPL demo_pair) demo_nums in
  match bn_serialize (P := demo) demo_big PureCopy demo_big_env m 6 (TVec CPL demo_pair) a (from_storage demo_w) with
  | Ok p st => decode_root (P := demo) demo_big_env (out_mem 0 (z_sw st)) 7 (TVec CPL demo_pair) p = Some demo_nums
  | _ => False
  end.
Proof.
  pose proof C84_hypotheses as (W & D & _ & H).
  assert (Hok : match bn_serialize (P := demo) demo_big Complete demo_big_env (fst (build (P := demo) demo_big_env 0 (TNamed 0) demo_int)) 3 (TNamed 0) (snd (build (P := demo) demo_big_env 0 (TNamed 0) demo_int)) (from_storage demo_w) with Ok _ _ => true | _ => false end = true) by (vm_compute; reflexivity).
  destruct (build (P := demo) demo_big_env 0 (TNamed 0) demo_int) as [m a]. cbn [fst snd] in Hok.
  split.
  - destruct H as [H ->].
    destruct (bn_serialize (P := demo) demo_big Complete demo_big_env m 3 (TNamed 0) 16 (from_storage demo_w)) as [p st| | | |] eqn:Hrun; try discriminate.
    apply (C84_number (P := demo) demo_big Complete demo_big_env m 0 (BigInt_ demo_bl) 16 _ demo_w 3 p st demo_cfg demo_alloc_ok W D demo_w_ok (or_intror eq_refl) ltac:(lia) eq_refl ltac:(vm_compute; discriminate) H Hrun).
  - vm_compute. reflexivity.
Qed.
