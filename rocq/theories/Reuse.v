(** * Reuse: one storage used again and again (a client program, and facts about it).

    A storage can be lent to a serializer (from_storage(&mut storage), serializers/*.rs: the
    BorrowMut parameter), be used directly, then lent to another one. *)
From Verif Require Import Base Types Storage Serializer Serialize Spec ArithFacts StorageFacts
  StorageHist MemFacts TypeFacts SerFacts SerMain SerValue SerRoot Moves StorageProps SerProps PropSerialize.
From Coq Require Import ZifyBool ZifyNat ZifyN.
Local Open Scope N_scope.

(** A direct call, or serialize with a new serializer of kind [k] of the [t] with value
    [v] at address [a] of [m]. *)
Inductive use :=
| UOp (o : sop)
| USer (k : kind) (m : mem) (fuel : nat) (t : ty) (a : N) (v : val).

(** What a successful serialize gave: kind, type, value, the position returned, and the
    address of the buffer at that time. *)
Record output := mkOut { o_kind : kind; o_ty : ty; o_val : val; o_pos : N; o_base : N }.

Section Reuse.
Context {P : Params}.
Variable E : tenv.

(** Every call under catch_unwind; the client goes on with the storage as it was left. *)
Fixpoint run_uses (us : list use) : M sw (list output) :=
  match us with
  | [] => ret []
  | UOp o :: us' => fun w =>
      match run_op o w with
      | Ok _ w' | Panic _ w' => run_uses us' w'
      | Abort => Abort
      | UB => UB
      | OutOfFuel => OutOfFuel
      end
  | USer k m fuel t a v :: us' => fun w =>
      match serialize k E m fuel t a (from_storage w) with
      | Ok p z => (outs <- run_uses us' ;; ret (mkOut k t v p (s_ptr (sw_s (z_sw z))) :: outs)) (z_sw z)
      | Panic _ z => run_uses us' (z_sw z)
      | Abort => Abort
      | UB => UB
      | OutOfFuel => OutOfFuel
      end
  end.

Definition use_ok (u : use) : Prop :=
  match u with
  | UOp o => op_valid o /\ o <> OClear
  | USer k m fuel t a v => valid_input E any_header m t a v /\ (vdepth v < fuel)%nat
  end.

(** The output can be read in the storage [w]: a PureCopy one in order, a PtrOffset one by
    following offsets; a Complete one by following pointers, as long as the buffer is
    where it was. *)
Definition readable (w : sw) (o : output) : Prop :=
  (o_kind o <> Complete ->
     forall f, (vdepth (o_val o) < f)%nat -> decode_root E (out_mem 0 w) f (o_ty o) (o_pos o) = Some (o_val o)) /\
  (o_kind o = PtrOffset -> repr E any_header (out_mem 0 w) (o_ty o) (o_pos o) (o_val o)) /\
  (o_kind o = Complete ->
     repr E any_header (out_mem (o_base o) w) (o_ty o) (o_base o + o_pos o) (o_val o)).

(** ** Facts *)

Lemma dec_elems_mono dec dec' sz : (forall p cur r, dec p cur = Some r -> dec' p cur = Some r) ->
  forall n p cur r, dec_elems dec sz n p cur = Some r -> dec_elems dec' sz n p cur = Some r.
Proof.
  intros Hd. induction n as [|n IH]; intros p cur r; cbn; auto.
  destruct (dec p cur) as [[v c]|] eqn:Ev; [|discriminate]. rewrite (Hd _ _ _ Ev).
  destruct (dec_elems dec sz n (p + sz) c) as [[vs c2]|] eqn:Es; [|discriminate].
  rewrite (IH _ _ _ Es). auto.
Qed.

Lemma dec_fields_mono dec dec' : (forall t p cur r, dec t p cur = Some r -> dec' t p cur = Some r) ->
  forall fs p cur r, dec_fields dec fs p cur = Some r -> dec_fields dec' fs p cur = Some r.
Proof.
  intros Hd. induction fs as [|[off t] fs IH]; intros p cur r; cbn; auto.
  destruct (dec t (p + off) cur) as [[v c]|] eqn:Ev; [|discriminate]. rewrite (Hd _ _ _ _ Ev).
  destruct (dec_fields dec fs p c) as [[vs c2]|] eqn:Es; [|discriminate].
  rewrite (IH _ _ _ Es). auto.
Qed.

Lemma omap_mono {A B} (f : A -> B) o o' r : (forall x, o = Some x -> o' = Some x) ->
  omap f o = Some r -> omap f o' = Some r.
Proof. intros H. destruct o as [x|]; [|discriminate]. rewrite (H x eq_refl). auto. Qed.

Lemma decode_mono m m' : sub_mem m m' -> forall f t p cur r,
  decode E m f t p cur = Some r -> decode E m' f t p cur = Some r.
Proof.
  intros Hs. induction f as [|f IH]; intros t p cur r; cbn [decode]; [discriminate|].
  assert (He : forall t sz n p cur r, dec_elems (decode E m f t) sz n p cur = Some r ->
                 dec_elems (decode E m' f t) sz n p cur = Some r).
  { intros t0 sz n p0 cur0 r0. apply dec_elems_mono. intros; apply IH; assumption. }
  assert (Hf : forall fs p cur r, dec_fields (decode E m f) fs p cur = Some r ->
                 dec_fields (decode E m' f) fs p cur = Some r).
  { intros. eapply dec_fields_mono; [|eassumption]. intros; apply IH; assumption. }
  destruct (resolve E t) as [l ok|t'|vl t'|vl|t' n|l fs|l d vss|id].
  - destruct (read_int m p (l_size l)) as [x|] eqn:Ex; [|discriminate].
    rewrite (read_int_mono _ _ _ _ _ Hs Ex). auto.
  - destruct (size_of E t' =? 0); apply omap_mono; intros x; apply IH.
  - unfold read_word. destruct (read_int m (p + len_off vl) pW) as [x|] eqn:Ex; [|discriminate].
    rewrite (read_int_mono _ _ _ _ _ Hs Ex).
    destruct (_ || _); apply omap_mono; intros y; apply He.
  - unfold read_word. destruct (read_int m (p + len_off vl) pW) as [x|] eqn:Ex; [|discriminate].
    rewrite (read_int_mono _ _ _ _ _ Hs Ex). destruct (x =? 0); auto.
    destruct (read_bytes m (push_start cur u8_layout) (N.to_nat x)) as [bs|] eqn:Eb; [|discriminate].
    rewrite (read_bytes_mono _ _ Hs _ _ _ Eb). auto.
  - apply omap_mono. intros y; apply He.
  - apply omap_mono. intros y; apply Hf.
  - destruct (read_discr m p d) as [k|] eqn:Ek; [|discriminate].
    rewrite (read_discr_mono _ _ _ _ _ Hs Ek).
    destruct (nth_error vss k) as [fs|]; [|discriminate]. apply omap_mono. intros y; apply Hf.
  - discriminate.
Qed.

Lemma kept_sub base w w' : kept w w' -> sub_mem (out_mem base w) (out_mem base w').
Proof.
  intros [Hp Hb]. apply out_mem_sub. intros i Hi. unfold out_mem.
  destruct (N.leb_spec base (base + i)); [|lia].
  destruct (N.ltb_spec (base + i) (base + s_pos (sw_s w'))); [|lia]. cbn [andb].
  rewrite <- Hb by exact Hi. f_equal. lia.
Qed.

Lemma kept_trans w1 w2 w3 : kept w1 w2 -> kept w2 w3 -> kept w1 w3.
Proof.
  intros [A B] [A' B']. split; [lia|]. intros i Hi. rewrite B' by lia. apply B. exact Hi.
Qed.

Lemma readable_kept w w' o : kept w w' -> readable w o -> readable w' o.
Proof.
  intros K (R1 & R2 & R3). split; [|split].
  - intros Hk f Hf. specialize (R1 Hk f Hf). unfold decode_root in *.
    destruct (decode E (out_mem 0 w) f (o_ty o) (o_pos o) _) as [[v c]|] eqn:Ed; [|discriminate].
    rewrite (decode_mono _ _ (kept_sub 0 w w' K) _ _ _ _ _ Ed). exact R1.
  - intros Hk. eapply repr_mono; [apply kept_sub; exact K|auto].
  - intros Hk. eapply repr_mono; [apply kept_sub; exact K|auto].
Qed.

Lemma run_uses_spec : cfg_ok -> alloc_ok -> wf_env E -> forall us w,
  storage_ok w -> Forall use_ok us ->
  match run_uses us w with
  | Ok outs w' => storage_ok w' /\ kept w w' /\ Forall (readable w') outs
  | Abort => alloc_failed
  | UB => exists o w1, In (UOp o) us /\ storage_ok w1 /\ empty_slice_push w1 o
  | Panic _ _ | OutOfFuel => False
  end.
Proof.
  intros C HA HE. induction us as [|u us IH]; intros w Hw Hus.
  { cbn. split; [exact Hw|]. split; [apply kept_refl|constructor]. }
  inversion Hus as [|? ? Hu Hus']; subst. clear Hus.
  assert (IH' : forall w1, storage_ok w1 -> kept w w1 ->
    match run_uses us w1 with
    | Ok outs w' => storage_ok w' /\ kept w w' /\ Forall (readable w') outs
    | Abort => alloc_failed
    | UB => exists o w1, In (UOp o) (u :: us) /\ storage_ok w1 /\ empty_slice_push w1 o
    | Panic _ _ | OutOfFuel => False
    end).
  { intros w1 Hw1 K. specialize (IH w1 Hw1 Hus'). destruct (run_uses us w1) as [outs w2|? ?| | |]; auto.
    - destruct IH as (A & B & D). ands; auto. eapply kept_trans; eassumption.
    - destruct IH as (o & w2 & A & B). exists o, w2. split; [right; exact A|exact B]. }
  destruct u as [o|k m fuel t a v]; cbn [run_uses].
  - destruct Hu as [Hv Hc]. pose proof (run_op_spec C HA w o Hw Hv) as S.
    pose proof (run_op_keep C HA w o Hw Hv Hc) as K.
    destruct (run_op o w) as [r w1|e w1| | |]; auto.
    + apply IH'; [apply S|exact K].
    + apply IH'; [apply S|exact K].
    + exists o, w. split; [left; reflexivity|auto].
  - destruct Hu as [Hv Hf].
    pose proof (ser_facts C HA E HE k m any_header any_header (transfers_any k) fuel t a v w Hw Hv Hf) as H.
    destruct (serialize k E m fuel t a (from_storage w)) as [p z|e z| | |]; auto; try contradiction.
    + destruct H as (H1 & H2 & H3 & H4 & H5 & H6 & H7 & H8).
      assert (K : kept w (z_sw z)).
      { split; [rewrite H2; apply (end_pos_ge C)|exact H6]. }
      assert (R : readable (z_sw z) (mkOut k t v p (s_ptr (sw_s (z_sw z))))).
      { destruct H8 as [R1 R2]. unfold readable. cbn [o_kind o_ty o_val o_pos o_base]. ands.
        - intros Hk f Hf'. apply R2; auto.
        - intros ->. apply R1. reflexivity.
        - intros ->. apply R1. reflexivity. }
      specialize (IH (z_sw z) H4 Hus'). specialize (IH' (z_sw z) H4 K). unfold bind.
      destruct (run_uses us (z_sw z)) as [outs w2|? ?| | |]; auto.
      cbn [ret]. destruct IH' as (A & B & D). destruct IH as (_ & K2 & _). ands; auto.
      constructor; [|exact D]. exact (readable_kept _ _ _ K2 R).
    + destruct H as (H1 & H2 & H3 & H4 & H5 & H6). apply IH'; [exact H3|split; assumption].
Qed.

End Reuse.
