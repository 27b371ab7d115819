(** * PropValues: which values the theorems about serializing are about (C71), and that an output
    determines its value (C72). *)
From Verif Require Import Base Types Storage Serializer Serialize Spec ArithFacts StorageFacts MemFacts TypeFacts
  SerFacts SerValue SerRoot SerProps PropStorage PropSerialize Demo WitnessSerialize PropEncode Build.
From Coq Require Import Arith ZifyBool ZifyNat ZifyN.
Local Open Scope N_scope.

(** Memory whose initialised cells are bytes. *)
Definition bytes_only (m : mem) : Prop := forall x b, m x = Some b -> b < 256.

Section Facts.
Context {P : Params}.

(** ** Bytes *)
Lemma le_bytes_small n : forall x b, In b (le_bytes n x) -> b < 256.
Proof.
  induction n as [|n IH]; intros x b Hin; [destruct Hin|]. cbn [le_bytes] in Hin. destruct Hin as [<-|Hin]; [|eauto].
  apply N.mod_lt. discriminate.
Qed.
Lemma to_bytes_small n x b : In b (to_bytes n x) -> b < 256.
Proof. unfold to_bytes. destruct pBE; intros H; [apply in_rev in H|]; eapply le_bytes_small; exact H. Qed.

Lemma blit_bytes m a n src : bytes_only m -> (forall i b, src i = Some b -> b < 256) -> bytes_only (blit m a n src).
Proof. intros H1 H2 x b. unfold blit. destruct ((a <=? x) && (x <? a + n)); [apply H2|apply H1]. Qed.
Lemma src_bytes l : (forall b, In b l -> b < 256) -> forall i b, bytes_src l i = Some b -> b < 256.
Proof. intros H i b Hi. apply H. eapply nth_error_In. exact Hi. Qed.
Lemma put_word_bytes m a x : bytes_only m -> bytes_only (put_word m a x).
Proof. intros H. apply blit_bytes; [exact H|]. apply src_bytes. apply to_bytes_small. Qed.
Lemma put_int_bytes m a sz x : bytes_only m -> bytes_only (put_int m a sz x).
Proof. intros H. apply blit_bytes; [exact H|]. apply src_bytes. apply to_bytes_small. Qed.

Lemma put_bytes_only E spare :
  (forall t v, has_ty E t v -> wf_env E -> forall a h, bytes_only (fst h) -> bytes_only (fst (put E spare v t a h))) /\
  (forall t vs, all_ty E t vs -> wf_env E -> forall a h, bytes_only (fst h) -> bytes_only (fst (put_elems E spare vs t a h))) /\
  (forall fs vs, fields_ty E fs vs -> wf_env E -> forall a h, bytes_only (fst h) -> bytes_only (fst (put_fields E spare vs fs a h))).
Proof.
  apply (has_ty_mut E
    (fun t v => wf_env E -> forall a h, bytes_only (fst h) -> bytes_only (fst (put E spare v t a h)))
    (fun t vs => wf_env E -> forall a h, bytes_only (fst h) -> bytes_only (fst (put_elems E spare vs t a h)))
    (fun fs vs => wf_env E -> forall a h, bytes_only (fst h) -> bytes_only (fst (put_fields E spare vs fs a h)))).
  - intros l ok n _ _ _ a [m nx] Hm. rewrite put_eq. cbn [resolve fst]. apply put_int_bytes. exact Hm.
  - intros t v _ IH HE a [m nx] Hm. rewrite put_eq. cbn [resolve].
    destruct (grab (layout_of E t) 1 nx) as [p nx']. apply IH; [exact HE|]. apply put_word_bytes. exact Hm.
  - intros vl t vs _ _ IH HE a [m nx] Hm. rewrite put_eq. cbn [resolve]. cbn zeta.
    destruct (grab _ _ nx) as [p nx']. apply IH; [exact HE|]. cbn [fst]. repeat apply put_word_bytes. exact Hm.
  - intros vl bs Hbs HE a [m nx] Hm. rewrite put_eq. cbn [resolve]. cbn zeta.
    destruct (grab _ _ nx) as [p nx']. cbn [fst]. apply blit_bytes; [repeat apply put_word_bytes; exact Hm|].
    apply src_bytes. apply Forall_forall. exact Hbs.
  - intros t n vs _ _ IH HE a [m nx] Hm. rewrite put_eq. cbn [resolve]. apply IH; assumption.
  - intros l fs vs _ IH HE a [m nx] Hm. rewrite put_eq. cbn [resolve]. apply IH; assumption.
  - intros l d vss k fs vs Hk _ _ IH HE a [m nx] Hm. rewrite put_eq. cbn [resolve]. rewrite Hk.
    apply IH; [exact HE|]. cbn [fst]. unfold put_discr. destruct (discr_code d k) as [[[off sz] n]|]; [|exact Hm].
    apply put_int_bytes. exact Hm.
  - intros id d v Hd _ IH HE a h Hm. rewrite (put_resolved E spare v (TNamed id) d a h).
    + apply IH; assumption.
    + cbn. rewrite Hd. reflexivity.
    + destruct (HE id d Hd) as [_ Hs]. destruct d; try contradiction; reflexivity.
  - intros t HE a h Hm. exact Hm.
  - intros t v vs _ IH1 _ IH2 HE a h Hm. cbn [put_elems]. apply IH2; [exact HE|]. apply IH1; assumption.
  - intros HE a h Hm. exact Hm.
  - intros off t fs v vs _ IH1 _ IH2 HE a h Hm. cbn [put_fields]. apply IH2; [exact HE|]. apply IH1; assumption.
Qed.

(** ** What memory holds is a value of the type *)
Lemma le_num_small l : (forall b, In b l -> b < 256) -> le_num l < 256 ^ N.of_nat (length l).
Proof.
  induction l as [|b l IH]; intros H; [reflexivity|]. cbn [le_num length].
  rewrite Nat2N.inj_succ, N.pow_succ_r'. pose proof (H b (or_introl eq_refl)).
  specialize (IH (fun x Hx => H x (or_intror Hx))). lia.
Qed.
Lemma read_bytes_small m n : bytes_only m -> forall a l, read_bytes m a n = Some l -> Forall (fun b => b < 256) l.
Proof.
  intros Hm. induction n as [|n IH]; intros a l H; cbn [read_bytes] in H; [inversion H; constructor|].
  destruct (m a) as [b|] eqn:Hb; [|discriminate]. destruct (read_bytes m (a + 1) n) as [bs|] eqn:Hr; [|discriminate].
  inversion H; subst. constructor; [eapply Hm; exact Hb|eauto].
Qed.
Lemma read_int_small m a sz n : bytes_only m -> read_int m a sz = Some n -> n < 256 ^ sz.
Proof.
  intros Hm H. unfold read_int in H. destruct (read_bytes m a (N.to_nat sz)) as [l|] eqn:Hr; [|discriminate].
  inversion H; subst. pose proof (read_bytes_small m _ Hm _ _ Hr) as Hs.
  destruct (read_bytes_cells _ _ _ _ Hr) as [Hl _]. rewrite Forall_forall in Hs.
  unfold of_bytes. replace (256 ^ sz) with (256 ^ N.of_nat (length l)) by (f_equal; lia).
  destruct pBE.
  - rewrite <- rev_length. apply le_num_small. intros b Hb. apply Hs. apply in_rev. exact Hb.
  - apply le_num_small. exact Hs.
Qed.

Lemma repr_has_ty E H m : bytes_only m ->
  (forall t a v, repr E H m t a v -> has_ty E t v) /\
  (forall t a vs, repr_elems E H m t a vs -> all_ty E t vs) /\
  (forall fs a vs, repr_fields E H m fs a vs -> fields_ty E fs vs).
Proof.
  intros Hm. apply (repr_mut P E H m
    (fun t a v => has_ty E t v) (fun t a vs => all_ty E t vs) (fun fs a vs => fields_ty E fs vs)); intros.
  - apply HT_prim; [assumption|]. eapply read_int_small; eassumption.
  - apply HT_box. assumption.
  - apply HT_vec; [|assumption].
    match goal with Hl : read_word m (_ + len_off vl) = _ |- _ => apply (read_int_small _ _ _ _ Hm) in Hl; rename Hl into HL end.
    rewrite umod_256, N2Nat.id. exact HL.
  - apply HT_string. eapply read_bytes_small; eassumption.
  - apply HT_array; assumption.
  - apply HT_struct; assumption.
  - apply HT_enum with fs; try assumption.
    match goal with Hd : read_discr m a d = _ |- _ => rename Hd into HD end.
    destruct d as [k'|off sz vals|off sz df ns]; cbn [read_discr has_variant] in *.
    + congruence.
    + destruct (read_int m (a + off) sz) as [n|] eqn:Hn; [|discriminate]. exists n.
      split; [eapply read_int_small; eassumption|exact HD].
    + destruct (read_int m (a + off) sz) as [n|] eqn:Hn; [|discriminate].
      destruct (assoc n ns) as [j|] eqn:Ha; inversion HD; subst; [right|left; reflexivity].
      exists n. split; [eapply read_int_small; eassumption|exact Ha].
  - apply HT_named with d; assumption.
  - constructor.
  - constructor; assumption.
  - constructor.
  - constructor; assumption.
Qed.

(** ** The layout rule: later starts end later; moving by MAX_VALUE_ALIGNMENT *)
Lemma push_end_mono (C : cfg_ok (P := P)) p q l n : pow2 (l_align l) -> p <= q -> push_end (P := P) p l n <= push_end q l n.
Proof.
  intros Hl Hpq. pose proof (c_VA_pos C). pose proof (pow2_pos _ Hl). unfold push_end, push_start.
  apply round_up_mono; [lia|]. apply N.add_le_mono_r. apply round_up_mono; [lia|exact Hpq].
Qed.
Lemma end_pos_mono (C : cfg_ok (P := P)) ps : Forall (fun x => good_layout (fst x)) ps -> forall p q, p <= q -> end_pos p ps <= end_pos q ps.
Proof.
  induction 1 as [|[l n] ps Hl Hps IH]; intros p q Hpq; [exact Hpq|]. cbn [end_pos]. apply IH.
  apply (push_end_mono C); [apply Hl|exact Hpq].
Qed.
Lemma round_up_shift p a s : 0 < a -> (a | s) -> round_up (p + s) a = round_up p a + s.
Proof.
  intros Ha [k ->]. unfold round_up. replace (p + k * a + a - 1) with (p + a - 1 + k * a) by lia.
  rewrite N.div_add by lia. lia.
Qed.
Lemma push_start_shift (C : cfg_ok (P := P)) p l s : good_layout (P := P) l -> (MVA | s) -> push_start (p + s) l = push_start p l + s.
Proof.
  intros (Hl & _ & _ & Hm) Hs. pose proof (c_VA_pos C). unfold push_start. apply round_up_shift; [lia|].
  eapply divide_trans; [|exact Hs].
  apply pow2_divide; [apply pow2_max; [exact Hl|apply (c_VA C)]|apply (c_MVA C)|pose proof (c_VA_MVA C); lia].
Qed.
Lemma push_end_shift (C : cfg_ok (P := P)) p l n s : good_layout (P := P) l -> (MVA | s) -> push_end (p + s) l n = push_end p l n + s.
Proof.
  intros Hl Hs. pose proof (c_VA_pos C). unfold push_end. rewrite (push_start_shift C) by assumption.
  replace (push_start p l + s + l_size l * n) with (push_start p l + l_size l * n + s) by lia.
  apply round_up_shift; [lia|]. eapply divide_trans; [apply (c_VA_dvd_MVA C)|exact Hs].
Qed.
Lemma end_pos_shift (C : cfg_ok (P := P)) s ps : Forall (fun x => good_layout (P := P) (fst x)) ps -> (MVA | s) ->
  forall p, end_pos (p + s) ps = end_pos p ps + s.
Proof.
  intros Hps Hs. induction Hps as [|[l n] ps Hl Hps IH]; intros p; [reflexivity|]. cbn [end_pos].
  rewrite (push_end_shift C) by assumption. apply IH.
Qed.
Lemma allocations_good (C : cfg_ok (P := P)) E t v : wf_env E -> wf_ty E t -> Forall (fun x => good_layout (P := P) (fst x)) (allocations E t v).
Proof.
  intros HE Hw. unfold allocations. apply Forall_app. split; [|apply (owned_good C); assumption].
  destruct (size_of E t =? 0); constructor; [|constructor]. exact (wf_good C E HE t Hw).
Qed.
End Facts.

(** ** C71: which values the theorems are about *)

(** A program making the value [v] of type [t] in a fresh memory; the memory, and the
    address of the value. *)
Definition build {P : Params} (E : tenv) (spare : N) (t : ty) (v : val) : mem * N :=
  let '(a, nx) := grab (layout_of E t) 1 MVA in
  (fst (put E spare v t a (no_mem, nx)), a).

Lemma room_ok {P : Params} (C : cfg_ok (P := P)) : MAXC + MVA <= imax + 1.
Proof.
  pose proof (c_legal C) as [_ H]. pose proof (c_SA_pos C) as HS. pose proof (c_MVA_SA C) as HM.
  pose proof (round_up_ge MAXC SA ltac:(lia)) as Hge.
  assert (Hd : (SA | imax + 1)).
  { apply pow2_divide; [apply (c_SA C)| |pose proof (c_SA_lt_imax C); lia].
    destruct (proj1 C) as [Hp|Hp]; unfold imax; unfold umod; rewrite Hp; [exists 31|exists 63]; reflexivity. }
  assert (Hr : (SA | round_up MAXC SA)) by (exists ((MAXC + SA - 1) / SA); reflexivity).
  destruct Hd as [x Hx]. destruct Hr as [y Hy]. rewrite Hy in *. 
  assert (y < x) by nia. nia.
Qed.

Lemma grab_root {P : Params} E t v : cfg_ok (P := P) -> wf_env (P := P) E -> wf_ty (P := P) E t ->
  let '(a, nx) := grab (layout_of E t) 1 MVA in
  0 < nx /\ below a (size_of E t) nx /\ (align_of E t | a) /\ 0 < a /\ (size_of E t = 0 -> a <= MVA) /\
  end_pos (P := P) nx (owned E t v) = end_pos MVA (allocations E t v).
Proof.
  intros C HE Hw. pose proof (wf_good C E HE t Hw) as Hg. pose proof (c_MVA_pos C).
  pose proof (pow2_pos _ (proj1 Hg)) as Hp.
  unfold grab, allocations. fold (size_of E t). rewrite N.mul_1_r. fold (align_of E t).
  destruct (N.eqb_spec (size_of E t) 0) as [Hz|Hz].
  - ands; auto; [left; exact Hz|apply N.divide_refl|intros _; apply Hg].
  - pose proof (push_start_ge C MVA (layout_of E t) (proj1 Hg)).
    pose proof (c_VA_pos C). 
    assert (Hle : push_start MVA (layout_of E t) + size_of E t <= push_end MVA (layout_of E t) 1).
    { unfold push_end. rewrite N.mul_1_r. apply round_up_ge. lia. }
    ands; try lia; [right; exact Hle|apply (push_start_align C); exact (proj1 Hg)|reflexivity].
Qed.

(** The values the theorems about serializing are about (those for which there is an
    input) are the values of the type; and the value can be made with all its Vecs and
    Strings shrunk to fit, so no theorem asks for more than some program provides. *)
Theorem C71_every_value {P : Params} : forall E t v,
  cfg_ok -> wf_env E -> wf_ty E t -> has_ty E t v ->
  MVA + end_pos 0 (allocations E t v) <= imax + 1 ->
  let (m, a) := build E 0 t v in
  bytes_only m /\ a <> 0 /\ (align_of E t | a) /\
  valid_input E any_header m t a v /\ valid_input E canonical m t a v /\ valid_input E tight m t a v /\
  valid_input E forward m t a v.
Proof.
  intros E t v C HE Hw Ht Hroom. unfold build.
  pose proof (grab_root E t v C HE Hw) as Hg. destruct (grab (layout_of E t) 1 MVA) as [a nx].
  destruct Hg as (G1 & G2 & G3 & G4 & G6 & G5).
  assert (Hend : snd (put E 0 v t a (no_mem, nx)) <= imax + 1).
  { rewrite (proj1 (put_end_pos E C HE) t v Ht Hw). cbn [snd]. rewrite G5.
    pose proof (end_pos_shift C MVA _ (allocations_good C E t v HE Hw) (N.divide_refl _) 0) as Hs.
    rewrite N.add_0_l in Hs. rewrite Hs. lia. }
  pose proof (proj1 (put_repr E 0 C HE) t v Ht Hw a (no_mem, nx) G1 G2 Hend) as (P1 & P2 & P3).
  assert (HR : repr E (made 0) (fst (put E 0 v t a (no_mem, nx))) t a v).
  { apply P3. intros x _. reflexivity. }
  assert (Hbnd : a + size_of E t <= umod).
  { pose proof (imax_lt (proj1 C)). destruct G2 as [Hz|Hle].
    - pose proof (G6 Hz). pose proof (c_MVA_SA C). pose proof (c_SA_lt_imax C). lia.
    - cbn [snd] in *. lia. }
  pose proof (fun H' Hi => conj Hw (conj Hbnd (repr_header E (made 0) H' _ Hi t a v HR))) as HV.
  ands.
  - apply (proj1 (put_bytes_only E 0) t v Ht HE). intros x b Hx. discriminate.
  - lia.
  - exact G3.
  - apply HV. intros; exact Logic.I.
  - apply HV. intros q l c p n Hm Hl Hc. apply Hm; assumption.
  - apply HV. intros q l c p n Hm Hl. destruct (Hm Hl) as (M1 & M2 & M3). split; [lia|]. intros Hn. apply M2. lia.
  - apply HV. intros q l c p n Hm Hl Hn. apply Hm; assumption.
Qed.

(** Conversely what memory holds is a value of the type. *)
Theorem C71_only {P : Params} : forall E H m t a v,
  bytes_only m -> valid_input E H m t a v -> has_ty E t v.
Proof. intros E H m t a v Hm (_ & _ & HR). exact (proj1 (repr_has_ty E H m Hm) t a v HR). Qed.

(** So every value of every supported type that fits in the storage can be serialized by
    every serializer. *)
Theorem C71_serialize {P : Params} : forall k E t v w,
  cfg_ok -> alloc_ok -> alloc_succeeds -> wf_env E -> wf_ty E t -> storage_ok w ->
  has_ty E t v -> end_pos (s_pos (sw_s w)) (allocations E t v) <= MAXC ->
  let (m, a) := build E 0 t v in
  exists p z, serialize k E m (S (vdepth v)) t a (from_storage w) = Ok p z.
Proof.
  intros k E t v w C HA HS HE Hw Hok Ht Hfit.
  assert (Hroom : MVA + end_pos 0 (allocations E t v) <= imax + 1).
  { pose proof (end_pos_mono C _ (allocations_good C E t v HE Hw) 0 (s_pos (sw_s w)) ltac:(lia)).
    pose proof (room_ok C). lia. }
  pose proof (C71_every_value E t v C HE Hw Ht Hroom) as HV. destruct (build E 0 t v) as [m a].
  destruct HV as (_ & _ & _ & HV & _).
  apply (C28_succeeds_iff_fits k E m t a v w (S (vdepth v)) C HA HS HE Hok HV); [lia|exact Hfit].
Qed.

(** ** C72: an output determines its values *)

Lemma decode_ext {P : Params} E (M M' : mem) : (forall i, M i = M' i) ->
  forall f t p cur, decode E M f t p cur = decode E M' f t p cur.
Proof.
  intros HM. assert (HM0 : forall i, M i = M' (0 + i)) by (intros i; rewrite N.add_0_l; apply HM).
  induction f as [|f IH]; intros t p cur; [reflexivity|].
  assert (HE : forall t sz n q c, dec_elems (decode E M f t) sz n q c = dec_elems (decode E M' f t) sz n q c).
  { intros u sz n. induction n as [|n IHn]; intros q c; [reflexivity|]. cbn [dec_elems]. rewrite IH.
    destruct (decode E M' f u q c) as [[v c1]|]; [|reflexivity]. rewrite IHn. reflexivity. }
  assert (HF : forall fs q c, dec_fields (decode E M f) fs q c = dec_fields (decode E M' f) fs q c).
  { intros fs. induction fs as [|[off u] fs IHf]; intros q c; [reflexivity|]. cbn [dec_fields]. rewrite IH.
    destruct (decode E M' f u (q + off) c) as [[v c1]|]; [|reflexivity]. rewrite IHf. reflexivity. }
  cbn [decode]. destruct (resolve E t) as [l ok|t'|vl t'|vl|t' n|l fs|l d vss|id].
  - rewrite (read_int_at M M' 0 HM0), N.add_0_l. reflexivity.
  - rewrite !IH. reflexivity.
  - rewrite (read_word_at M M' 0 HM0), N.add_0_l. destruct (read_word M' (p + len_off vl)) as [n|]; [|reflexivity].
    rewrite !HE. reflexivity.
  - rewrite (read_word_at M M' 0 HM0), N.add_0_l. destruct (read_word M' (p + len_off vl)) as [n|]; [|reflexivity].
    rewrite (read_bytes_at M M' 0 HM0), N.add_0_l. reflexivity.
  - rewrite HE. reflexivity.
  - rewrite HF. reflexivity.
  - rewrite (read_discr_at M M' 0 HM0), N.add_0_l. destruct (read_discr M' p d) as [k|]; [|reflexivity].
    destruct (nth_error vss k) as [fs|]; [|reflexivity]. rewrite HF. reflexivity.
  - reflexivity.
Qed.

(** Whatever serializers, storages and memories produced them, outputs with the same
    bytes and the same returned positions are of the same values. *)
Theorem C72_output_determines_values {P : Params} : forall k1 k2 E m1 m2 xs1 xs2 w1 w2 f1 f2 ps z1 z2,
  cfg_ok -> alloc_ok -> wf_env E -> storage_ok w1 -> storage_ok w2 ->
  valid_inputs E m1 xs1 f1 -> valid_inputs E m2 xs2 f2 ->
  map fst (values xs1) = map fst (values xs2) ->
  serialize_all k1 E m1 f1 (inputs xs1) (from_storage w1) = Ok ps z1 ->
  serialize_all k2 E m2 f2 (inputs xs2) (from_storage w2) = Ok ps z2 ->
  s_pos (sw_s (z_sw z1)) = s_pos (sw_s (z_sw z2)) ->
  (forall i, i < s_pos (sw_s (z_sw z1)) -> s_buf (sw_s (z_sw z1)) i = s_buf (sw_s (z_sw z2)) i) ->
  values xs1 = values xs2.
Proof.
  intros k1 k2 E m1 m2 xs1 xs2 w1 w2 f1 f2 ps z1 z2 C HA HE O1 O2 V1 V2 Hts R1 R2 Hpos Hbuf.
  assert (F : forall k m xs w f z, storage_ok w -> valid_inputs E m xs f ->
    serialize_all k E m f (inputs xs) (from_storage w) = Ok ps z ->
    Forall2 (fun tv p => forall f, (vdepth (snd tv) < f)%nat -> decode_root E (out_mem 0 (z_sw z)) f (fst tv) p = Some (snd tv)) (values xs) ps).
  { intros k m xs w f z Ow V R.
    assert (HF : Forall (fun '(t, a, v) => valid_input E any_header m t a v /\ (vdepth v < f)%nat) xs).
    { apply Forall_forall. intros [[t a] v] Hin. apply V. exact Hin. }
    pose proof (C25_several_values k E m xs w f ps z C HA HE Ow HF R) as H. cbv zeta in H. clear - H.
    induction H as [|[[t a] v] p xs ps [_ Hx] _ IH]; cbn [values map]; constructor; auto. }
  specialize (F k1 m1 xs1 w1 f1 z1 O1 V1 R1) as F1. specialize (F k2 m2 xs2 w2 f2 z2 O2 V2 R2) as F2.
  assert (HM : forall i, out_mem 0 (z_sw z1) i = out_mem 0 (z_sw z2) i).
  { intros i. unfold out_mem. rewrite Hpos. rewrite Hpos in Hbuf.
    destruct (N.leb_spec 0 i); [|lia]. destruct (N.ltb_spec i (0 + s_pos (sw_s (z_sw z2)))); cbn [andb]; [|reflexivity].
    rewrite N.sub_0_r. apply Hbuf. lia. }
  clear - F1 F2 Hts HM. revert F2 Hts. generalize (values xs2). clear xs2.
  induction F1 as [|[t v] p tvs ps Hx F1 IH]; intros tvs2 F2 Hts.
  - destruct tvs2; [reflexivity|discriminate].
  - destruct tvs2 as [|[t2 v2] tvs2]; [discriminate|]. inversion F2 as [|? ? ? ? Hy F2']; subst.
    cbn [map fst] in Hts. inversion Hts as [[Ht Hts']]. subst t2. cbn [fst snd] in *.
    f_equal; [|apply IH; assumption].
    set (f := S (Nat.max (vdepth v) (vdepth v2))).
    specialize (Hx f ltac:(subst f; lia)). specialize (Hy f ltac:(subst f; lia)).
    unfold decode_root in Hx, Hy. rewrite (decode_ext E _ _ HM) in Hx. rewrite Hx in Hy. inversion Hy. reflexivity.
Qed.

(** ** Witnesses *)

(** The demo struct, in other memory than [demo_mem]. *)
Lemma demo_has_ty : @has_ty demo no_env t_demo demo_val.
Proof.
  unfold t_demo, demo_val. apply HT_struct. repeat apply FT_cons; try apply FT_nil.
  - apply HT_prim; [reflexivity|vm_compute; reflexivity].
  - unfold t_opt. eapply HT_enum; [reflexivity|left; reflexivity|]. apply FT_cons; [|apply FT_nil].
    apply HT_box, HT_prim; [reflexivity|vm_compute; reflexivity].
  - apply HT_vec; [vm_compute; reflexivity|].
    repeat apply AT_cons; try apply AT_nil; apply HT_prim; try reflexivity; vm_compute; reflexivity.
  - apply HT_string. repeat constructor.
  - apply HT_vec; [vm_compute; reflexivity|apply AT_nil].
Qed.

Theorem C71_witness :
  @has_ty demo no_env t_demo demo_val /\
  end_pos (P := demo) (s_pos (sw_s demo_w)) (allocations (P := demo) no_env t_demo demo_val) <= @MAXC demo /\
  (let (m, a) := @build demo no_env 0 t_demo demo_val in
   a = 16 /\
   map (fun i => @read_word demo m (16 + 8 * N.of_nat i)) (seq 1 10) =
     map Some [104; 2; 112; 2; 120; 2; 2; 0; 4; 0] /\
   forall k, match @serialize demo k no_env m 4 t_demo a (from_storage demo_w) with
             | Ok p z => (p, s_pos (sw_s (z_sw z))) = (0, 112) /\
                         @decode_root demo no_env (@out_mem 0 (z_sw z)) 4 t_demo p = Some demo_val
             | _ => False
             end).
Proof.
  split; [exact demo_has_ty|]. split; [vm_compute; discriminate|].
  assert (Ha : snd (@build demo no_env 0 t_demo demo_val) = 16) by (vm_compute; reflexivity).
  destruct (@build demo no_env 0 t_demo demo_val) as [m a] eqn:Hb. cbn in Ha. subst a.
  assert (Hm : m = fst (@build demo no_env 0 t_demo demo_val)) by (rewrite Hb; reflexivity). clear Hb. subst m.
  split; [reflexivity|]. split; [vm_compute; reflexivity|].
  intros k. destruct k; vm_compute; split; reflexivity.
Qed.

Theorem C72_witness :
  match @serialize_all demo PureCopy no_env demo_mem 10 (inputs demo_items) (from_storage demo_w),
        @serialize_all demo PosTracking no_env demo_mem 7 (inputs demo_items) (from_storage sw_new) with
  | Ok ps1 z1, Ok ps2 z2 =>
      ps1 = ps2 /\ s_pos (sw_s (z_sw z1)) = s_pos (sw_s (z_sw z2)) /\
      forallb (fun i => match s_buf (sw_s (z_sw z1)) (N.of_nat i), s_buf (sw_s (z_sw z2)) (N.of_nat i) with
                        | Some b, Some b' => b =? b' | None, None => true | _, _ => false end)
        (seq 0 (N.to_nat (s_pos (sw_s (z_sw z1))))) = true
  | _, _ => False
  end.
Proof. vm_compute. repeat split. Qed.
