(** * AloneSer: the programs of ProgSer.v run alone are the model of Serialize.v. *)
From Verif Require Import Base Types Storage Serializer Serialize MemFacts Prog ProgSer Alone.
From Coq Require Import ZifyBool ZifyNat ZifyN.
Local Open Scope N_scope.

Section AloneSer.
Context {P : Params}.
Variable m : mem.

Definition same_ser (s : hz) (L : loc) (z : zs) : Prop :=
  same_storage (hz_h s) L (z_sw z) /\ hz_map s = z_map z /\ hz_ptrs s = z_ptrs z.
Notation sim := (sim m same_ser).

Lemma sim_lift {A} (h : HM hdr A) (c : M sw A) : Alone.sim m same_storage h c -> sim (hlift h) (lift c).
Proof.
  intros H s L t (H1 & H2 & H3). unfold hlift, lift. rewrite alone_pthen. specialize (H _ _ _ H1).
  destruct (alone m (h (hz_h s)) L) as [a [s' L']|e [s' L']| | |], (c (z_sw t)) as [b t'|e' t'| | |]; try contradiction; auto;
    cbn [same_outcomeq alone] in *; destruct H as [-> H]; (split; [reflexivity|]); split; auto.
Qed.

Lemma sim_get_map : sim hget_map get_map.
Proof. apply sim_gets. intros s L t HR. apply HR. Qed.
Lemma sim_get_ptrs : sim hget_ptrs get_ptrs.
Proof. apply sim_gets. intros s L t HR. apply HR. Qed.
Lemma sim_set_map pm : sim (hset_map pm) (set_map pm).
Proof. intros s L t HR. cbn. split; [reflexivity|]. unfold same_ser in *. cbn. intuition. Qed.
Lemma sim_set_ptrs pm : sim (hset_ptrs pm) (set_ptrs pm).
Proof. intros s L t HR. cbn. split; [reflexivity|]. unfold same_ser in *. cbn. intuition. Qed.
Lemma sim_ser_cap : sim (pu gser_capacity) ser_capacity.
Proof. intros s L t HR. cbn. split; [apply HR|exact HR]. Qed.

Lemma sim_push_raw_slice l a n : sim (h_push_raw_slice (mkHslice l a n)) (push_raw_slice (slice_at m l a n)).
Proof. apply sim_lift. cbn [hs_lay hs_addr hs_len slice_at sl_lay sl_len sl_data]. apply (sim_push_slice m l n (SMem a)). Qed.

Lemma sim_addr_n a : sim (pu (addr_n a)) (addr_n a).
Proof. destruct a; intros s L t HR; cbn; auto. Qed.
Lemma sim_pos_for_addr pm a : sim (pu (pos_for_addr pm a)) (pos_for_addr pm a).
Proof. unfold pos_for_addr. apply sim_pu_bind; [apply sim_addr_n|intros n]. apply sim_pu_bind; [apply sim_sub|intros d]. apply sim_add. Qed.
Lemma sim_from_ref k a : sim (pu (addr_from_ref k a)) (addr_from_ref k a).
Proof. unfold addr_from_ref. destruct (tracking k); apply sim_pu_ret. Qed.
Lemma sim_from_ref_offset k a o : sim (pu (addr_from_ref_offset k a o)) (addr_from_ref_offset k a o).
Proof. unfold addr_from_ref_offset. destruct (tracking k); [|apply sim_pu_ret]. apply sim_pu_bind; [apply sim_add|intros n; apply sim_pu_ret]. Qed.
Lemma sim_const {A} (o : option A) : sim (pu (const_or o)) (const_or o).
Proof. destruct o; cbn [const_or]; [apply sim_pu_ret|apply sim_panics]. Qed.

Lemma sim_write_local pos l d : sim (hlift (h_write pos l (SLocal d))) (lift (write pos l d)).
Proof. apply sim_lift. apply (sim_write m pos l (SLocal d)). Qed.

Lemma sim_checks p q : sim
  (pu (dassert (c <- gser_capacity ;; d <- sub_u c pW ;; ret (p <=? d))) ;;~
   pu (dassert (is_aligned_to p pW)) ;;~
   pu (dassert (c <- gser_capacity ;; ret (q <=? c))))
  (dassert (c <- ser_capacity ;; d <- sub_u c pW ;; ret (p <=? d)) ;;;
   dassert (is_aligned_to p pW) ;;;
   dassert (c <- ser_capacity ;; ret (q <=? c))).
Proof.
  apply sim_bind; [|intros _; apply sim_bind; [|intros _]]; apply sim_dassert.
  - apply sim_pu_bind; [apply sim_ser_cap|intros c]. apply sim_pu_bind; [apply sim_sub|intros d]. apply sim_pu_ret.
  - apply sim_is_aligned.
  - apply sim_pu_bind; [apply sim_ser_cap|intros c]. apply sim_pu_ret.
Qed.

Ltac dasserts := do 3 (apply sim_bind; [apply sim_dassert; first
  [apply sim_is_aligned | apply sim_pu_bind; [apply sim_ser_cap|intros ?]; try (apply sim_pu_bind; [apply sim_sub|intros ?]); apply sim_pu_ret]|intros _]).

Lemma sim_po_overwrite_ptr p q : sim (h_po_overwrite_ptr p q) (po_overwrite_ptr p q).
Proof. unfold h_po_overwrite_ptr, po_overwrite_ptr. dasserts. apply sim_write_local. Qed.
Lemma sim_co_overwrite_ptr p q : sim (h_co_overwrite_ptr p q) (co_overwrite_ptr p q).
Proof.
  unfold h_co_overwrite_ptr, co_overwrite_ptr. dasserts.
  apply sim_bind; [apply sim_lift, sim_ptr|intros sa]. apply sim_bind; [apply sim_add|intros ta].
  apply sim_bind; [apply sim_write_local|intros _]. apply sim_bind; [apply sim_get_ptrs|intros pt].
  cbv zeta. apply sim_set_ptrs.
Qed.
Lemma sim_overwrite_ptr k p q : sim (h_overwrite_ptr k p q) (overwrite_ptr k p q).
Proof. destruct k; cbn [h_overwrite_ptr overwrite_ptr]; first [apply sim_ub|apply sim_po_overwrite_ptr|apply sim_co_overwrite_ptr]. Qed.

Lemma sim_push_and_process_slice k l a n ad hp c : sim hp c ->
  sim (h_push_and_process_slice k (mkHslice l a n) ad hp) (push_and_process_slice k (slice_at m l a n) ad c).
Proof.
  intros Hp.
  assert (Hpw : sim (h_pw_push_and_process_slice k (mkHslice l a n) ad hp) (pw_push_and_process_slice k (slice_at m l a n) ad c)).
  { unfold h_pw_push_and_process_slice, pw_push_and_process_slice.
    apply sim_bind; [apply sim_get_map|intros b]. apply sim_bind; [apply sim_push_raw_slice|intros pos].
    apply sim_bind; [apply sim_pos_for_addr|intros pp]. apply sim_bind; [apply sim_overwrite_ptr|intros _].
    apply sim_bind; [apply sim_set_map|intros _]. apply sim_bind; [exact Hp|intros _].
    apply sim_bind; [apply sim_set_map|intros _]. apply sim_ret. }
  destruct k; cbn [h_push_and_process_slice push_and_process_slice]; try exact Hpw.
  - unfold h_dflt_push_and_process_slice, dflt_push_and_process_slice.
    apply sim_bind; [apply sim_push_raw_slice|intros pos]. apply sim_bind; [exact Hp|intros _]. apply sim_ret.
  - unfold h_pt_push_and_process_slice, pt_push_and_process_slice.
    apply sim_bind; [apply sim_get_map|intros b]. apply sim_bind; [apply sim_push_raw_slice|intros pos].
    apply sim_bind; [apply sim_set_map|intros _]. apply sim_bind; [exact Hp|intros _].
    apply sim_bind; [apply sim_set_map|intros _]. apply sim_ret.
Qed.

Lemma sim_ser_push_slice k l a n ad :
  sim (h_ser_push_slice k (mkHslice l a n) ad) (ser_push_slice k (slice_at m l a n) ad).
Proof.
  assert (Hpw : sim (h_pw_push_slice k (mkHslice l a n) ad) (pw_push_slice k (slice_at m l a n) ad)).
  { unfold h_pw_push_slice, pw_push_slice.
    apply sim_bind; [apply sim_push_raw_slice|intros pos]. apply sim_bind; [apply sim_get_map|intros b].
    apply sim_bind; [apply sim_pos_for_addr|intros pp]. apply sim_bind; [apply sim_overwrite_ptr|intros _]. apply sim_ret. }
  destruct k; cbn [h_ser_push_slice ser_push_slice]; try exact Hpw.
  - apply sim_push_and_process_slice. apply sim_ret.
  - apply sim_push_raw_slice.
Qed.

Lemma sim_overwrite k ad l d : sim (h_overwrite k ad l d) (overwrite k ad l d).
Proof.
  destruct k; cbn [h_overwrite overwrite]; try apply sim_ret. unfold h_do_overwrite, do_overwrite.
  apply sim_bind; [apply sim_get_map|intros pm]. apply sim_bind; [apply sim_pos_for_addr|intros pos]. apply sim_write_local.
Qed.
Lemma sim_overwrite_with k hw c : sim hw c -> sim (h_overwrite_with k hw) (overwrite_with k c).
Proof. destruct k; cbn [h_overwrite_with overwrite_with]; intros H; first [exact H|apply sim_ret]. Qed.

Lemma sim_serialize_value_with k l a hp c : sim hp c ->
  sim (h_serialize_value_with k (mkHslice l a 1) hp) (serialize_value_with k (slice_at m l a 1) c).
Proof.
  intros H. destruct k; cbn [h_serialize_value_with serialize_value_with];
    (apply sim_bind; [apply sim_push_raw_slice|intros pos]);
    try (apply sim_bind; [apply sim_set_map|intros _]);
    (apply sim_bind; [exact H|intros _]; apply sim_ret).
Qed.

Lemma read_cells (mm : mem) a n sz : sz <= n -> read_int (mem_of (cells mm a n)) 0 sz = read_int mm a sz.
Proof.
  intros H. apply read_int_ext. intros i Hi. unfold mem_of, cells.
  rewrite (nth_indep _ None (mm (a + N.of_nat (N.to_nat n)))) by (rewrite map_length, seq_length; lia).
  rewrite (map_nth (fun j => mm (a + N.of_nat j))). rewrite seq_nth by lia. f_equal. lia.
Qed.

Lemma sim_correct_ptr sh p : Alone.sim m same_storage (h_correct_ptr sh p) (correct_ptr sh p).
Proof.
  intros s L t HR. pose proof HR as (E1 & E2 & E3 & E4 & E5 & E6 & E7 & E8).
  unfold h_correct_ptr, correct_ptr. rewrite E1, E2.
  destruct (_ <=? _) eqn:Hb; cbn [andb]; [|exact Logic.I]. destruct (_ =? 0); [|exact Logic.I].
  assert (Hin : in_block L (s_ptr (sw_s t) + p) pW = true).
  { unfold in_block. destruct (N.eqb_spec pW 0) as [Z|Z]; [reflexivity|]. cbn [orb].
    destruct (E8 ltac:(lia)) as [B1 _]. rewrite B1, E7. lia. }
  cbn [alone]. rewrite Hin. unfold read_word. rewrite read_cells by lia.
  assert (Hrd : read_int (lc_buf L) (s_ptr (sw_s t) + p - lc_base L) pW = read_int (s_buf (sw_s t)) p pW).
  { apply read_int_ext. intros i Hi. rewrite E4. destruct (E8 ltac:(lia)) as [B1 _]. rewrite B1. f_equal. lia. }
  rewrite Hrd. clear Hrd. destruct (read_int _ _ _) as [x|]; [|exact Logic.I].
  cbn [alone]. rewrite Hin. cbn. split; [reflexivity|]. unfold same_storage. cbn. intuition.
  unfold blit. destruct (N.eq_dec pW 0) as [Z|Z].
  - rewrite Z, E4. replace ((_ <=? i) && (i <? _)) with false by lia. replace ((_ <=? i) && (i <? _)) with false by lia. reflexivity.
  - destruct (E8 ltac:(lia)) as [B1 _]. rewrite B1, E4. replace (s_ptr (sw_s t) + p - s_ptr (sw_s t)) with p by lia. reflexivity.
Qed.
Lemma sim_correct_all sh l : Alone.sim m same_storage (h_correct_all sh l) (correct_all sh l).
Proof. induction l as [|p l IH]; cbn [h_correct_all correct_all]; [apply sim_ret|]. apply sim_bind; [apply sim_correct_ptr|intros _; exact IH]. Qed.
Lemma sim_correct_past gs a : Alone.sim m same_storage (h_correct_past gs a) (correct_past gs a).
Proof.
  induction gs as [|g gs IH]; cbn [h_correct_past correct_past]; [apply sim_ret|].
  apply sim_bind; [|intros _; exact IH]. apply sim_if; [apply sim_correct_all|apply sim_ret].
Qed.
Lemma sim_finalize k : sim (h_finalize k) (finalize k).
Proof.
  destruct k; cbn [h_finalize finalize]; try apply sim_ret. unfold h_co_finalize, co_finalize.
  apply sim_bind; [apply sim_lift, sim_ptr|intros sp]. apply sim_bind; [apply sim_get_ptrs|intros pt].
  apply sim_bind; [|intros _; apply sim_lift, sim_correct_past]. apply sim_if; [apply sim_lift, sim_correct_all|apply sim_ret].
Qed.

Lemma sim_load_word a : sim (h_load_word a) (load_word m a).
Proof.
  intros s L t HR. unfold h_load_word, load_word. cbn [alone]. unfold read_word. rewrite read_cells by lia.
  destruct (read_int m a pW); cbn; auto.
Qed.

Lemma sim_variant a d s L t : same_ser s L t ->
  match read_discr m a d with
  | Some v => alone m (h_variant a d s) L = Ok v (s, L)
  | None => alone m (h_variant a d s) L = UB
  end.
Proof.
  intros HR. unfold read_discr, h_variant. destruct d as [v|off sz vals|off sz df ns]; cbn.
  - reflexivity.
  - rewrite read_cells by lia. destruct (read_int m (a + off) sz) as [n|]; cbn; [|reflexivity].
    destruct (index_of n vals); reflexivity.
  - rewrite read_cells by lia. destruct (read_int m (a + off) sz) as [n|]; cbn; [|reflexivity].
    destruct (assoc n ns); reflexivity.
Qed.

Lemma sim_overwrite_empty k vo d a : sim (h_overwrite_empty k vo d a) (overwrite_empty k vo d a).
Proof.
  unfold h_overwrite_empty, overwrite_empty. cbv zeta.
  repeat apply sim_if.
  1,2: apply sim_bind; [apply sim_from_ref|intros ad; apply sim_overwrite].
  1,2: apply sim_bind; [apply sim_from_ref_offset|intros ad; apply sim_overwrite].
  apply sim_bind; [apply sim_from_ref_offset|intros ad]. apply sim_bind; [apply sim_overwrite|intros _].
  apply sim_bind; [apply sim_from_ref_offset|intros ad2; apply sim_overwrite].
Qed.

Lemma sim_for_elems n : forall a sz hf f, (forall x, sim (hf x) (f x)) -> sim (h_for_elems n a sz hf) (for_elems n a sz f).
Proof.
  induction n as [|n IH]; intros a sz hf f H; cbn [h_for_elems for_elems]; [apply sim_ret|].
  apply sim_bind; [apply H|intros _; apply IH; exact H].
Qed.
Lemma sim_for_fields fs : forall a hf f, (forall t x, sim (hf t x) (f t x)) -> sim (h_for_fields fs a hf) (for_fields fs a f).
Proof.
  induction fs as [|[off t] fs IH]; intros a hf f H; cbn [h_for_fields for_fields]; [apply sim_ret|].
  apply sim_bind; [apply H|intros _; apply IH; exact H].
Qed.

Section Impl.
Variable k : kind.
Variable E : tenv.

Lemma sim_ser_box t a hr r : (forall t x, sim (hr t x) (r t x)) -> sim (h_ser_box k E t a hr) (ser_box k E m t a r).
Proof.
  intros H. unfold h_ser_box, ser_box. apply sim_if; [apply sim_ret|].
  apply sim_bind; [apply sim_from_ref|intros ad]. apply sim_bind; [apply sim_load_word|intros p].
  apply sim_bind; [apply sim_push_and_process_slice, H|intros _]. apply sim_ret.
Qed.
Lemma sim_ser_vec vl t a hr r : (forall t x, sim (hr t x) (r t x)) -> sim (h_ser_vec k E vl t a hr) (ser_vec k E m vl t a r).
Proof.
  intros H. unfold h_ser_vec, ser_vec. apply sim_if; [apply sim_ret|].
  apply sim_bind; [apply sim_load_word|intros len]. apply sim_if.
  - apply sim_overwrite_with. apply sim_bind; [apply sim_load_word|intros cap]. apply sim_if; [|apply sim_ret].
    apply sim_bind; [apply sim_const|intros vo]. apply sim_overwrite_empty.
  - apply sim_bind; [|intros _].
    { apply sim_overwrite_with. apply sim_bind; [apply sim_load_word|intros cap]. apply sim_if; [|apply sim_ret].
      apply sim_bind; [apply sim_const|intros vo]. apply sim_bind; [apply sim_from_ref_offset|intros ca]. apply sim_overwrite. }
    apply sim_bind; [apply sim_const|intros vo]. apply sim_bind; [apply sim_from_ref_offset|intros ad].
    apply sim_bind; [apply sim_load_word|intros p].
    apply sim_bind; [apply sim_push_and_process_slice, sim_for_elems, H|intros _]. apply sim_ret.
Qed.
Lemma sim_ser_string vl a : sim (h_ser_string k vl a) (ser_string k m vl a).
Proof.
  unfold h_ser_string, ser_string.
  apply sim_bind; [apply sim_load_word|intros len]. apply sim_if.
  - apply sim_overwrite_with. apply sim_bind; [apply sim_load_word|intros cap]. apply sim_if; [|apply sim_ret].
    apply sim_bind; [apply sim_const|intros vo]. apply sim_overwrite_empty.
  - apply sim_bind; [|intros _].
    { apply sim_overwrite_with. apply sim_bind; [apply sim_load_word|intros cap]. apply sim_if; [|apply sim_ret].
      apply sim_bind; [apply sim_const|intros vo]. apply sim_bind; [apply sim_from_ref_offset|intros ca]. apply sim_overwrite. }
    apply sim_bind; [apply sim_const|intros vo]. apply sim_bind; [apply sim_from_ref_offset|intros ad].
    apply sim_bind; [apply sim_load_word|intros p].
    apply sim_bind; [apply sim_ser_push_slice|intros _]. apply sim_ret.
Qed.

Lemma sim_ser_data fuel : forall t a, sim (h_ser_data k E fuel t a) (ser_data k E m fuel t a).
Proof.
  induction fuel as [|fuel IH]; intros t a; cbn [h_ser_data ser_data].
  - intros s L z HR. exact Logic.I.
  - destruct (resolve E t) as [l ok|t'|vl t'|vl|t' n|l fs|l d vss|id].
    + apply sim_ret.
    + apply sim_ser_box. exact IH.
    + apply sim_ser_vec. exact IH.
    + apply sim_ser_string.
    + apply sim_for_elems. intros x. apply IH.
    + apply sim_for_fields. exact IH.
    + intros s L z HR. unfold hbind. rewrite alone_pthen. pose proof (sim_variant a d s L z HR) as Hv.
      destruct (read_discr m a d) as [v|]; rewrite Hv; [|exact Logic.I].
      destruct (nth_error vss v) as [fs|]; [|exact Logic.I]. apply (sim_for_fields fs a _ _ IH s L z HR).
    + apply sim_panics.
Qed.

Lemma sim_serialize_value fuel t a : sim (h_serialize_value k E fuel t a) (serialize_value k E m fuel t a).
Proof. apply sim_serialize_value_with, sim_ser_data. Qed.
Lemma sim_serialize_values fuel vs : sim (h_serialize_values k E fuel vs) (serialize_values k E m fuel vs).
Proof.
  induction vs as [|[t a] vs IH]; cbn [h_serialize_values serialize_values]; [apply sim_ret|].
  apply sim_bind; [apply sim_serialize_value|intros pos]. apply sim_bind; [exact IH|intros ps]. apply sim_ret.
Qed.
Theorem sim_serialize_all fuel vs : sim (h_serialize_all k E fuel vs) (serialize_all k E m fuel vs).
Proof.
  unfold h_serialize_all, serialize_all. apply sim_bind; [apply sim_serialize_values|intros ps].
  apply sim_bind; [apply sim_finalize|intros _]. apply sim_ret.
Qed.
End Impl.

End AloneSer.
