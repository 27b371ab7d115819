(** * PropGaps: every byte of the buffer after serializing (C67).

    C54 fixes the bytes of the blocks.  Here: all other bytes.  The space left between blocks for
    alignment is not written, so it keeps what the buffer held there before (after clear(), bytes
    of earlier outputs), and is uninitialised in room never used. *)
From Verif Require Import Base Types Storage Serializer Serialize Spec ArithFacts StorageFacts StorageHist Frame MemFacts TypeFacts
  SerFacts SerMain SerValue SerRoot SerProps UserPanic Client ClientSpec ClientFacts Encode EncodeFacts PropClient PropUse PropEncode.
From Coq Require Import ZifyBool ZifyNat ZifyN.
Local Open Scope N_scope.

(** ** Specification *)

(** Position [i] is in one of the blocks [bs] (start, bytes). *)
Definition in_a_block (bs : list (N * N)) (i : N) : Prop :=
  exists st n, In (st, n) bs /\ st <= i /\ i < st + n.

(** What a buffer of storage [w] holds at [i] before anything is written: its own byte, or, in
    room added later, nothing. *)
Definition old_byte (w : sw) (i : N) : cell :=
  if i <? s_cap (sw_s w) then s_buf (sw_s w) i else None.

(** The byte expected at position [i] after serializing values to [w], [e] being what the
    reference encoder says and [B] the address pointers are relative to. *)
Definition expected_byte {P : Params} (m : mem) (B : N) (w : sw) (e : enc) (i : N) : cell :=
  if i <? s_pos (sw_s w) then s_buf (sw_s w) i
  else if specified e i then byte_at m B e i
  else old_byte w i.

Section Facts.
Context {P : Params}.

Lemma in_blocks_iff ps : forall cur i, in_blocks cur ps i <-> in_a_block (blocks cur ps) i.
Proof.
  induction ps as [|[l n] ps IH]; intros cur i; cbn [in_blocks blocks].
  - split; [intros []|intros (st & n & [] & _)].
  - rewrite IH. unfold in_a_block. split.
    + intros [H|(st & n' & H1 & H2)].
      * exists (push_start cur l), (l_size l * n). split; [left; reflexivity|exact H].
      * exists st, n'. split; [right; exact H1|exact H2].
    + intros (st & n' & [H1|H1] & H2).
      * left. inversion H1; subst. exact H2.
      * right. exists st, n'. auto.
Qed.

(** The end of a run: finalize changes only bytes of pointers. *)
Lemma finalize_gaps k w z1 z' G ps :
  cfg_ok -> ~ In busy ps -> zinv k z1 G ->
  quietly (fun _ => False) ps (from_storage w) z1 G ->
  s_cap (sw_s (z_sw z')) = s_cap (sw_s (z_sw z1)) ->
  (forall i, s_buf (sw_s (z_sw z')) i = overlay G (s_buf (sw_s (z_sw z1))) (final_base k z1) i) ->
  s_cap (sw_s w) <= s_cap (sw_s (z_sw z')) /\
  forall i, s_pos (sw_s w) <= i -> i < s_cap (sw_s (z_sw z')) ->
    ~ in_a_block (blocks (s_pos (sw_s w)) ps) i ->
    s_buf (sw_s (z_sw z')) i = old_byte w i.
Proof.
  intros C Hn Hz [_ Hg] Hc Hb. destruct (Hg Hn) as (A & B & D). cbn [from_storage z_sw] in *.
  rewrite Hc. split; [exact A|]. intros i Hi Hi2 Hno. rewrite <- in_blocks_iff in Hno.
  rewrite Hb, overlay_none; [apply B; assumption|].
  intros q t Hin. destruct (covers i (q, t)) eqn:Ec; [|reflexivity]. apply covers_true in Ec.
  destruct (D q t Hin i ltac:(lia) ltac:(lia)) as [[]|Hx]. contradiction.
Qed.
End Facts.

(** ** C67 *)

(** From pos() on, positions outside the blocks of the values keep what the buffer held. *)
Theorem C67_gaps {P : Params} : forall k E m xs w fuel rs z,
  cfg_ok -> alloc_ok -> wf_env E -> storage_ok w -> valid_inputs E m xs fuel ->
  serialize_all k E m fuel (inputs xs) (from_storage w) = Ok rs z ->
  let w' := z_sw z in
  s_cap (sw_s w) <= s_cap (sw_s w') /\
  forall i, s_pos (sw_s w) <= i -> i < s_cap (sw_s w') ->
    ~ in_a_block (blocks (s_pos (sw_s w)) (all_allocations E (values xs))) i ->
    s_buf (sw_s w') i = old_byte w i.
Proof.
  intros k E m xs w fuel rs z C HA HE Hok H1 Hs w'.
  assert (A2 : Forall (fun '(t, a, v) => input_ok E m any_header fuel t a v) xs).
  { apply Forall_forall. intros [[t a] v] Hin. destruct (H1 t a v Hin) as [(V1 & V2 & V3) Hv].
    unfold input_ok. auto. }
  assert (Hcalm : ~ In busy (all_allocations E (map it_tv xs))).
  { apply busy_not_good. unfold all_allocations. apply Forall_flat_map. apply Forall_map.
    eapply Forall_impl; [|exact A2]. intros [[t a] v] Hx. apply (allocations_good C); [exact HE|apply Hx]. }
  pose proof (from_storage_inv k w Hok) as Hz.
  pose proof (values_done C HA E HE k m any_header any_header (transfers_any k) fuel xs (from_storage w) [] A2 Hz) as HV.
  rewrite inputs_in in Hs. unfold serialize_all, bind in Hs.
  destruct (serialize_values k E m fuel (map it_in xs) (from_storage w)) as [rs1 z1|e1 z1| | |]; try discriminate.
  cbn [rdone app] in HV. destruct HV as (G & -> & V1 & V2 & V3 & V4 & V5 & V6 & V7 & V8 & V9).
  pose proof (zinv_ok _ _ _ V1) as Hok1.
  assert (Hne : k = Complete -> 0 < s_cap (sw_s (z_sw z1)) \/ G = []).
  { intros _. destruct G as [|[q t] G]; [auto|left].
    destruct (V5 q t (or_introl eq_refl)). pose proof (ok_pos_le _ Hok1). pose proof (pW_vals (c_machine C)). lia. }
  destruct (finalize_eq C k z1 G V1 Hne) as (z' & Ef & Z1 & Z2 & Z3 & Z4 & Z5 & Z6 & Z7).
  rewrite Ef in Hs. inversion Hs; subst rs z; clear Hs.
  rewrite values_tv. apply (finalize_gaps k w z1 z' G _ C Hcalm V1 V7 Z2 Z7).
Qed.

(** So every byte of the buffer is determined: by what it held, and by the reference encoder. *)
Theorem C67_every_byte {P : Params} : forall k E m xs w fuel rs z,
  cfg_ok -> alloc_ok -> wf_env E -> storage_ok w -> valid_inputs E m xs fuel ->
  serialize_all k E m fuel (inputs xs) (from_storage w) = Ok rs z ->
  let w' := z_sw z in
  exists e,
    encode_all k E m fuel (inputs xs) (s_pos (sw_s w)) = Some e /\
    forall i, i < s_pos (sw_s w') -> s_buf (sw_s w') i = expected_byte m (read_base k w') w e i.
Proof.
  intros k E m xs w fuel rs z C HA HE Hok H1 Hs w'.
  destruct (C54_bytes k E m xs w fuel fuel rs z C HA HE Hok H1 H1 Hs) as (e & E1 & E2 & E3 & E4 & E5 & E6).
  destruct (C67_gaps k E m xs w fuel rs z C HA HE Hok H1 Hs) as [_ Hg]. fold w' in Hg, E3, E5.
  exists e. split; [exact E1|]. intros i Hi. unfold expected_byte.
  assert (A2 : Forall (fun '(t, a, v) => input_ok E m any_header fuel t a v) xs).
  { apply Forall_forall. intros [[t a] v] Hin. destruct (H1 t a v Hin) as [(V1 & V2 & V3) Hv].
    unfold input_ok. auto. }
  pose proof (serialize_all_spec C HA E HE k m any_header any_header (transfers_any k) fuel xs w Hok A2) as HS.
  rewrite inputs_in in Hs. rewrite Hs in HS. destruct HS as (_ & _ & _ & S4 & _ & S6 & _). fold w' in S4, S6.
  pose proof (ok_pos_le _ S4).
  destruct (N.ltb_spec i (s_pos (sw_s w))) as [Hlt|Hge]; [apply S6; exact Hlt|].
  destruct (specified e i) eqn:Esp; [apply E5; assumption|].
  apply Hg; [exact Hge|lia|]. intros (st & n & Hin & Hlo & Hhi).
  rewrite (E6 st n i Hin Hlo Hhi) in Esp. discriminate.
Qed.

(** Hand-written implementations too, as long as they leave the storage to the serializer. *)
Theorem C67_client_gaps {P : Params} : forall k E m fuel l a ss w p z,
  cfg_ok -> alloc_ok -> wf_env E -> storage_ok w ->
  good_layout l -> 0 < l_size l -> a + l_size l <= umod ->
  steps_ok E m fuel (l_size l) (l_align l) a ss -> existsb may_panic ss = false ->
  client_serialize k E m fuel l a ss (from_storage w) = Ok p z ->
  let w' := z_sw z in
  s_cap (sw_s w) <= s_cap (sw_s w') /\
  forall i, s_pos (sw_s w) <= i -> i < s_cap (sw_s w') ->
    ~ in_a_block (blocks (s_pos (sw_s w)) ((l, 1) :: flat_map (step_slices E) ss)) i ->
    s_buf (sw_s w') i = old_byte w i.
Proof.
  intros k E m fuel l a ss w p z C HA HE Hok Hl Hsz Ha Hss Hp Hs w'.
  assert (Hsame : flat_map (step_slices E) ss = flat_map (step_allocs E) ss).
  { clear - Hp. induction ss as [|s ss IH]; [reflexivity|]. cbn [existsb] in Hp.
    apply Bool.orb_false_elim in Hp. destruct Hp as [Hp1 Hp2]. cbn [flat_map].
    rewrite (slices_allocs E s Hp1), (IH Hp2). reflexivity. }
  assert (Hgood : Forall (fun x => good_layout (fst x)) ((l, 1) :: flat_map (step_slices E) ss)).
  { constructor; [exact Hl|]. clear - C HE Hss. induction Hss; cbn [flat_map]; [constructor|].
    apply Forall_app. split; [eapply slices_good; eassumption|assumption]. }
  assert (Hcalm : ~ In busy ((l, 1) :: flat_map (step_slices E) ss)) by (apply busy_not_good; exact Hgood).
  rewrite Hsame in Hcalm |- *.
  pose proof (from_storage_inv k w Hok) as Hz.
  pose proof (impl_done C HA E HE k m fuel l a ss (from_storage w) [] Hl Hsz Ha Hss Hz) as HV.
  unfold client_serialize, bind in Hs.
  destruct (serialize_value_with k (slice_at m l a 1) (run_steps k E m fuel a ss) (from_storage w)) as [p1 z1|e z1| | |]; try discriminate.
  cbn [rdone app] in HV. destruct HV as (G & -> & V1 & V2 & V3 & V4 & V5 & V6 & V7 & V8 & V9).
  pose proof (zinv_ok _ _ _ V1) as Hok1.
  assert (Hne : k = Complete -> 0 < s_cap (sw_s (z_sw z1)) \/ G = []).
  { intros _. destruct G as [|[q t] G]; [auto|left].
    destruct (V5 q t (or_introl eq_refl)). pose proof (ok_pos_le _ Hok1). pose proof (pW_vals (c_machine C)). lia. }
  destruct (finalize_eq C k z1 G V1 Hne) as (z' & Ef & Z1 & Z2 & Z3 & Z4 & Z5 & Z6 & Z7).
  rewrite Ef in Hs. inversion Hs; subst; clear Hs.
  apply (finalize_gaps k w z1 z G _ C Hcalm V1 V7 Z2 Z7).
Qed.

(** When are two outputs of the same values the same bytes?  Exactly when the buffers agreed
    before, wherever nothing is written (for a Complete serializer, the buffers being at the same
    address). *)
Theorem C67_reproducible_iff {P : Params} : forall k E m xs w1 w2 fuel rs1 rs2 z1 z2,
  cfg_ok -> alloc_ok -> wf_env E -> storage_ok w1 -> storage_ok w2 -> valid_inputs E m xs fuel ->
  s_pos (sw_s w1) = s_pos (sw_s w2) ->
  serialize_all k E m fuel (inputs xs) (from_storage w1) = Ok rs1 z1 ->
  serialize_all k E m fuel (inputs xs) (from_storage w2) = Ok rs2 z2 ->
  k <> Complete \/ s_ptr (sw_s (z_sw z1)) = s_ptr (sw_s (z_sw z2)) ->
  let pos0 := s_pos (sw_s w1) in
  let pos1 := s_pos (sw_s (z_sw z1)) in
  s_pos (sw_s (z_sw z2)) = pos1 /\
  ((forall i, pos0 <= i -> i < pos1 -> s_buf (sw_s (z_sw z1)) i = s_buf (sw_s (z_sw z2)) i) <->
   (forall i, pos0 <= i -> i < pos1 -> ~ in_a_block (blocks pos0 (all_allocations E (values xs))) i ->
      old_byte w1 i = old_byte w2 i)).
Proof.
  intros k E m xs w1 w2 fuel rs1 rs2 z1 z2 C HA HE Hok1 Hok2 Hv Hpos Hs1 Hs2 Hk pos0 pos1.
  assert (HP : same_machine P P) by (repeat split).
  destruct (C55_depends_only k E m xs w1 w2 fuel fuel rs1 rs2 z1 z2 HP C HA HE Hok1 Hv C HA HE Hok2 Hv Hpos Hs1 Hs2)
    as (_ & Hend & Hsame). specialize (Hsame Hk).
  destruct (C67_gaps k E m xs w1 fuel rs1 z1 C HA HE Hok1 Hv Hs1) as [_ G1].
  destruct (C67_gaps k E m xs w2 fuel rs2 z2 C HA HE Hok2 Hv Hs2) as [_ G2].
  rewrite <- Hpos in G2.
  assert (A2 : Forall (fun '(t, a, v) => input_ok E m any_header fuel t a v) xs).
  { apply Forall_forall. intros [[t a] v] Hin. destruct (Hv t a v Hin) as [(V1 & V2 & V3) Hv'].
    unfold input_ok. auto. }
  pose proof (serialize_all_spec C HA E HE k m any_header any_header (transfers_any k) fuel xs w1 Hok1 A2) as HS1.
  pose proof (serialize_all_spec C HA E HE k m any_header any_header (transfers_any k) fuel xs w2 Hok2 A2) as HS2.
  rewrite inputs_in in Hs1, Hs2. rewrite Hs1 in HS1. rewrite Hs2 in HS2.
  destruct HS1 as (_ & _ & _ & O1 & _). destruct HS2 as (_ & _ & _ & O2 & _).
  pose proof (ok_pos_le _ O1). pose proof (ok_pos_le _ O2).
  split; [symmetry; exact Hend|]. split.
  - intros HH i Hlo Hhi Hno. rewrite <- (G1 i Hlo ltac:(lia) Hno), <- (G2 i Hlo ltac:(lia) Hno). apply HH; assumption.
  - intros HH i Hlo Hhi.
    assert (D : in_a_block (blocks pos0 (all_allocations E (values xs))) i \/
                ~ in_a_block (blocks pos0 (all_allocations E (values xs))) i).
    { clear. induction (blocks pos0 (all_allocations E (values xs))) as [|[st n] bs IH].
      - right. intros (st & n & [] & _).
      - destruct IH as [(st' & n' & I1 & I2)|IH]; [left; exists st', n'; split; [right; exact I1|exact I2]|].
        destruct (N.le_gt_cases st i); [destruct (N.lt_ge_cases i (st + n))|].
        + left. exists st, n. split; [left; reflexivity|auto].
        + right. intros (st' & n' & [I1|I1] & I2); [inversion I1; subst; lia|apply IH; exists st', n'; auto].
        + right. intros (st' & n' & [I1|I1] & I2); [inversion I1; subst; lia|apply IH; exists st', n'; auto]. }
    destruct D as [(st & n & Hin & Hl & Hh)|Hno].
    + exact (Hsame st n i Hin Hl Hh Hhi).
    + rewrite (G1 i Hlo ltac:(lia) Hno), (G2 i Hlo ltac:(lia) Hno). apply HH; assumption.
Qed.

(** ** Concrete cases *)
From Verif Require Import StorageProps PropStorage PropSerialize Demo WitnessSerialize.

(** A storage that held 160 bytes 7, cleared. *)
Definition used_w : sw :=
  match (@push_bytes demo 160 (fun _ => Some 7) ;;; @clear demo) demo_w with Ok _ w => w | _ => sw_new end.
Lemma used_w_ok : @storage_ok demo used_w.
Proof.
  unfold used_w.
  pose proof (@push_slice_spec demo demo_cfg demo_alloc_ok demo_w u8_layout 160 (fun _ => Some 7) demo_w_ok
    (u8_good demo_cfg) ltac:(conc) ltac:(conc)
    ltac:(left; conc)) as H.
  unfold bind, push_bytes. destruct (@push_slice demo u8_layout 160 (fun _ => Some 7) demo_w) as [p w| | | |]; try exact sw_new_ok.
  destruct H as (_ & _ & Hok & _). unfold clear. rewrite (@set_pos_eq demo demo_cfg w 0); [|apply N.le_0_l|apply N.divide_0_r].
  apply ok_at_pos; [exact Hok|apply N.le_0_l|apply N.divide_0_r].
Qed.

Example C67_hypotheses :
  @cfg_ok demo /\ @alloc_ok demo /\ @wf_env demo no_env /\ @storage_ok demo demo_w /\ @storage_ok demo used_w /\
  @valid_inputs demo no_env demo_mem PropEncode.demo_items 10 /\ s_pos (sw_s used_w) = s_pos (sw_s demo_w).
Proof.
  ands; [exact demo_cfg|exact demo_alloc_ok|intros id d H; discriminate|exact demo_w_ok|exact used_w_ok
        |exact C54_hypotheses|vm_compute; reflexivity].
Qed.

(** The demo values leave gaps at 100-103, 106-111 and 116-119: there the new storage's output is
    uninitialised, the used one's is the old bytes. *)
Example C67_witness : forall k,
  match @serialize_all demo k no_env demo_mem 10 (inputs PropEncode.demo_items) (from_storage demo_w),
        @serialize_all demo k no_env demo_mem 10 (inputs PropEncode.demo_items) (from_storage used_w) with
  | Ok rs1 z1, Ok rs2 z2 =>
      rs1 = [0; 112; 120] /\ rs2 = rs1 /\
      @blocks demo 0 (@all_allocations demo no_env (values PropEncode.demo_items)) =
        [(0, 88); (88, 8); (96, 4); (104, 2); (112, 4); (120, 8); (128, 8)] /\
      map (s_buf (sw_s (z_sw z1))) [0;1;90;97;100;103;106;111;112;116;119] =
        map (s_buf (sw_s (z_sw z2))) [0;1;90;97] ++ [None; None; None; None; s_buf (sw_s (z_sw z2)) 112; None; None] /\
      map (s_buf (sw_s (z_sw z2))) [100;103;106;111;116;119] = [Some 7; Some 7; Some 7; Some 7; Some 7; Some 7]
  | _, _ => False
  end.
Proof. intros k. destruct k; vm_compute; repeat split. Qed.

(** So the output as a string of bytes is not a function of the values, the serializer and the
    configuration: not reproducible, and showing earlier data. *)
Theorem C67_not_reproducible : forall k,
  exists w1 w2 rs z1 z2 i,
    @storage_ok demo w1 /\ @storage_ok demo w2 /\ s_pos (sw_s w1) = 0 /\ s_pos (sw_s w2) = 0 /\
    @serialize_all demo k no_env demo_mem 10 (inputs PropEncode.demo_items) (from_storage w1) = Ok rs z1 /\
    @serialize_all demo k no_env demo_mem 10 (inputs PropEncode.demo_items) (from_storage w2) = Ok rs z2 /\
    i < s_pos (sw_s (z_sw z1)) /\
    s_buf (sw_s (z_sw z1)) i = None /\ s_buf (sw_s (z_sw z2)) i = s_buf (sw_s w2) i /\ s_buf (sw_s w2) i = Some 7.
Proof.
  intros k. pose proof (C67_witness k) as H. exists demo_w, used_w.
  destruct (@serialize_all demo k no_env demo_mem 10 (inputs PropEncode.demo_items) (from_storage demo_w)) as [rs1 z1| | | |] eqn:E1; try contradiction.
  destruct (@serialize_all demo k no_env demo_mem 10 (inputs PropEncode.demo_items) (from_storage used_w)) as [rs2 z2| | | |] eqn:E2; try contradiction.
  destruct H as (_ & -> & _ & H1 & H2). exists rs1, z1, z2, 100.
  assert (B1 : s_buf (sw_s (z_sw z1)) 100 = None) by (cbn [map app] in H1; congruence).
  assert (B2 : s_buf (sw_s (z_sw z2)) 100 = Some 7) by (cbn [map] in H2; congruence).
  assert (B3 : s_buf (sw_s used_w) 100 = Some 7) by (vm_compute; reflexivity).
  assert (A2 : Forall (fun '(t, a, v) => @input_ok demo no_env demo_mem any_header 10 t a v) PropEncode.demo_items).
  { apply Forall_forall. intros [[t a] v] Hin. destruct (C54_hypotheses t a v Hin) as [(V1 & V2 & V3) Hv]. unfold input_ok. auto. }
  pose proof (@serialize_all_spec demo demo_cfg demo_alloc_ok no_env ltac:(intros id d H; discriminate) k demo_mem any_header any_header
    (transfers_any k) 10 PropEncode.demo_items demo_w demo_w_ok A2) as HS.
  rewrite inputs_in in E1. rewrite E1 in HS. destruct HS as (_ & HS & _).
  ands; auto; first [exact demo_w_ok|exact used_w_ok|rewrite HS; apply ltc; vm_compute; reflexivity|congruence].
Qed.
