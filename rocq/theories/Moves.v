(** * Moves: pointers recorded while the buffer moves in every possible way. *)
From Verif Require Import Base Types Storage Serializer Serialize Spec ArithFacts StorageFacts StorageHist MemFacts TypeFacts SerFacts SerMain SerValue SerRoot.
From Coq Require Import ZifyBool ZifyNat ZifyN Permutation.
Local Open Scope N_scope.

Section Moves.
Context {P : Params}.

Notation cap w := (s_cap (sw_s w)).
Notation pos w := (s_pos (sw_s w)).
Notation ptr w := (s_ptr (sw_s w)).
Notation buf w := (s_buf (sw_s w)).
Notation zpos z := (s_pos (sw_s (z_sw z))).
Notation zbuf z := (s_buf (sw_s (z_sw z))).
Notation zcap z := (s_cap (sw_s (z_sw z))).
Notation zptr z := (s_ptr (sw_s (z_sw z))).

Section Cfg.
Hypothesis C : cfg_ok.
Hypothesis HA : alloc_ok.

Ltac cfg :=
  pose proof (c_SA_pos C); pose proof (c_MVA_pos C); pose proof (c_VA_pos C);
  pose proof (c_VA_MVA C); pose proof (c_MVA_SA C); pose proof (c_MAXC C);
  pose proof (c_MVA_le_MAXC C); pose proof (c_sum C); pose proof (c_umod C);
  pose proof (c_SA_lt_imax C); pose proof (pW_vals (c_machine C)).

(** Every storage call except clear keeps what is stored. *)
Definition kept (w w' : sw) : Prop := pos w <= pos w' /\ forall i, i < pos w -> buf w' i = buf w i.

Lemma kept_refl w : kept w w.
Proof. split; [lia|auto]. Qed.
Lemma kept_at_pos w p : pos w <= p -> kept w (at_pos w p).
Proof. intros H. split; cbn; auto. Qed.

Lemma push_slice_keep w l n d :
  storage_ok w -> good_layout l -> l_size l * n <= imax ->
  match push_slice l n d w with
  | Ok _ w' | Panic _ w' => kept w w'
  | _ => True
  end.
Proof.
  intros Hok Hg Hsz. cfg. destruct (N.eq_dec (l_size l) 0) as [Hz|Hnz].
  - rewrite push_slice_zst by exact Hz. apply kept_refl.
  - assert (Hcase : (n = 0 /\ 1 < l_align l /\ cap w = 0) \/ (0 < n \/ 0 < cap w \/ l_align l = 1)).
    { destruct Hg as (Ha & _). pose proof (pow2_pos _ Ha). lia. }
    destruct Hcase as [(-> & Hx & Hy)|Hc].
    + rewrite (empty_push_UB C) by (auto; lia). exact I.
    + pose proof (push_slice_spec C HA w l n d Hok Hg ltac:(lia) Hsz Hc) as Hs.
      destruct (push_slice l n d w) as [p w1|e w1| | |]; auto.
      * destruct Hs as (A & B & _ & _ & D & _). split; [rewrite B; apply (push_end_ge_pos C)|exact D].
      * destruct Hs as (_ & -> & _). apply kept_at_pos. apply (push_start_ge C). apply Hg.
Qed.

Lemma push_empty_slice_keep w l n :
  storage_ok w -> good_layout l -> n < umod ->
  match push_empty_slice l n w with
  | Ok _ w' | Panic _ w' => kept w w'
  | _ => True
  end.
Proof.
  intros Hok Hg Hn. cfg. pose proof Hg as (Ha & Hg2 & Hg3 & Hg4).
  destruct (align_for_eq C w l Ha Hg4 Hok) as [Haf Hst].
  pose proof (push_start_ge C (pos w) l Ha) as Hge.
  assert (HstVA : (VA | push_start (pos w) l)) by (apply push_start_VA; auto).
  destruct (mul_u_cases C (l_size l) n) as [(sz & Hsz & Hm & Hd & _)|(_ & _ & Hm)].
  2:{ unfold push_empty_slice. erewrite bind_ok by exact Haf.
      erewrite bind_panic by apply Hm. apply kept_at_pos; auto. }
  rewrite (push_empty_slice_eq C HA w l n sz Hok Hg Hsz Hm).
  set (start := push_start (pos w) l) in *.
  assert (Hok1 : storage_ok (at_pos w start)) by (apply ok_at_pos; assumption).
  unfold bind. pose proof (grow_to_spec C HA (at_pos w start) (start + sz) Hok1) as Hgs.
  pose proof (ok_pos_le w Hok).
  destruct (grow_to (start + sz) (at_pos w start)) as [[] w1|p w1| | |]; auto.
  - destruct Hgs as (_ & Hp & _ & _ & Hb & _). cbn in Hp, Hb.
    destruct (set_pos_panics (start + sz)).
    + split; [lia|]. intros i Hi. apply Hb. lia.
    + split; cbn.
      * destruct (0 <? l_size l mod VA); [|lia].
        pose proof (round_up_ge (start + sz) VA ltac:(lia)). lia.
      * intros i Hi. apply Hb. lia.
  - destruct Hgs as (_ & -> & _). apply kept_at_pos; auto.
Qed.

Lemma run_op_keep w o :
  storage_ok w -> op_valid o -> o <> OClear ->
  match run_op o w with
  | Ok _ w' | Panic _ w' => kept w w'
  | _ => True
  end.
Proof.
  intros Hok Hv Hc. cfg.
  pose proof (ok_pos_le w Hok). pose proof (ok_cap_le w Hok). pose proof (ok_cap_mul w Hok).
  destruct o as [l d|l n d|n d|l|l n|n|l|l| | |]; cbn [run_op op_valid] in *;
    unfold some_pos, no_pos.
  - unfold bind, push. pose proof (push_slice_keep w l 1 d Hok Hv ltac:(destruct Hv; lia)) as H'.
    destruct (push_slice l 1 d w); unfold ret; auto.
  - destruct Hv as [Hg Hsz]. unfold bind. pose proof (push_slice_keep w l n d Hok Hg Hsz) as H'.
    destruct (push_slice l n d w); unfold ret; auto.
  - unfold bind, push_bytes.
    pose proof (push_slice_keep w u8_layout n d Hok (u8_good C) ltac:(unfold u8_layout; cbn [l_size]; lia)) as H'.
    destruct (push_slice u8_layout n d w); unfold ret; auto.
  - unfold bind, push_empty. pose proof (push_empty_slice_keep w l 1 Hok Hv ltac:(lia)) as H'.
    destruct (push_empty_slice l 1 w); unfold ret; auto.
  - destruct Hv as [Hg Hn]. unfold bind. pose proof (push_empty_slice_keep w l n Hok Hg Hn) as H'.
    destruct (push_empty_slice l n w); unfold ret; auto.
  - unfold bind. rewrite (reserve_eq C) by assumption.
    pose proof (grow_to_spec C HA w (pos w + n) Hok) as H'.
    destruct (grow_to (pos w + n) w) as [[] w'|p w'| | |]; unfold ret; auto.
    + destruct H' as (_ & Hp & _ & _ & Hb & _). split; [lia|]. intros i Hi. apply Hb. lia.
    + destruct H' as (_ & -> & _). apply kept_refl.
  - destruct Hv as (Ha & _ & _ & Hl).
    destruct (align_for_eq C w l Ha Hl Hok) as [Haf Hst].
    erewrite bind_ok by exact Haf. unfold ret. apply kept_at_pos. apply (push_start_ge C); auto.
  - unfold align_after, bind. destruct (0 <? l_size l mod VA).
    + unfold align_after_any.
      destruct (align_eq C w VA (c_VA C) ltac:(lia) ltac:(lia)) as [-> Hle]; auto.
      unfold ret. apply kept_at_pos. apply round_up_ge. lia.
    + unfold ret. apply kept_refl.
  - unfold bind, align_after_any.
    destruct (align_eq C w VA (c_VA C) ltac:(lia) ltac:(lia)) as [-> Hle]; auto.
    unfold ret. apply kept_at_pos. apply round_up_ge. lia.
  - congruence.
  - unfold bind. pose proof (shrink_spec C HA w Hok) as H'.
    destruct (shrink_to_fit w); unfold ret; auto.
    + destruct H' as (_ & _ & Hp & _ & _ & Hb). split; [lia|exact Hb].
    + contradiction.
Qed.

(** ** Histories of pointer writes and storage calls *)

(** [VPtr q t]: PtrWriting::overwrite_ptr(q, t).  [VOp o]: a storage call, made
    through push_raw* / push_empty* or storage_mut(); a panic is caught. *)
Inductive event := VPtr (q t : N) | VOp (o : sop).

Fixpoint run_events (k : kind) (evs : list event) : M zs unit :=
  match evs with
  | [] => ret tt
  | VPtr q t :: evs' => overwrite_ptr k q t ;;; run_events k evs'
  | VOp o :: evs' => fun z =>
      match run_op o (z_sw z) with
      | Ok _ w' | Panic _ w' => run_events k evs' (mkZ w' (z_map z) (z_ptrs z))
      | Abort => Abort
      | UB => UB
      | OutOfFuel => OutOfFuel
      end
  end.

Definition ptrs_of (evs : list event) : list (N * N) :=
  flat_map (fun e => match e with VPtr q t => [(q, t)] | VOp _ => [] end) evs.

(** What a client must respect at each step, in state [z], with pointers at [wr]
    written so far: pointers are written at distinct aligned positions already
    allocated, to targets already allocated; storage calls are valid ones, not
    clear, and not the empty push of property C13. *)
Fixpoint events_ok (k : kind) (evs : list event) (wr : list N) (z : zs) : Prop :=
  match evs with
  | [] => True
  | VPtr q t :: evs' =>
      (pW | q) /\ q + pW <= zpos z /\ t <= zpos z /\ ~ In q wr /\
      match overwrite_ptr k q t z with Ok _ z' => events_ok k evs' (wr ++ [q]) z' | _ => True end
  | VOp o :: evs' =>
      op_valid o /\ o <> OClear /\ ~ empty_slice_push (z_sw z) o /\
      match run_op o (z_sw z) with
      | Ok _ w' | Panic _ w' => events_ok k evs' wr (mkZ w' (z_map z) (z_ptrs z))
      | _ => True
      end
  end.

Lemma events_inv k : tracking k = true -> pW <= MVA ->
  forall evs z G, zinv k z G -> events_ok k evs (map fst G) z ->
  match run_events k evs z with
  | Ok _ z' => zinv k z' (G ++ ptrs_of evs) /\ zpos z <= zpos z' /\
      extends (z_sw z) (z_sw z') /\
      (forall i, i < zpos z -> (forall q t, In (q, t) (ptrs_of evs) -> covers i (q, t) = false) ->
         zbuf z' i = zbuf z i)
  | Abort => alloc_failed
  | _ => False
  end.
Proof.
  intros Hk Hmv. induction evs as [|[q t|o] evs IH]; intros z G Hz Hev.
  - cbn. rewrite app_nil_r. ands; auto; [lia|apply extends_refl].
  - cbn [events_ok] in Hev. destruct Hev as (E1 & E2 & E3 & E4 & E5).
    destruct (overwrite_ptr_spec C k z G q t Hk Hz Hmv E1 E2 E3 E4) as [Heq Hz1].
    cbn [run_events]. erewrite bind_ok by exact Heq.
    rewrite Heq in E5.
    assert (Hm : map fst G ++ [q] = map fst (G ++ [(q, t)])) by (rewrite map_app; reflexivity).
    rewrite Hm in E5. specialize (IH _ _ Hz1 E5).
    destruct (run_events k evs (ptr_written k z q t)) as [[] z2|e z2| | |]; auto.
    destruct IH as (I1 & I2 & I3 & I4). cbn [ptrs_of flat_map]. fold (ptrs_of evs).
    cbn [app]. rewrite <- app_assoc in I1. cbn [app] in I1.
    assert (Hp : zpos (ptr_written k z q t) = zpos z) by (destruct k; reflexivity).
    assert (Hx : extends (z_sw z) (z_sw (ptr_written k z q t)))
      by (apply extends_same; destruct k; reflexivity).
    ands; auto.
    + lia.
    + eapply extends_trans; eassumption.
    + intros i Hi Hc. rewrite I4.
      * pose proof (Hc q t (or_introl eq_refl)) as Hcq. unfold covers in Hcq; cbn [fst] in Hcq.
        destruct k; try discriminate; cbn; apply blit_out; lia.
      * lia.
      * intros q' t' Hin. apply (Hc q' t'). right; exact Hin.
  - cbn [events_ok] in Hev. destruct Hev as (E1 & E2 & E3 & E4). cbn [run_events].
    pose proof (zinv_ok _ _ _ Hz) as Hok.
    pose proof (run_op_spec C HA (z_sw z) o Hok E1) as H1.
    pose proof (run_op_keep (z_sw z) o Hok E1 E2) as H2.
    cbn [ptrs_of flat_map app]. fold (ptrs_of evs).
    assert (Hgo : forall w', storage_ok w' /\ extends (z_sw z) w' -> kept (z_sw z) w' ->
       events_ok k evs (map fst G) (mkZ w' (z_map z) (z_ptrs z)) ->
       match run_events k evs (mkZ w' (z_map z) (z_ptrs z)) with
       | Ok _ z' => zinv k z' (G ++ ptrs_of evs) /\ zpos z <= zpos z' /\
           extends (z_sw z) (z_sw z') /\
           (forall i, i < zpos z -> (forall q t, In (q, t) (ptrs_of evs) -> covers i (q, t) = false) ->
              zbuf z' i = zbuf z i)
       | Abort => alloc_failed
       | _ => False
       end).
    { intros w' [Hok' Hx'] [Hk1 Hk2] Hev'.
      pose proof (zinv_push k z G w' Hz Hok' Hk1 Hk2) as Hz1.
      specialize (IH _ _ Hz1 Hev').
      destruct (run_events k evs _) as [[] z2|e z2| | |]; auto.
      cbn [z_sw] in IH. destruct IH as (I1 & I2 & I3 & I4). ands; auto.
      - lia.
      - eapply extends_trans; eassumption.
      - intros i Hi Hc. rewrite I4 by (auto; lia). apply Hk2. exact Hi. }
    destruct (run_op o (z_sw z)) as [r w'|e w'| | |]; auto.
    + apply Hgo; auto. tauto.
    + apply Hgo; auto. tauto.
Qed.

(** C22: whatever happened, finalize makes every pointer right and changes nothing else. *)
Theorem correction evs w z :
  pW <= MVA -> storage_ok w -> events_ok Complete evs [] (from_storage w) ->
  run_events Complete evs (from_storage w) = Ok tt z ->
  exists z', finalize Complete z = Ok tt z' /\
    pos (z_sw z') = pos (z_sw z) /\ cap (z_sw z') = cap (z_sw z) /\ ptr (z_sw z') = ptr (z_sw z) /\
    sw_trace (z_sw z') = sw_trace (z_sw z) /\
    (forall q t, In (VPtr q t) evs -> read_word (zbuf z') q = Some (zptr z' + t)) /\
    (forall i, (forall q t, In (VPtr q t) evs -> i < q \/ q + pW <= i) -> zbuf z' i = zbuf z i).
Proof.
  intros Hmv Hok Hev Hrun. cfg.
  pose proof (from_storage_inv Complete w Hok) as Hz0.
  pose proof (events_inv Complete eq_refl Hmv evs _ [] Hz0 Hev) as HI. rewrite Hrun in HI.
  destruct HI as (I1 & I2 & I3 & I4). cbn [app] in I1.
  assert (Hne : Complete = Complete -> 0 < zcap z \/ ptrs_of evs = []).
  { intros _. destruct (ptrs_of evs) as [|[q t] G] eqn:Eg; [auto|left].
    destruct I1 as (Hok1 & Hin & _). destruct (Hin q t (or_introl eq_refl)) as (_ & A & _).
    pose proof (ok_pos_le _ Hok1). lia. }
  destruct (finalize_eq C Complete z (ptrs_of evs) I1 Hne) as (z' & F & Z1 & Z2 & Z3 & Z4 & Z5 & Z6 & Z7).
  exists z'. 
  assert (Hin : forall q t, In (VPtr q t) evs <-> In (q, t) (ptrs_of evs)).
  { intros q t. unfold ptrs_of. rewrite in_flat_map. split.
    - intros H'. exists (VPtr q t). split; [exact H'|left; reflexivity].
    - intros ([q' t'|o] & A & B); [|contradiction]. destruct B as [B|[]]. inversion B; subst. exact A. }
  ands; auto.
  - intros q t Hqt. apply Hin in Hqt. cbn [final_base] in Z7.
    pose proof I1 as (Hok1 & Hpt & Hnd & _). destruct (Hpt q t Hqt) as (P1 & P2 & P3).
    assert (Hcap : 0 < zcap z) by (pose proof (ok_pos_le _ Hok1); lia).
    destruct Hok1 as (O1 & O2 & O3 & O4 & O5 & O6). destruct (O6 Hcap) as (_ & _ & O7).
    apply read_word_src; [lia|].
    intros i Hi. rewrite Z7, Z3. apply overlay_hit; auto; [lia|].
    intros q' t' Hq'. apply (Hpt q' t' Hq').
  - intros i Hi. rewrite Z7. apply overlay_none. intros q t Hqt. apply Hin in Hqt.
    specialize (Hi q t Hqt). unfold covers; cbn. lia.
Qed.

(** The same for every serializer that writes pointers; no step has undefined behaviour. *)
Theorem access k evs w :
  tracking k = true -> pW <= MVA -> storage_ok w -> events_ok k evs [] (from_storage w) ->
  match run_events k evs (from_storage w) with
  | Ok _ z =>
      exists z', finalize k z = Ok tt z' /\ storage_ok (z_sw z') /\
        pos (z_sw z') = pos (z_sw z) /\
        (forall q t, In (VPtr q t) evs ->
           read_word (zbuf z') q = Some (match k with Complete => zptr z' | _ => 0 end + t)) /\
        (forall i, (forall q t, In (VPtr q t) evs -> i < q \/ q + pW <= i) -> zbuf z' i = zbuf z i) /\
        (forall i, i < pos w -> (forall q t, In (VPtr q t) evs -> i < q \/ q + pW <= i) -> zbuf z' i = buf w i)
  | Abort => alloc_failed
  | Panic _ _ | UB | OutOfFuel => False
  end.
Proof.
  intros Hk Hmv Hok Hev. cfg.
  pose proof (from_storage_inv k w Hok) as Hz0.
  pose proof (events_inv k Hk Hmv evs _ [] Hz0 Hev) as HI.
  destruct (run_events k evs (from_storage w)) as [[] z|e z| | |]; auto.
  destruct HI as (I1 & I2 & I3 & I4). cbn [app] in I1.
  assert (Hne : k = Complete -> 0 < zcap z \/ ptrs_of evs = []).
  { intros _. destruct (ptrs_of evs) as [|[q t] G] eqn:Eg; [auto|left].
    destruct I1 as (Hok1 & Hin & _). destruct (Hin q t (or_introl eq_refl)) as (_ & A & _).
    pose proof (ok_pos_le _ Hok1). lia. }
  destruct (finalize_eq C k z (ptrs_of evs) I1 Hne) as (z' & F & Z1 & Z2 & Z3 & Z4 & Z5 & Z6 & Z7).
  exists z'. 
  assert (Hin : forall q t, In (VPtr q t) evs <-> In (q, t) (ptrs_of evs)).
  { intros q t. unfold ptrs_of. rewrite in_flat_map. split.
    - intros H'. exists (VPtr q t). split; [exact H'|left; reflexivity].
    - intros ([q' t'|o] & A & B); [|contradiction]. destruct B as [B|[]]. inversion B; subst. exact A. }
  assert (Hout : forall i, (forall q t, In (VPtr q t) evs -> i < q \/ q + pW <= i) -> zbuf z' i = zbuf z i).
  { intros i Hi. rewrite Z7. apply overlay_none. intros q t Hqt. apply Hin in Hqt.
    specialize (Hi q t Hqt). unfold covers; cbn. lia. }
  ands; auto.
  - intros q t Hqt. apply Hin in Hqt.
    pose proof I1 as (Hok1 & Hpt & Hnd & _). destruct (Hpt q t Hqt) as (P1 & P2 & P3).
    assert (Hcap : 0 < zcap z) by (pose proof (ok_pos_le _ Hok1); lia).
    destruct Hok1 as (O1 & O2 & O3 & O4 & O5 & O6). destruct (O6 Hcap) as (_ & _ & O7).
    rewrite <- Z3 in O7.
    apply read_word_src; [destruct k; lia|].
    intros i Hi. rewrite Z7. unfold final_base. rewrite <- Z3. apply overlay_hit; auto; [lia|].
    intros q' t' Hq'. apply (Hpt q' t' Hq').
  - intros i Hi Hi2. rewrite Hout by exact Hi2. apply I4; [exact Hi|].
    intros q t Hqt. apply Hin in Hqt. specialize (Hi2 q t Hqt). unfold covers; cbn. lia.
Qed.

End Cfg.
End Moves.
