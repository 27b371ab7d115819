(** * PropExact: the exact behaviour where a property of the list does not hold in full
    (C48-C51): when, and only when, and with what effect. *)
From Verif Require Import Base Types Storage Serializer Serialize Spec ArithFacts StorageFacts
  StorageHist MemFacts TypeFacts SerFacts SerMain SerValue SerRoot Moves StorageProps SerProps Corner Misuse
  PropStorage PropSerialize Demo WitnessSerialize.
From Coq Require Import ZifyBool ZifyNat ZifyN.
Local Open Scope N_scope.

(** ** C48: the undefined behaviour of safe storage calls, exactly *)

Lemma run_ops_app {P : Params} os1 : forall os2 w w1,
  run_ops os1 w = Ok tt w1 -> run_ops (os1 ++ os2) w = run_ops os2 w1.
Proof.
  induction os1 as [|o os1 IH]; intros os2 w w1 H; cbn in *; [inversion H; reflexivity|].
  destruct (run_op o w); try discriminate; auto.
Qed.

(** A history of safe calls has undefined behaviour if and only if at some point an empty
    slice of a type with a size and an alignment above 1 is pushed to a storage that has
    no buffer. *)
Theorem C48_UB_exactly {P : Params} : forall c os w0,
  cfg_ok -> alloc_ok -> c < umod -> Forall op_valid os ->
  with_capacity c sw_new = Ok tt w0 ->
  (run_ops os w0 = UB <->
   exists os1 l d os2 w1, os = os1 ++ OPushSlice l 0 d :: os2 /\ run_ops os1 w0 = Ok tt w1 /\
     0 < l_size l /\ 1 < l_align l /\ s_cap (sw_s w1) = 0).
Proof.
  intros c os w0 C HA Hc Hv Hw. split; [apply (C13_only_UB c os w0 C HA Hc Hv Hw)|].
  intros (os1 & l & d & os2 & w1 & -> & H1 & H2 & H3 & H4).
  rewrite (run_ops_app _ _ _ _ H1).
  apply Forall_app in Hv. destruct Hv as [Hv1 Hv2]. inversion Hv2 as [|? ? Hvo _]; subst.
  pose proof (run_ops_spec C HA os1 w0 (proj1 (start_ok C HA c w0 Hc Hw)) Hv1) as Hs. rewrite H1 in Hs.
  destruct Hs as (Hok & _).
  cbn [run_ops run_op]. unfold some_pos, bind.
  rewrite (empty_push_UB C w1 l d Hok (proj1 Hvo) H2 H3 H4). reflexivity.
Qed.

Example C48_witness :
  @run_ops demo [OPushBytes 0 no_mem; OPushSlice u32_layout 0 no_mem; OPushBytes 3 no_mem] sw_new = UB /\
  match @run_ops demo [OReserve 1; OPushSlice u32_layout 0 no_mem; OPushBytes 3 no_mem] sw_new with
  | Ok _ w => s_pos (sw_s w) = 8 | _ => False end.
Proof. split; vm_compute; reflexivity. Qed.

(** ** C49: push_empty_slice, exactly *)

(** The position is the next one aligned for T.  Too many bytes for a usize: a debug build
    panics, a release build goes on with the number of bytes modulo 2^bits.  Too many for
    the storage: the capacity panic.  Otherwise a debug build panics if the number of bytes is
    not a multiple of VALUE_ALIGNMENT, and in all other cases the call succeeds.  In every
    case the bytes stored before are kept. *)
Theorem C49_push_empty_exactly {P : Params} : forall w l n,
  cfg_ok -> alloc_ok -> storage_ok w -> good_layout l ->
  let st := push_start (s_pos (sw_s w)) l in
  let bytes := (l_size l * n) mod umod in
  let kept w' := storage_ok w' /\ forall i, i < s_pos (sw_s w) -> s_buf (sw_s w') i = s_buf (sw_s w) i in
  match push_empty_slice l n w with
  | Ok p w' =>
      p = st /\ s_pos (sw_s w') = round_up (st + bytes) VA /\ kept w' /\
      st + bytes <= MAXC /\
      (dbg = true -> l_size l * n < umod /\ (VA | l_size l * n))
  | Panic PArith w' => dbg = true /\ umod <= l_size l * n /\ kept w' /\ s_pos (sw_s w') = st
  | Panic PCapacity w' =>
      (dbg = true -> l_size l * n < umod) /\ MAXC < st + bytes /\ kept w' /\ s_pos (sw_s w') = st
  | Panic PDebugAssert w' =>
      dbg = true /\ l_size l * n < umod /\ st + bytes <= MAXC /\ ~ (VA | l_size l * n) /\ kept w' /\
      s_pos (sw_s w') = st
  | Panic _ _ => False
  | Abort => alloc_failed
  | UB | OutOfFuel => False
  end.
Proof.
  intros w l n C HA Hok Hg st bytes kept.
  pose proof umod_pos as Hu0.
  pose proof Hg as (Ha & Hg2 & Hg3 & Hg4).
  pose proof (c_VA_pos C) as HVA.
  destruct (align_for_eq C w l Ha Hg4 Hok) as [Haf Hst]. fold st in Haf, Hst.
  assert (HstVA : (VA | st)) by (apply push_start_VA; auto).
  pose proof (push_start_ge C (s_pos (sw_s w)) l Ha) as Hge. fold st in Hge.
  assert (Hok1 : storage_ok (at_pos w st)) by (apply ok_at_pos; assumption).
  assert (Hk1 : kept (at_pos w st)) by (split; [exact Hok1|reflexivity]).
  assert (Hmul : (dbg = true /\ umod <= l_size l * n /\
                    forall w', mul_u (l_size l) n w' = @Panic sw N PArith w') \/
                 ((dbg = true -> l_size l * n < umod) /\ (forall w', mul_u (l_size l) n w' = @Ok sw N bytes w'))).
  { unfold mul_u, bytes. destruct (N.ltb_spec (l_size l * n) umod) as [Hl|Hl].
    - right. split; [auto|]. rewrite N.mod_small by exact Hl. reflexivity.
    - destruct dbg; [left|right]; auto. split; [discriminate|reflexivity]. }
  destruct Hmul as [(Hd & Hover & Hm)|(Hd & Hm)].
  { unfold push_empty_slice. erewrite bind_ok by exact Haf. erewrite bind_panic by apply Hm. cbn match. ands; auto. }
  assert (Hb : bytes < umod) by (apply N.mod_lt; lia).
  assert (HVAb : (VA | l_size l * n) <-> (VA | bytes)).
  { unfold bytes. rewrite N.mod_eq by lia.
    assert (Hx : (VA | umod * (l_size l * n / umod))) by (apply N.divide_mul_l, VA_dvd_umod; auto).
    split; intros Hy.
    - apply N.divide_sub_r; auto.
    - replace (l_size l * n) with (umod * (l_size l * n / umod) + (l_size l * n - umod * (l_size l * n / umod))).
      + apply N.divide_add_r; auto.
      + pose proof (N.mul_div_le (l_size l * n) umod ltac:(lia)). lia. }
  rewrite (push_empty_slice_eq C HA w l n bytes Hok Hg Hb Hm). fold st.
  unfold bind.
  pose proof (grow_to_spec C HA (at_pos w st) (st + bytes) Hok1) as Hgs.
  destruct (grow_to (st + bytes) (at_pos w st)) as [[] w1|p w1| | |]; auto.
  2:{ destruct Hgs as (-> & -> & Hmax). cbn match. ands; auto. }
  destruct Hgs as (G1 & G2 & G3 & G4 & G5 & G6 & G7 & G8). cbn in G2, G5.
  pose proof (ok_pos_le _ Hok) as Hpc.
  assert (Hk2 : kept w1) by (split; [exact G1|intros i Hi; apply G5; cbn; lia]).
  unfold set_pos_panics.
  destruct (dbg && negb ((st + bytes) mod VA =? 0)) eqn:Ep.
  - apply andb_prop in Ep. destruct Ep as [E1 E2]. cbn match. ands; auto.
    intros Hy. apply HVAb in Hy.
    assert (Hz : (st + bytes) mod VA = 0) by (apply N.mod_divide; [lia|]; apply N.divide_add_r; auto).
    rewrite Hz in E2. discriminate.
  - assert (Hpos : (if 0 <? l_size l mod VA then round_up (st + bytes) VA else st + bytes) = round_up (st + bytes) VA).
    { destruct (N.ltb_spec 0 (l_size l mod VA)) as [Hx|Hx]; [reflexivity|].
      symmetry. apply round_up_id; [lia|]. apply N.divide_add_r; auto.
      apply HVAb. apply N.divide_mul_l. apply N.mod_divide; [lia|lia]. }
    rewrite Hpos. cbn [at_pos with_store sw_s s_pos].
    assert (Hle : round_up (st + bytes) VA <= s_cap (sw_s w1)).
    { apply round_up_least; [lia| |exact G3].
      eapply divide_trans; [apply (c_VA_dvd_MVA C)|apply ok_cap_mul; exact G1]. }
    ands; auto.
    + split; [|intros i Hi; cbn; apply Hk2; exact Hi].
      apply ok_at_pos; auto. apply round_up_divide.
    + intros Hdb. split; [auto|]. apply HVAb. rewrite Hdb in Ep. cbn [andb] in Ep.
      assert (Hz : (st + bytes) mod VA = 0) by lia.
      apply N.mod_divide in Hz; [|lia].
      replace bytes with (st + bytes - st) by lia. apply N.divide_sub_r; auto.
Qed.

(** All four outcomes occur. *)
Example C49_witness :
  (match @push_empty_slice demo u32_layout 2 sw_new with Ok p w => (p, s_pos (sw_s w)) = (0, 8) | _ => False end) /\
  (match @push_empty_slice demo u32_layout 3 sw_new with Panic e _ => e = PDebugAssert | _ => False end) /\
  (match @push_empty_slice demo u32_layout (2 ^ 62) sw_new with Panic e _ => e = PArith | _ => False end) /\
  (match @push_empty_slice demo u32_layout 5000 sw_new with Panic e _ => e = PCapacity | _ => False end) /\
  (match @push_empty_slice demo_release u32_layout 3 sw_new with Ok p w => (p, s_pos (sw_s w)) = (0, 16) | _ => False end) /\
  (match @push_empty_slice demo_release u32_layout (2 ^ 62 + 1) sw_new with
   | Ok p w => (p, s_pos (sw_s w)) = (0, 8) | _ => False end).
Proof. ands; vm_compute; reflexivity. Qed.

(** ** C50: pushing for an arbitrary address in a release build, exactly *)

(** In a release build push and push_slice of a pointer-writing serializer, given any address,
    write the word at position (address - start of the value being processed + its position)
    modulo 2^bits: undefined behaviour if and only if that word is not inside the buffer (as it
    is after the push) or not aligned; otherwise exactly that word is set, to the offset or
    address of the pushed slice. *)
Theorem C50_any_address_exactly {P : Params} : forall k s n z,
  cfg_ok -> alloc_ok -> storage_ok (z_sw z) -> dbg = false -> k = PtrOffset \/ k = Complete ->
  slice_fine s -> n < umod -> pm_in (z_map z) < umod -> pm_out (z_map z) < umod ->
  let q := (n + (umod - pm_in (z_map z)) + pm_out (z_map z)) mod umod in
  let fine w := q + pW <= s_cap (sw_s w) /\ (pW | s_ptr (sw_s w) + q) in
  match push_slice (sl_lay s) (sl_len s) (sl_data s) (z_sw z) with
  | Ok p w1 =>
      (ser_push_slice k s (ATrack n) z = UB <-> ~ fine w1) /\
      (fine w1 -> exists z', ser_push_slice k s (ATrack n) z = Ok p z' /\
         s_pos (sw_s (z_sw z')) = s_pos (sw_s w1) /\ s_cap (sw_s (z_sw z')) = s_cap (sw_s w1) /\
         s_ptr (sw_s (z_sw z')) = s_ptr (sw_s w1) /\
         s_buf (sw_s (z_sw z')) = blit (s_buf (sw_s w1)) q pW
           (word_src (match k with Complete => (s_ptr (sw_s w1) + p) mod umod | _ => p end)))
  | _ => ser_push_slice k s (ATrack n) z <> UB
  end.
Proof.
  intros k s n z C HA Hok Hdbg Hk (Hl & Hle & Hn) Hnu Hpi Hpo q fine.
  pose proof umod_pos as Hu0.
  assert (HW : 0 < pW) by (pose proof (pW_vals (c_machine C)); lia).
  assert (Hpush : ser_push_slice k s (ATrack n) = pw_push_slice k s (ATrack n)) by (destruct Hk; subst; reflexivity).
  rewrite Hpush. unfold pw_push_slice, push_raw_slice.
  destruct (push_slice (sl_lay s) (sl_len s) (sl_data s) (z_sw z)) as [p w1|e w1| | |] eqn:Ep.
  2-5: unfold bind, lift; rewrite Ep; try discriminate.
  2:{ exfalso.
      pose proof (push_slice_gstep C HA (z_sw z) (sl_lay s) (sl_len s) (sl_data s) Hok Hl Hle (or_introl Hn)) as Hg.
      rewrite Ep in Hg. exact Hg. }
  set (z1 := mkZ w1 (z_map z) (z_ptrs z)).
  erewrite bind_ok by (unfold lift; rewrite Ep; reflexivity).
  erewrite bind_ok by reflexivity. cbn [z_map].
  assert (Hq : pos_for_addr (z_map z) (ATrack n) z1 = Ok q z1).
  { unfold pos_for_addr, addr_n. erewrite bind_ok by reflexivity.
    unfold sub_u, add_u. rewrite Hdbg. 
    destruct (N.leb_spec (pm_in (z_map z)) n) as [Hx|Hx].
    - erewrite bind_ok by reflexivity.
      destruct (N.ltb_spec (n - pm_in (z_map z) + pm_out (z_map z)) umod) as [Hy|Hy].
      + unfold ret. f_equal. unfold q.
        replace (n + (umod - pm_in (z_map z)) + pm_out (z_map z)) with (n - pm_in (z_map z) + pm_out (z_map z) + 1 * umod) by lia.
        rewrite N.mod_add by lia. symmetry. apply N.mod_small. exact Hy.
      + unfold ret. f_equal. unfold q.
        replace (n + (umod - pm_in (z_map z)) + pm_out (z_map z)) with (n - pm_in (z_map z) + pm_out (z_map z) + 1 * umod) by lia.
        rewrite N.mod_add by lia. reflexivity.
    - erewrite bind_ok by reflexivity.
      assert (He : n + umod - pm_in (z_map z) + pm_out (z_map z) = n + (umod - pm_in (z_map z)) + pm_out (z_map z)) by lia.
      rewrite He. unfold q.
      destruct (N.ltb_spec (n + (umod - pm_in (z_map z)) + pm_out (z_map z)) umod) as [Hy|Hy];
        unfold ret; f_equal. symmetry. apply N.mod_small. exact Hy. }
  erewrite bind_ok by exact Hq.
  assert (Hda : forall (S : Type) (c : M S bool) (st : S), dassert c st = Ok tt st).
  { intros S c st. unfold dassert. rewrite Hdbg. reflexivity. }
  (* the write *)
  assert (Hwr : forall x, write q usize_layout (word_src x) w1 =
            if (q + pW <=? s_cap (sw_s w1)) && ((s_ptr (sw_s w1) + q) mod pW =? 0)
            then Ok tt (with_store w1 (mkStore (s_ptr (sw_s w1)) (s_cap (sw_s w1)) (s_pos (sw_s w1))
                          (blit (s_buf (sw_s w1)) q pW (word_src x)))) else UB).
  { intros x. unfold write, write_slice. erewrite bind_ok by reflexivity.
    erewrite bind_ok by apply Hda. erewrite bind_ok by apply Hda. erewrite bind_ok by apply Hda.
    cbn [usize_layout l_size l_align]. rewrite (proj2 (N.eqb_neq pW 0)) by lia. rewrite N.mul_1_r. reflexivity. }
  assert (Hfine : (q + pW <=? s_cap (sw_s w1)) && ((s_ptr (sw_s w1) + q) mod pW =? 0) = true <-> fine w1).
  { unfold fine. rewrite Bool.andb_true_iff, N.leb_le, N.eqb_eq, N.mod_divide by lia. tauto. }
  destruct Hk as [-> | ->]; cbn [overwrite_ptr].
  - assert (Hov : po_overwrite_ptr q p z1 = lift (write q usize_layout (word_src p)) z1).
    { unfold po_overwrite_ptr. erewrite bind_ok by apply Hda. erewrite bind_ok by apply Hda.
      erewrite bind_ok by apply Hda. reflexivity. }
    unfold bind. rewrite Hov. unfold lift. cbn [z1 z_sw]. rewrite Hwr.
    destruct ((q + pW <=? s_cap (sw_s w1)) && ((s_ptr (sw_s w1) + q) mod pW =? 0)) eqn:Ef.
    + split; [split; [discriminate|intros X; exfalso; apply X, Hfine; reflexivity]|].
      intros _. eexists. split; [reflexivity|]. cbn. auto.
    + split; [split; [intros _ X; apply Hfine in X; discriminate|reflexivity]|].
      intros X; apply Hfine in X; discriminate.
  - assert (Hadd : forall (S : Type) (st : S), add_u (s_ptr (sw_s w1)) p st = Ok ((s_ptr (sw_s w1) + p) mod umod) st).
    { intros S st. unfold add_u. rewrite Hdbg. destruct (N.ltb_spec (s_ptr (sw_s w1) + p) umod) as [Hy|Hy]; [|reflexivity].
      rewrite N.mod_small by exact Hy. reflexivity. }
    assert (Hov : forall (f : unit -> M zs N), bind (co_overwrite_ptr q p) f z1 =
       match lift (write q usize_layout (word_src ((s_ptr (sw_s w1) + p) mod umod))) z1 with
       | Ok _ z2 => f tt (mkZ (z_sw z2) (z_map z2)
            (let pt := z_ptrs z2 in
             let pt := if negb (s_ptr (sw_s w1) =? pg_addr (pt_current pt)) then new_ptr_group pt (s_ptr (sw_s w1)) else pt in
             mkPtrs (group_push (pt_current pt) q) (pt_past pt)))
       | Panic e z2 => Panic e z2 | Abort => Abort | UB => UB | OutOfFuel => OutOfFuel
       end).
    { intros f. unfold co_overwrite_ptr, bind at 1.
      erewrite bind_ok by apply Hda. erewrite bind_ok by apply Hda.
      erewrite bind_ok by apply Hda.
      rewrite (bind_ok (lift as_ptr) _ z1 (s_ptr (sw_s w1)) z1 eq_refl).
      erewrite bind_ok by apply Hadd. unfold bind.
      destruct (lift (write q usize_layout (word_src ((s_ptr (sw_s w1) + p) mod umod))) z1); reflexivity. }
    rewrite Hov. unfold lift. cbn [z1 z_sw]. rewrite Hwr.
    destruct ((q + pW <=? s_cap (sw_s w1)) && ((s_ptr (sw_s w1) + q) mod pW =? 0)) eqn:Ef.
    + split; [split; [discriminate|intros X; exfalso; apply X, Hfine; reflexivity]|].
      intros _. eexists. split; [reflexivity|]. cbn. auto.
    + split; [split; [intros _ X; apply Hfine in X; discriminate|reflexivity]|].
      intros X; apply Hfine in X; discriminate.
Qed.

Example C50_witness :
  let z := mkZ sw_new (mkMap 6000 0) ptrs_new in
  @slice_fine demo_release sl8 /\
  (forall n, In n [6000; 6008; 6004; 5992; 6016] ->
     match @push_slice demo_release (sl_lay sl8) (sl_len sl8) (sl_data sl8) (z_sw z) with
     | Ok p w1 => s_cap (sw_s w1) = 16 | _ => False end) /\
  map (fun n => match @ser_push_slice demo_release Complete sl8 (ATrack n) z with
                | Ok p z' => @read_word demo_release (s_buf (sw_s (z_sw z'))) (n - 6000) | _ => None end)
    [6000; 6008; 6004; 5992; 6016] = [Some 65536; Some 65536; None; None; None] /\
  map (fun n => match @ser_push_slice demo_release Complete sl8 (ATrack n) z with UB => true | _ => false end)
    [6000; 6008; 6004; 5992; 6016] = [false; false; true; true; true].
Proof.
  cbn zeta. ands.
  - unfold slice_fine, good_layout. ands; try conc; try reflexivity; vm_compute; discriminate.
  - intros n _. vm_compute. reflexivity.
  - vm_compute. reflexivity.
  - vm_compute. reflexivity.
Qed.

(** In a debug build the same call never has undefined behaviour: if the word is inside the buffer and aligned it is set, as in a
    release build; otherwise the call panics, after the push, having changed nothing else. *)
Theorem C50_any_address_debug {P : Params} : forall k s n z,
  cfg_ok -> alloc_ok -> storage_ok (z_sw z) -> dbg = true -> k = PtrOffset \/ k = Complete -> pW <= MVA ->
  slice_fine s ->
  let q := n - pm_in (z_map z) + pm_out (z_map z) in
  match push_slice (sl_lay s) (sl_len s) (sl_data s) (z_sw z) with
  | Ok p w1 =>
      let fine := pm_in (z_map z) <= n /\ q + pW <= s_cap (sw_s w1) /\ (pW | q) in
      (fine -> exists z', ser_push_slice k s (ATrack n) z = Ok p z' /\
         s_pos (sw_s (z_sw z')) = s_pos (sw_s w1) /\ s_cap (sw_s (z_sw z')) = s_cap (sw_s w1) /\
         s_ptr (sw_s (z_sw z')) = s_ptr (sw_s w1) /\
         s_buf (sw_s (z_sw z')) = blit (s_buf (sw_s w1)) q pW
           (word_src (match k with Complete => s_ptr (sw_s w1) + p | _ => p end))) /\
      (~ fine -> exists e, ser_push_slice k s (ATrack n) z = Panic e (mkZ w1 (z_map z) (z_ptrs z)) /\
         (e = PArith \/ e = PDebugAssert))
  | Panic e w1 => ser_push_slice k s (ATrack n) z = Panic e (mkZ w1 (z_map z) (z_ptrs z))
  | Abort => ser_push_slice k s (ATrack n) z = Abort
  | UB | OutOfFuel => False
  end.
Proof.
  intros k s n z C HA Hok Hdbg Hk Hmv Hs q. pose proof Hs as (Hl & Hle & Hn).
  pose proof (pW_vals (c_machine C)) as HW. pose proof (c_umod C) as Hum. pose proof (c_sum C) as Hsum.
  pose proof (c_SA_pos C) as HSA.
  assert (Hpush : ser_push_slice k s (ATrack n) = pw_push_slice k s (ATrack n)) by (destruct Hk; subst; reflexivity).
  rewrite Hpush. unfold pw_push_slice, push_raw_slice.
  pose proof (push_total C HA (z_sw z) (sl_lay s) (sl_len s) (sl_data s) Hok Hl Hle Hn) as Ht.
  pose proof (push_pushed C HA (z_sw z) (sl_lay s) (sl_len s) (sl_data s) Hok Hl Hle) as [Hp _].
  destruct (push_slice (sl_lay s) (sl_len s) (sl_data s) (z_sw z)) as [p w1|e w1| | |] eqn:Ep; try contradiction.
  2-3: unfold bind, lift; rewrite Ep; reflexivity.
  assert (Hst : storage_ok w1 /\ (p < s_pos (sw_s w1) \/ p = 0)).
  { specialize (Hp _ _ eq_refl). unfold pushed in Hp.
    destruct (N.eqb_spec (l_size (sl_lay s)) 0) as [E0|E0].
    - destruct Hp as [-> ->]. split; [auto|lia].
    - destruct Hp as (_ & (_ & L0 & _) & (_ & L & _) & _ & _ & Hok'). assert (0 < l_size (sl_lay s) * sl_len s) by (apply N.mul_pos_pos; lia). split; [auto|lia]. }
  destruct Hst as [Hok1 Hple]. pose proof (ok_pos_le _ Hok1) as Hpc. pose proof (ok_cap_le _ Hok1) as Hcm.
  set (z1 := mkZ w1 (z_map z) (z_ptrs z)).
  erewrite bind_ok by (unfold lift; rewrite Ep; reflexivity).
  erewrite bind_ok by reflexivity. cbn [z_map]. fold z1. cbv zeta.
  set (fine := pm_in (z_map z) <= n /\ q + pW <= s_cap (sw_s w1) /\ (pW | q)).
  assert (Hq : pos_for_addr (z_map z) (ATrack n) z1 =
     if (pm_in (z_map z) <=? n) && (q <? umod) then Ok q z1 else Panic PArith z1).
  { unfold pos_for_addr, addr_n. erewrite bind_ok by reflexivity. unfold sub_u, add_u. rewrite Hdbg.
    destruct (pm_in (z_map z) <=? n); [|reflexivity]. erewrite bind_ok by reflexivity. fold q. destruct (q <? umod); reflexivity. }
  destruct ((pm_in (z_map z) <=? n) && (q <? umod)) eqn:E1.
  2:{ split.
      - intros (F1 & F2 & F3). exfalso. rewrite (proj2 (N.leb_le _ _) F1) in E1. cbn in E1. apply N.ltb_ge in E1. lia.
      - intros _. exists PArith. split; [|auto]. unfold bind at 1. rewrite Hq. reflexivity. }
  apply Bool.andb_true_iff in E1. destruct E1 as [E1 E2]. apply N.leb_le in E1. apply N.ltb_lt in E2.
  erewrite bind_ok by exact Hq.
  assert (Hcap : forall B (f : N -> M zs B), (c <- ser_capacity ;; f c) z1 = f (s_cap (sw_s w1)) z1) by reflexivity.
  assert (Hda : forall (c : M zs bool) b, c z1 = Ok b z1 -> dassert c z1 = if b then Ok tt z1 else Panic PDebugAssert z1).
  { intros c b Hc. unfold dassert. rewrite Hdbg. erewrite bind_ok by exact Hc. destruct b; reflexivity. }
  assert (Hd1 : dassert (c <- ser_capacity ;; d <- sub_u c pW ;; ret (q <=? d)) z1 =
     if q + pW <=? s_cap (sw_s w1) then Ok tt z1 else Panic (if pW <=? s_cap (sw_s w1) then PDebugAssert else PArith) z1).
  { unfold dassert. rewrite Hdbg. unfold bind at 1. rewrite Hcap. unfold sub_u. rewrite Hdbg.
    destruct (N.leb_spec pW (s_cap (sw_s w1))) as [X|X].
    - erewrite bind_ok by reflexivity. unfold ret at 1.
      destruct (N.leb_spec q (s_cap (sw_s w1) - pW)); destruct (N.leb_spec (q + pW) (s_cap (sw_s w1))); try lia; reflexivity.
    - destruct (N.leb_spec (q + pW) (s_cap (sw_s w1))); [lia|reflexivity]. }
  assert (Hd2 : dassert (is_aligned_to q pW) z1 = if q mod pW =? 0 then Ok tt z1 else Panic PDebugAssert z1).
  { apply Hda. apply is_aligned_to_ok, pW_pow2, (c_machine C). }
  assert (Hd3 : dassert (c <- ser_capacity ;; ret (p <=? c)) z1 = Ok tt z1).
  { rewrite (Hda _ true); [reflexivity|]. rewrite Hcap. unfold ret. rewrite (proj2 (N.leb_le _ _)) by lia. reflexivity. }
  assert (Hbad : forall (g : M zs unit) (h : unit -> M zs N), ~ fine ->
    exists e, (x <- (dassert (c <- ser_capacity ;; d <- sub_u c pW ;; ret (q <=? d)) ;;;
      dassert (is_aligned_to q pW) ;;; g) ;; h x) z1 = Panic e z1 /\ (e = PArith \/ e = PDebugAssert)).
  { intros g h Hf. destruct (N.leb_spec (q + pW) (s_cap (sw_s w1))) as [X|X].
    - exists PDebugAssert. split; [|auto]. apply bind_panic. erewrite bind_ok by exact Hd1. apply bind_panic. rewrite Hd2.
      destruct (N.eqb_spec (q mod pW) 0) as [Y|Y]; [|reflexivity].
      exfalso. apply Hf. unfold fine. ands; auto. apply N.mod_divide; [lia|exact Y].
    - eexists. split; [apply bind_panic; apply bind_panic; exact Hd1|]. destruct (pW <=? _); auto. }
  assert (Hgood : forall (g : M zs unit), fine -> (dassert (c <- ser_capacity ;; d <- sub_u c pW ;; ret (q <=? d)) ;;;
      dassert (is_aligned_to q pW) ;;; dassert (c <- ser_capacity ;; ret (p <=? c)) ;;; g) z1 = g z1).
  { intros g (F1 & F2 & F3). erewrite bind_ok by (rewrite Hd1; rewrite (proj2 (N.leb_le _ _)) by lia; reflexivity).
    erewrite bind_ok by (rewrite Hd2; rewrite (proj2 (N.eqb_eq _ _)) by (apply N.mod_divide; [lia|exact F3]); reflexivity).
    erewrite bind_ok by exact Hd3. reflexivity. }
  assert (Hwr : fine -> forall x, lift (write q usize_layout (word_src x)) z1 =
     Ok tt (mkZ (with_store w1 (mkStore (s_ptr (sw_s w1)) (s_cap (sw_s w1)) (s_pos (sw_s w1))
                          (blit (s_buf (sw_s w1)) q pW (word_src x)))) (z_map z) (z_ptrs z))).
  { intros (F1 & F2 & F3) x. assert (L : s_ptr (sw_s w1) <> 0 /\ (SA | s_ptr (sw_s w1)) /\ s_ptr (sw_s w1) + s_cap (sw_s w1) < umod) by (apply Hok1; lia).
    destruct L as (L1 & L2 & L3).
    assert (LA : (pW | s_ptr (sw_s w1) + q)).
    { apply N.divide_add_r; [|exact F3]. eapply N.divide_trans; [|exact L2]. eapply N.divide_trans; [|apply (c_MVA_dvd_SA C)].
      apply pow2_divide; [apply pW_pow2, (c_machine C)|apply (c_MVA C)|exact Hmv]. }
    unfold lift. cbn [z1 z_sw]. unfold write, write_slice.
    erewrite bind_ok by reflexivity.
    erewrite bind_ok by (unfold dassert; rewrite Hdbg; cbn; rewrite (proj2 (N.leb_le _ _)) by lia; reflexivity).
    erewrite bind_ok by (unfold dassert; rewrite Hdbg; unfold bind, sub_u, mul_u; rewrite Hdbg; cbn [usize_layout l_size l_align]; rewrite N.mul_1_r;
      rewrite (proj2 (N.leb_le q _)) by lia; rewrite (proj2 (N.ltb_lt pW _)) by lia; unfold ret; rewrite (proj2 (N.leb_le pW _)) by lia; reflexivity).
    erewrite bind_ok by (unfold dassert; rewrite Hdbg; unfold bind; cbn [usize_layout l_align]; rewrite is_aligned_to_ok by apply pW_pow2, (c_machine C);
      rewrite (proj2 (N.eqb_eq _ _)) by (apply N.mod_divide; [lia|exact F3]); reflexivity).
    cbn [usize_layout l_size l_align]. rewrite (proj2 (N.eqb_neq pW 0)) by lia. rewrite N.mul_1_r.
    rewrite (proj2 (N.leb_le (q + pW) _)) by lia. rewrite (proj2 (N.eqb_eq _ 0)) by (apply N.mod_divide; [lia|exact LA]). reflexivity. }
  destruct Hk as [-> | ->]; cbn [overwrite_ptr]; (split; [intros F|apply Hbad]).
  - erewrite bind_ok by (unfold po_overwrite_ptr; rewrite (Hgood _ F); apply Hwr; exact F).
    eexists. split; [reflexivity|]. cbn. auto.
  - assert (L : s_ptr (sw_s w1) <> 0 /\ (SA | s_ptr (sw_s w1)) /\ s_ptr (sw_s w1) + s_cap (sw_s w1) < umod) by (apply Hok1; destruct F as (_ & F & _); lia).
    destruct L as (L1 & L2 & L3).
    assert (Hp1 : s_ptr (sw_s w1) + p < umod).
    { destruct F as (_ & F & _). lia. }
    unfold bind at 1. unfold co_overwrite_ptr. rewrite (Hgood _ F).
    rewrite (bind_ok (lift as_ptr) _ z1 (s_ptr (sw_s w1)) z1 eq_refl).
    erewrite bind_ok by (unfold add_u; rewrite (proj2 (N.ltb_lt _ _)) by exact Hp1; reflexivity).
    erewrite bind_ok by (apply Hwr; exact F).
    cbn. eexists. split; [reflexivity|]. cbn. auto.
Qed.

Example C50_witness_debug :
  let z := mkZ sw_new (mkMap 6000 0) ptrs_new in
  @slice_fine demo sl8 /\ @storage_ok demo (z_sw z) /\
  map (fun n => match @ser_push_slice demo Complete sl8 (ATrack n) z with
                | Ok p z' => inl (@read_word demo (s_buf (sw_s (z_sw z'))) (n - 6000)) | Panic e _ => inr (Some e) | _ => inr None end)
    [6000; 6008; 6004; 5992; 6016] =
  [inl (Some 65536); inl (Some 65536); inr (Some PDebugAssert); inr (Some PArith); inr (Some PDebugAssert)].
Proof.
  cbn zeta. ands.
  - unfold slice_fine, good_layout. ands; try conc; try reflexivity; vm_compute; discriminate.
  - apply sw_new_ok. 
  - vm_compute. reflexivity.
Qed.

(** ** C51: the returned position, exactly *)

(** The position returned by serialize can be used to refer to the value if and only if
    the storage has a buffer or the alignment of T is 1.  The storage has no buffer only if the value
    is zero-sized, owns nothing, and the storage had none before. *)
Theorem C51_position_usable_exactly {P : Params} : forall k E m t a v w fuel p z,
  cfg_ok -> alloc_ok -> wf_env E -> storage_ok w ->
  valid_input E any_header m t a v -> (vdepth v < fuel)%nat ->
  serialize k E m fuel t a (from_storage w) = Ok p z ->
  (valid_ref (layout_of E t) 1 (s_ptr (sw_s (z_sw z)) + p) <->
   0 < s_cap (sw_s (z_sw z)) \/ align_of E t = 1) /\
  (s_cap (sw_s (z_sw z)) = 0 -> size_of E t = 0 /\ s_pos (sw_s (z_sw z)) = 0 /\ s_cap (sw_s w) = 0).
Proof.
  intros k E m t a v w fuel p z C HA HE Hw Hv Hf Hr.
  pose proof (fun H => proj1 (C41_position_usable_partial k E m t a v w fuel p z C HA HE Hw Hv Hf Hr H)) as Hbw.
  pose proof (ser_facts C HA E HE k m any_header any_header (transfers_any k) fuel t a v w Hw Hv Hf) as H.
  rewrite Hr in H. destruct H as (Hp & Hpos & _ & Hok & Hext & _ & Hq & _).
  destruct Hv as (Hwf & _ & _).
  pose proof (wf_good C E HE t Hwf) as Hg.
  assert (Hzero : s_cap (sw_s (z_sw z)) = 0 -> size_of E t = 0 /\ s_pos (sw_s (z_sw z)) = 0 /\ s_cap (sw_s w) = 0).
  { intros H0. pose proof (ok_pos_le _ Hok) as Hle.
    assert (Hpos0 : s_pos (sw_s (z_sw z)) = 0) by lia.
    assert (Hs0 : size_of E t = 0).
    { destruct (N.eq_dec (size_of E t) 0) as [|Hne]; [assumption|exfalso].
      unfold allocations in Hpos. rewrite (proj2 (N.eqb_neq _ _) Hne) in Hpos. cbn [app end_pos] in Hpos.
      pose proof (push_end_ge C (s_pos (sw_s w)) (layout_of E t) 1).
      pose proof (end_pos_ge C (push_end (s_pos (sw_s w)) (layout_of E t) 1) (owned E t v)).
      unfold size_of in *. lia. }
    ands; auto.
    destruct (Hq ltac:(lia)) as (_ & Hc & _). lia. }
  split; [|exact Hzero].
  split; [|exact Hbw].
  intros Hvr. destruct (N.eq_dec (s_cap (sw_s (z_sw z))) 0) as [H0|H0]; [right|left; lia].
  destruct (Hzero H0) as (Hs0 & _).
  assert (Hp0 : p = 0) by (rewrite Hp; unfold root_pos; rewrite (proj2 (N.eqb_eq _ _) Hs0); reflexivity).
  assert (E1 : s_ptr (sw_s (z_sw z)) = 1) by (apply Hok; auto).
  rewrite Hp0, E1 in Hvr. destruct Hvr as (_ & Hd & _).
  change (1 + 0) with 1 in Hd. apply N.divide_1_r in Hd. exact Hd.
Qed.

Example C51_witness :
  (match @serialize demo Complete no_env demo_mem 2 (TArray t_u64 0) 4096 z_new with
   | Ok p z => s_ptr (sw_s (z_sw z)) + p = 1 /\ s_cap (sw_s (z_sw z)) = 0 | _ => False end) /\
  (match @serialize demo Complete no_env demo_mem 2 (TArray t_u64 0) 4096 (from_storage demo_w) with
   | Ok p z => s_ptr (sw_s (z_sw z)) + p = 65536 /\ s_cap (sw_s (z_sw z)) = 96 | _ => False end).
Proof. vm_compute. ands; reflexivity. Qed.
