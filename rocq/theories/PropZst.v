(** * PropZst: slices of zero-sized types pushed by hand-written implementations (C88). *)
From Verif Require Import Base Types Storage Serializer Serialize Spec ArithFacts StorageFacts StorageHist MemFacts TypeFacts
  SerFacts SerMain SerValue SerRoot SerProps Client ClientSpec ClientFacts PropClient.
From Coq Require Import ZifyBool ZifyNat ZifyN.
Local Open Scope N_scope.

(** The position is 0 and nothing changes, whatever the storage holds. *)
Theorem C88_push {P : Params} : forall l n data w, l_size l = 0 -> push_slice l n data w = Ok 0 w.
Proof. intros. apply push_slice_zst. assumption. Qed.

(** A reference to a slice of a zero-sized type, pushed (or pushed and processed) by a hand-written
    implementation, is, in the output of CompleteSerializer, the address of the storage, which is
    aligned for the type and not null: it may be dereferenced.  PtrOffsetSerializer writes offset 0, which
    added to the address the output is loaded at (aligned, not null) may be dereferenced too.  The
    others keep the bytes of the input.  (The comment at storage/mod.rs:264 asks whether 0 is right.) *)
Theorem C88_zero_sized {P : Params} : forall k E m fuel l a ss w s off lz tp n body,
  cfg_ok -> alloc_ok -> wf_env E -> storage_ok w ->
  good_layout l -> 0 < l_size l -> a + l_size l <= umod ->
  steps_ok E m fuel (l_size l) (l_align l) a ss ->
  In s ss -> s = SPush off lz tp n body \/ s = SPushPlain off lz tp n -> l_size lz = 0 ->
  match client_serialize k E m fuel l a ss (from_storage w) with
  | Ok p z =>
      let w' := sw_s (z_sw z) in
      match k with
      | Complete => read_word (s_buf w') (p + off) = Some (s_ptr w') /\ valid_ref lz n (s_ptr w')
      | PtrOffset => read_word (s_buf w') (p + off) = Some 0 /\
                     (forall B, B < umod -> B <> 0 -> (MVA | B) -> valid_ref lz n (B + 0))
      | PureCopy | PosTracking => forall i, i < pW -> s_buf w' (p + off + i) = m (a + off + i)
      end
  | Panic _ _ | Abort => True
  | UB | OutOfFuel => False
  end.
Proof.
  intros k E m fuel l a ss w s off lz tp n body C HA HE Hok Hl Hsz Ha Hss Hin Hs Hz0.
  pose proof (C47_custom_impl k E m fuel l a ss w C HA HE Hok Hl Hsz Ha Hss) as HC.
  pose proof (pW_vals (c_machine C)) as HW.
  assert (HI : step_ok E m fuel (l_size l) (l_align l) a s).
  { clear - Hss Hin. induction Hss as [|size al a s' ss Hs' _ _ IH]; [destruct Hin|].
    destruct Hin as [<-|Hin]; auto. }
  assert (HB : off + pW <= l_size l /\ good_layout lz).
  { destruct Hs as [-> | ->]; inversion HI as [? ? ? ? ? ? ? ? H1 H2 H3 H4|? ? ? ? ? ? ? H1 H2 H3 H4| | | | |]; subst;
      (split; [assumption|apply H4]). }
  destruct HB as [HB1 HB2].
  pose proof (steps_allocs_end C E m fuel _ _ _ _ Hss (push_end (s_pos (sw_s w)) l 1) (push_end_VA _ _ _)) as Hend.
  destruct (client_serialize k E m fuel l a ss (from_storage w)) as [p z| | | |]; auto. cbn zeta in *.
  destruct HC as (-> & HP & Hok' & _ & HR).
  set (st := push_start (s_pos (sw_s w)) l) in *.
  assert (Hpos : st + off + pW <= s_pos (sw_s (z_sw z))).
  { rewrite HP, <- Hend. pose proof (end_pos_ge C (push_end (s_pos (sw_s w)) l 1) (flat_map (step_allocs E) ss)).
    pose proof (push_end_ge C (s_pos (sw_s w)) l 1). fold st in H0. lia. }
  set (B := read_base k (z_sw z)) in *.
  assert (HO : forall i, i < s_pos (sw_s (z_sw z)) -> out_mem B (z_sw z) (B + i) = s_buf (sw_s (z_sw z)) i).
  { intros i Hi. unfold out_mem. rewrite (proj2 (N.leb_le B (B + i))) by lia.
    rewrite (proj2 (N.ltb_lt (B + i) _)) by lia. cbn [andb]. f_equal. lia. }
  assert (HPT : points k m (out_mem B (z_sw z)) B st a off lz n 0).
  { inversion HR as [? ? ? ? ? _ R2]; subst. clear - R2 Hin Hs Hz0. revert R2.
    generalize (push_end (s_pos (sw_s w)) l 1). induction ss as [|s' ss IH]; intros cur R2; [destruct Hin|].
    inversion R2 as [|? ? ? ? ? I1 I2]; subst. destruct Hin as [->|Hin]; [|eapply IH; eassumption].
    destruct Hs as [-> | ->]; inversion I1 as [? ? ? ? ? ? ? ? J1 _|? ? ? ? ? ? ? J1 _| | | |]; subst;
      unfold slice_pos in J1; rewrite (proj2 (N.eqb_eq _ _) Hz0) in J1; exact J1. }
  unfold points in HPT. unfold same_bytes in HPT.
  assert (HRW : forall x, read_word (out_mem B (z_sw z)) (B + (st + off)) = x ->
                read_word (s_buf (sw_s (z_sw z))) (st + off) = x).
  { intros x <-. apply read_word_ext. intros i Hi. rewrite <- (N.add_assoc B). symmetry. apply HO. lia. }
  assert (HV : forall B', B' < umod -> B' <> 0 -> (MVA | B') -> valid_ref lz n B').
  { intros B' X1 X2 X3. unfold valid_ref. ands; [exact X2| |rewrite Hz0; lia].
    eapply N.divide_trans; [|exact X3]. apply pow2_divide; [apply HB2|apply (c_MVA C)|apply HB2]. }
  destruct k; cbn [tracking] in HPT.
  - intros i Hi. specialize (HPT (off + i) ltac:(lia) ltac:(lia)). rewrite HO in HPT by lia.
    rewrite <- !N.add_assoc. exact HPT.
  - intros i Hi. specialize (HPT (off + i) ltac:(lia) ltac:(lia)). rewrite HO in HPT by lia.
    rewrite <- !N.add_assoc. exact HPT.
  - destruct HPT as [HPT _]. split; [apply HRW; exact HPT|]. intros B' X1 X2 X3. rewrite N.add_0_r. auto.
  - destruct HPT as [HPT _]. rewrite N.add_0_r in HPT. split; [apply HRW; exact HPT|].
    destruct Hok' as (O1 & O2 & O3 & O4 & O5 & O6). destruct (O6 ltac:(lia)) as (P1 & P2 & P3). apply HV; [lia|exact P1|].
    eapply N.divide_trans; [apply (c_MVA_dvd_SA C)|exact P2].
Qed.

(** A concrete case: a struct with references to three values of a zero-sized type with alignment 8, whose processing pushes a
    number, and to no values of one with alignment 1. *)
From Verif Require Import PropStorage PropSerialize Demo WitnessSerialize.
Definition zst_steps : list step :=
  [ SPush 0 (mkLayout 0 8) 8 3 [SRaw u64_layout 8192 1];
    SPushPlain 8 (mkLayout 0 1) 1 0;
    SRaw (mkLayout 0 4) 4 2 ].
Theorem C88_hypotheses : @steps_ok demo no_env demo_mem 10 16 8 4096 zst_steps.
Proof.
  assert (Hs : forall l tp n, @good_layout demo l -> l_size l <= 1000 -> n <= 1000 -> tp <= 10000 ->
            @slice_ok demo l tp n).
  { intros l tp n H1 H2 H3 H4. unfold slice_ok. change (@imax demo) with 9223372036854775807.
    change (@umod demo) with 18446744073709551616. ands; auto; try lia; nia. }
  unfold zst_steps.
  constructor; [|apart|].
  { apply OK_push; [le|dv|dv|apply Hs; [gl|cbn; lia|lia|lia]|].
    constructor; [|intros s' i []|constructor]. apply OK_raw. apply Hs; [gl|cbn; lia|lia|lia]. }
  constructor; [|apart|].
  { apply OK_plain; [le|dv|dv|apply Hs; [gl|cbn; lia|lia|lia]]. }
  constructor; [apply OK_raw; apply Hs; [gl|cbn; lia|lia|lia]|intros s' i []|constructor].
Qed.
Theorem C88_witness : forall k,
  match @client_serialize demo k no_env demo_mem 10 (mkLayout 16 8) 4096 zst_steps (from_storage demo_w) with
  | Ok p z => (p, s_pos (sw_s (z_sw z)), map (fun i => @read_word demo (s_buf (sw_s (z_sw z))) (8 * N.of_nat i)) [0;1;2]%nat) =
     (let b := s_ptr (sw_s (z_sw z)) in
      let w i := @read_word demo demo_mem i in
     match k with
     | Complete => (0, 24, [Some b; Some b; w 8192])
     | PtrOffset => (0, 24, [Some 0; Some 0; w 8192])
     | _ => (0, 24, [w 4096; w 4104; w 8192])
     end)
  | _ => False
  end.
Proof. intros k; destruct k; vm_compute; repeat split. Qed.
