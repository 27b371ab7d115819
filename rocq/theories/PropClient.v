(** * PropClient: hand-written Serialize implementations (C47). *)
From Verif Require Import Base Types Storage Serializer Serialize Spec ArithFacts StorageFacts StorageHist MemFacts TypeFacts
  SerFacts SerMain SerValue SerRoot SerProps Client ClientSpec ClientFacts.
From Coq Require Import ZifyBool ZifyNat ZifyN.
Local Open Scope N_scope.

(** Where the output is read: a Complete output in place, the others as a file whose
    first byte has address 0. *)
Definition read_base (k : kind) (w : sw) : N :=
  match k with Complete => s_ptr (sw_s w) | _ => 0 end.

(** Any implementation that keeps to the rules of [steps_ok] (the pointers it pushes for,
    the places it overwrites and the fields it delegates to lie inside the value, are aligned
    and do not overlap) gives, with every serializer, an output in which the value is a
    copy of the input with exactly those places changed: every pushed slice is copied (and
    processed by its own calls, to any depth), every pointer points to its copy (pointer
    serializers), every overwritten place holds the given bytes (Complete), every field
    is a faithful image.  It never has undefined behaviour; the only panics are its own
    and that the output does not fit. *)
Theorem C47_custom_impl {P : Params} : forall k E m fuel l a ss w,
  cfg_ok -> alloc_ok -> wf_env E -> storage_ok w ->
  good_layout l -> 0 < l_size l -> a + l_size l <= umod ->
  steps_ok E m fuel (l_size l) (l_align l) a ss ->
  match client_serialize k E m fuel l a ss (from_storage w) with
  | Ok p z =>
      let w' := z_sw z in
      p = push_start (s_pos (sw_s w)) l /\
      s_pos (sw_s w') = steps_end E (push_end (s_pos (sw_s w)) l 1) ss /\
      storage_ok w' /\
      (forall i, i < s_pos (sw_s w) -> s_buf (sw_s w') i = s_buf (sw_s w) i) /\
      region k E m (out_mem (read_base k w') w') (read_base k w') p a (l_size l)
        (push_end (s_pos (sw_s w)) l 1) ss
  | Panic e z =>
      (e = PUser /\ existsb may_panic ss = true \/
       e = PCapacity /\ MAXC < steps_end E (push_end (s_pos (sw_s w)) l 1) ss) /\
      storage_ok (z_sw z) /\
      (forall i, i < s_pos (sw_s w) -> s_buf (sw_s (z_sw z)) i = s_buf (sw_s w) i)
  | Abort => alloc_failed
  | UB | OutOfFuel => False
  end.
Proof.
  intros k E m fuel l a ss w C HA HE Hok Hl Hsz Ha Hss.
  pose proof (c_umod C) as Hum. pose proof (c_sum C) as Hsum. pose proof (c_SA_pos C) as HSA.
  pose proof (from_storage_inv k w Hok) as Hz.
  assert (HV : rdone k (from_storage w) [] ((l, 1) :: flat_map (step_allocs E) ss) (push_start (s_pos (sw_s w)) l)
    (fun B M => region k E m M B (push_start (s_pos (sw_s w)) l) a (l_size l) (push_end (s_pos (sw_s w)) l 1) ss)
    (serialize_value_with k (slice_at m l a 1) (run_steps k E m fuel a ss) (from_storage w))).
  { apply (impl_done C HA E HE k m fuel l a ss (from_storage w) []); auto. }
  pose proof (steps_allocs_end C E m fuel _ _ _ _ Hss (push_end (s_pos (sw_s w)) l 1) (push_end_VA _ _ _)) as Hend.
  pose proof (impl_reason E k m fuel l a ss (from_storage w)) as HR.
  unfold client_serialize, bind.
  destruct (serialize_value_with k (slice_at m l a 1) (run_steps k E m fuel a ss) (from_storage w)) as [p z1|e z1| | |]; auto.
  2:{ cbn [rdone] in HV. destruct HV as (V1 & V2 & V3 & V4 & V5 & V6). ands; auto.
      destruct V1 as [->|[-> V1]]; [left; split; [reflexivity|eapply HR; reflexivity]|right; split; [reflexivity|rewrite <- Hend; exact (proj1 V1)]]. }
  2:{ apply HV. }
  cbn [rdone app] in HV. destruct HV as (G & -> & V1 & V2 & V3 & V4 & V5 & V6 & V7 & V8 & V9).
  cbn [from_storage z_sw] in *.
  pose proof (zinv_ok _ _ _ V1) as Hok1.
  pose proof (ok_pos_le _ Hok1) as Hple.
  assert (Hpe : s_pos (sw_s w) < s_pos (sw_s (z_sw z1))).
  { rewrite V2. cbn [end_pos].
    pose proof (push_start_ge C (s_pos (sw_s w)) l (proj1 Hl)).
    pose proof (push_end_ge C (s_pos (sw_s w)) l 1).
    pose proof (end_pos_ge C (push_end (s_pos (sw_s w)) l 1) (flat_map (step_allocs E) ss)). lia. }
  assert (Hc0 : 0 < s_cap (sw_s (z_sw z1))) by lia.
  destruct (finalize_eq C k z1 G V1 (fun _ => or_introl Hc0)) as (z' & -> & Z1 & Z2 & Z3 & Z4 & Z5 & Z6 & Z7).
  cbn [ret]. cbn zeta. ands; auto.
  - rewrite <- Hend. cbn [end_pos] in V2. congruence.
  - intros i Hi. rewrite Z7. rewrite overlay_none; [apply V6; exact Hi|].
    intros q t Hq. destruct (V5 q t Hq). unfold covers; cbn. lia.
  - destruct Hok1 as (O1 & O2 & O3 & O4 & O5 & O6). destruct (O6 Hc0) as (P1 & P2 & P3).
    assert (Hb : read_base k (z_sw z') = final_base k z1).
    { unfold read_base, final_base. rewrite Z3. reflexivity. }
    rewrite Hb. apply V9.
    + unfold final_base. destruct k; try apply N.divide_0_r.
      eapply N.divide_trans; [apply (c_MVA_dvd_SA C)|exact P2].
    + unfold final_base. destruct k; lia.
    + intros i [[]|Hi]. unfold out_mem. rewrite Z1.
      rewrite (proj2 (N.leb_le _ (final_base k z1 + i))) by lia.
      rewrite (proj2 (N.ltb_lt (final_base k z1 + i) _)) by lia.
      cbn [andb]. replace (final_base k z1 + i - final_base k z1) with i by lia. apply Z7.
Qed.

(** A concrete case: a hand-written implementation for the demo struct that follows the
    box and replaces the number in it by 99, delegates to the Vec<u16>, follows the
    string's pointer without touching its capacity, clears the last word, and appends a copy
    of the numbers; between these it makes storage calls of its own. *)
From Verif Require Import PropStorage PropSerialize Demo WitnessSerialize.
Definition demo_steps : list step :=
  [ SPush 8 u64_layout 8192 1 [SOver 0 u64_layout (bytes_src (w64 99))];
    SField 16 (TVec CPL t_u16) (VVec [VPrim 258; VPrim 772]);
    SPushPlain 40 (mkLayout 1 1) 8224 2;
    SOver 80 u64_layout (bytes_src (w64 0));
    SStore OShrink;
    SRaw (mkLayout 2 2) 8208 2;
    SStore (OReserve 300);
    SStore (OPushBytes 3 (bytes_src [7;8;9])) ].

Ltac apart := intros s' i Hin; cbn [In] in Hin; repeat destruct Hin as [Hin|Hin]; try contradiction; subst;
  unfold touched; cbn [touch]; change (@pW demo) with 8; try change (@size_of demo no_env (TVec CPL t_u16)) with 24;
  cbn [l_size u64_layout]; try lia; try tauto.
Lemma u64_good : @good_layout demo u64_layout. Proof. gl. Qed.
Example C47_hypotheses : @steps_ok demo no_env demo_mem 10 88 8 4096 demo_steps.
Proof.
  assert (Hs : forall l tp n, @good_layout demo l -> 0 < l_size l <= 1000 -> 0 < n <= 1000 -> tp <= 10000 ->
            @slice_ok demo l tp n).
  { intros l tp n H1 H2 H3 H4. unfold slice_ok. change (@imax demo) with 9223372036854775807.
    change (@umod demo) with 18446744073709551616. ands; auto; try lia; nia. }
  unfold demo_steps.
  constructor; [|apart|].
  { apply OK_push; [le|dv|dv|apply Hs; [gl|cbn; lia|lia|lia]|].
    constructor; [|intros s' i []|constructor].
    apply OK_over; [gl|cbn; lia|le|dv|dv]. }
  constructor; [|apart|].
  { apply OK_field; [apply W_vec; [apply W_prim; gl|le]| |cbn; lia|le|dv|dv].
    eapply R_vec; [rd|rd|rd|vok|exact I|].
    apply RE_cons; [apply R_prim; rd|]. apply RE_cons; [apply R_prim; rd|constructor]. }
  constructor; [|apart|].
  { apply OK_plain; [le|dv|dv|apply Hs; [gl|cbn; lia|lia|lia]]. }
  constructor; [|apart|].
  { apply OK_over; [gl|cbn; lia|le|dv|dv]. }
  constructor; [apply OK_store; [exact I|exact I|discriminate]|apart|].
  constructor; [|apart|].
  { apply OK_raw. apply Hs; [gl|cbn; lia|lia|lia]. }
  constructor; [apply OK_store; [|exact I|discriminate]|apart|].
  { cbn. change (@umod demo) with 18446744073709551616. lia. }
  constructor; [apply OK_store; [|exact I|discriminate]|apart|constructor].
  cbn. change (@imax demo) with 9223372036854775807. lia.
Qed.

(** The same with every serializer; the buffer moves on the way. *)
Example C47_witness : forall k,
  match @client_serialize demo k no_env demo_mem 10 (mkLayout 88 8) 4096 demo_steps (from_storage demo_w) with
  | Ok p z => (p, s_pos (sw_s (z_sw z)),
       map (fun i => @read_word demo (s_buf (sw_s (z_sw z))) (8 * N.of_nat i)) [1;3;5;6;10;11]%nat,
       map (s_buf (sw_s (z_sw z))) [120; 121; 122]) =
     (let b := s_ptr (sw_s (z_sw z)) in
     match k with
     | Complete => (0, 128, [Some (b + 88); Some (b + 96); Some (b + 104); Some 2; Some 0; Some 99], [Some 7; Some 8; Some 9])
     | PtrOffset => (0, 128, [Some 88; Some 96; Some 104; Some 2; Some 3; Some 77], [Some 7; Some 8; Some 9])
     | _ => (0, 128, [Some 8192; Some 8208; Some 8224; Some 2; Some 3; Some 77], [Some 7; Some 8; Some 9])
     end) /\ sw_calls (z_sw z) = 5%nat
  | _ => False
  end.
Proof. intros k; destruct k; vm_compute; repeat split. Qed.

(** Empty slices: an implementation for a struct of two references that pushes an empty slice for each, and
    one of its own through the storage.  The second reference is to a more strictly aligned type. *)
Definition empty_steps : list step :=
  [ SPush 0 (mkLayout 2 2) 8208 0 [];
    SStore (OPushBytes 3 (bytes_src [7;8;9]));
    SPushPlain 8 (mkLayout 16 16) 8192 0;
    SRaw u64_layout 8192 0;
    SStore (OPushSlice u64_layout 0 (bytes_src [])) ].
Example C47_empty_hypotheses : @steps_ok demo no_env demo_mem 10 16 8 4096 empty_steps.
Proof.
  assert (Hs : forall l tp n, @good_layout demo l -> 0 < l_size l <= 1000 -> n <= 1000 -> tp <= 10000 ->
            @slice_ok demo l tp n).
  { intros l tp n H1 H2 H3 H4. unfold slice_ok. change (@imax demo) with 9223372036854775807.
    change (@umod demo) with 18446744073709551616. ands; auto; try lia; nia. }
  unfold empty_steps.
  constructor; [|apart|].
  { apply OK_push; [le|dv|dv|apply Hs; [gl|cbn; lia|lia|lia]|constructor]. }
  constructor; [apply OK_store; [|exact I|discriminate]|apart|].
  { cbn. change (@imax demo) with 9223372036854775807. lia. }
  constructor; [|apart|].
  { apply OK_plain; [le|dv|dv|apply Hs; [apply good_layoutb_ok; vm_compute; reflexivity|cbn; lia|lia|lia]]. }
  constructor; [apply OK_raw; apply Hs; [gl|cbn; lia|lia|lia]|apart|].
  constructor; [apply OK_store; [|exact I|discriminate]|apart|constructor].
  cbn. split; [gl|]. change (@imax demo) with 9223372036854775807. lia.
Qed.

(** The second pointer is to the end of the output rounded up; nothing is written there. *)
Example C47_empty_witness : forall k,
  match @client_serialize demo k no_env demo_mem 10 (mkLayout 16 8) 4096 empty_steps (from_storage demo_w) with
  | Ok p z => (p, s_pos (sw_s (z_sw z)),
       map (fun i => @read_word demo (s_buf (sw_s (z_sw z))) (8 * N.of_nat i)) [0;1]%nat,
       map (s_buf (sw_s (z_sw z))) [16; 17; 18]) =
     (let b := s_ptr (sw_s (z_sw z)) in
     match k with
     | Complete => (0, 32, [Some (b + 16); Some (b + 32)], [Some 7; Some 8; Some 9])
     | PtrOffset => (0, 32, [Some 16; Some 32], [Some 7; Some 8; Some 9])
     | _ => (0, 32, map (fun i => @read_word demo demo_mem (4096 + 8 * N.of_nat i)) [0;1]%nat, [Some 7; Some 8; Some 9])
     end)
  | _ => False
  end.
Proof. intros k; destruct k; vm_compute; repeat split. Qed.
