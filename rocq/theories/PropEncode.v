(** * PropEncode: the output, byte for byte (C54), and what it depends on (C55). *)
From Verif Require Import Base Types Storage Serializer Serialize Spec ArithFacts StorageFacts StorageHist MemFacts TypeFacts
  SerFacts SerMain SerValue SerRoot SerProps Client ClientSpec ClientFacts Encode EncodeFacts PropClient.
From Coq Require Import ZifyBool ZifyNat ZifyN.
Local Open Scope N_scope.

(** Values (type, address, value) that can all be serialized. *)
Definition valid_inputs {P : Params} (E : tenv) (m : mem) (xs : list (ty * N * val)) (f : nat) : Prop :=
  forall t a v, In (t, a, v) xs -> valid_input E any_header m t a v /\ (vdepth v < f)%nat.
Definition inputs (xs : list (ty * N * val)) : list (ty * N) := map fst xs.
Definition values (xs : list (ty * N * val)) : list (ty * val) := map (fun '(t, _, v) => (t, v)) xs.

Lemma values_tv xs : values xs = map it_tv xs.
Proof. apply map_ext. intros [[t a] v]. reflexivity. Qed.
Lemma inputs_in xs : inputs xs = map it_in xs.
Proof. reflexivity. Qed.

(** ** C54.  The reference encoder of Encode.v, which does not run the serializer, gives
    the output: it succeeds on every valid input; the values are found where the layout rules
    say; the output is as long as it says; the blocks it copies are the allocations of the
    values, in order; and every byte in those blocks is the one it says. *)
Theorem C54_bytes {P : Params} : forall k E m xs w fuel f rs z,
  cfg_ok -> alloc_ok -> wf_env E -> storage_ok w ->
  valid_inputs E m xs fuel -> valid_inputs E m xs f ->
  serialize_all k E m fuel (inputs xs) (from_storage w) = Ok rs z ->
  let w' := z_sw z in
  let pos0 := s_pos (sw_s w) in
  exists e,
    encode_all k E m f (inputs xs) pos0 = Some e /\
    rs = root_positions E pos0 (values xs) /\
    s_pos (sw_s w') = e_end e /\
    map extent (e_copies e) = blocks pos0 (all_allocations E (values xs)) /\
    (forall i, specified e i = true -> i < s_pos (sw_s w') ->
       s_buf (sw_s w') i = byte_at m (read_base k w') e i) /\
    (forall st n i, In (st, n) (blocks pos0 (all_allocations E (values xs))) -> st <= i -> i < st + n ->
       specified e i = true).
Proof.
  intros k E m xs w fuel f rs z C HA HE Hok H1 H2 Hs w' pos0.
  assert (A1 : Forall (fun '(t, a, v) => repr E any_header m t a v /\ (vdepth v < f)%nat) xs).
  { apply Forall_forall. intros [[t a] v] Hin. destruct (H2 t a v Hin) as [(_ & _ & Hr) Hv]. auto. }
  destruct (encode_all_some E HE k m any_header f xs pos0 A1) as [e He].
  assert (A2 : Forall (fun '(t, a, v) => input_ok E m any_header fuel t a v /\ (vdepth v < f)%nat) xs).
  { apply Forall_forall. intros [[t a] v] Hin. destruct (H2 t a v Hin) as [(V1 & V2 & V3) Hv].
    destruct (H1 t a v Hin) as [_ Hv']. unfold input_ok. auto. }
  assert (A3 : Forall (fun '(t, a, v) => (repr E any_header m t a v /\ wf_ty E t) /\ (vdepth v < f)%nat) xs).
  { apply Forall_forall. intros [[t a] v] Hin. destruct (H2 t a v Hin) as [(V1 & V2 & V3) Hv]. auto. }
  destruct (serialize_all_enc C HA E HE k m any_header fuel f xs w rs z e Hok A2 He Hs) as (R1 & R2 & R3).
  destruct (all_covers C E HE k m any_header f xs pos0 e A3 He) as [K1 K2].
  exists e. rewrite values_tv. ands; auto.
  intros st n i Hin Hlo Hhi. rewrite <- K2 in Hin. apply in_map_iff in Hin.
  destruct Hin as ([[st' tp] n'] & Heq & Hin). inversion Heq; subst.
  unfold specified. apply orb_true_iff. right. apply existsb_exists. exists (st, tp, n).
  split; [exact Hin|]. unfold copy_at. lia.
Qed.

(** ** C55.  The output depends on the input, the serializer, the machine (width, byte
    order), the value alignment and the starting position only: not on the allocator, the
    storage's alignment, maximum value alignment, capacities, or the build profile. *)
Definition same_machine (P1 P2 : Params) : Prop :=
  @pW P1 = @pW P2 /\ @pBE P1 = @pBE P2 /\ @VA P1 = @VA P2.

Lemma encode_same P1 P2 : same_machine P1 P2 ->
  @encode_all P1 = @encode_all P2 /\ @specified P1 = @specified P2 /\ @byte_at P1 = @byte_at P2 /\
  @root_positions P1 = @root_positions P2.
Proof.
  destruct P1 as [w1 b1 d1 s1 v1 a1 x1 o1], P2 as [w2 b2 d2 s2 v2 a2 x2 o2]. intros (A & B & D). cbn in A, B, D. subst.
  ands; reflexivity.
Qed.

Theorem C55_depends_only {P1 P2 : Params} : forall k E m xs w1 w2 fuel1 fuel2 rs1 rs2 z1 z2,
  same_machine P1 P2 ->
  @cfg_ok P1 -> @alloc_ok P1 -> @wf_env P1 E -> @storage_ok P1 w1 -> @valid_inputs P1 E m xs fuel1 ->
  @cfg_ok P2 -> @alloc_ok P2 -> @wf_env P2 E -> @storage_ok P2 w2 -> @valid_inputs P2 E m xs fuel2 ->
  s_pos (sw_s w1) = s_pos (sw_s w2) ->
  @serialize_all P1 k E m fuel1 (inputs xs) (from_storage w1) = Ok rs1 z1 ->
  @serialize_all P2 k E m fuel2 (inputs xs) (from_storage w2) = Ok rs2 z2 ->
  rs1 = rs2 /\ s_pos (sw_s (z_sw z1)) = s_pos (sw_s (z_sw z2)) /\
  (k <> Complete \/ s_ptr (sw_s (z_sw z1)) = s_ptr (sw_s (z_sw z2)) ->
   forall st n i, In (st, n) (@blocks P1 (s_pos (sw_s w1)) (@all_allocations P1 E (values xs))) -> st <= i -> i < st + n ->
     i < s_pos (sw_s (z_sw z1)) ->
     s_buf (sw_s (z_sw z1)) i = s_buf (sw_s (z_sw z2)) i).
Proof.
  intros k E m xs w1 w2 fuel1 fuel2 rs1 rs2 z1 z2 HP C1 HA1 HE1 Hok1 Hv1 C2 HA2 HE2 Hok2 Hv2 Hpos Hs1 Hs2.
  destruct (encode_same P1 P2 HP) as (Q1 & Q2 & Q3 & Q4).
  assert (Hf : exists f, @valid_inputs P1 E m xs f /\ @valid_inputs P2 E m xs f).
  { exists (Nat.max fuel1 fuel2). split; intros t a v Hin.
    - destruct (Hv1 t a v Hin). split; [assumption|lia].
    - destruct (Hv2 t a v Hin). split; [assumption|lia]. }
  destruct Hf as (f & Hf1 & Hf2).
  destruct (@C54_bytes P1 k E m xs w1 fuel1 f rs1 z1 C1 HA1 HE1 Hok1 Hv1 Hf1 Hs1) as (e1 & A1 & A2 & A3 & A4 & A5 & A6).
  destruct (@C54_bytes P2 k E m xs w2 fuel2 f rs2 z2 C2 HA2 HE2 Hok2 Hv2 Hf2 Hs2) as (e2 & B1 & B2 & B3 & B4 & B5 & B6).
  rewrite <- Q1, <- Hpos, A1 in B1. inversion B1; subst e2.
  ands.
  - rewrite A2, B2, Q4, Hpos. reflexivity.
  - congruence.
  - intros Hk st n i Hin Hlo Hhi Hi.
    pose proof (A6 st n i Hin Hlo Hhi) as Hsp.
    rewrite A5 by assumption.
    rewrite Q2 in Hsp. rewrite B5 by (try assumption; congruence).
    rewrite Q3. f_equal. unfold read_base. destruct k; auto. destruct Hk; [congruence|assumption].
Qed.

(** Concrete cases: the demo struct, then the number it boxes, with each serializer. *)
From Verif Require Import StorageProps PropStorage PropSerialize Demo WitnessSerialize.
Definition demo_items : list (ty * N * val) :=
  [(t_demo, 4096, demo_val); (t_u32, 4096, VPrim 42); (TBox t_u64, 4104, VBox (VPrim 77))].
Example C54_hypotheses : @valid_inputs demo no_env demo_mem demo_items 10.
Proof.
  intros t a v [H|[H|[H|[]]]]; inversion H; subst.
  - split; [exact demo_valid|cbn; lia].
  - split; [|cbn; lia]. split; [apply W_prim; gl|]. split; [vm_compute; discriminate|apply R_prim; rd].
  - split; [|cbn; lia]. split; [apply W_box; [apply W_prim; gl|le]|]. split; [vm_compute; discriminate|].
    eapply R_box; [rd|unfold valid_ref; ands; num|exact I|apply R_prim; rd].
Qed.

(** The encoder's answer, and that all specified bytes agree. *)
Definition agree {P : Params} (k : kind) (w : sw) (rs : list N) (z : zs) (e : enc) : list N :=
  filter (fun i => negb (implb (specified e i)
      (match s_buf (sw_s (z_sw z)) i, byte_at demo_mem (read_base k (z_sw z)) e i with
       | Some x, Some y => x =? y | None, None => true | _, _ => false end)))
    (map N.of_nat (seq 0 (N.to_nat (e_end e)))).
Example C54_witness : forall k,
  match @serialize_all demo k no_env demo_mem 10 (inputs demo_items) (from_storage demo_w),
        @encode_all demo k no_env demo_mem 10 (inputs demo_items) 0 with
  | Ok rs z, Some e =>
      rs = [0; 112; 120] /\ s_pos (sw_s (z_sw z)) = 136 /\ e_end e = 136 /\
      e_copies e = [(0, 4096, 88); (88, 8192, 8); (96, 8208, 4); (104, 8224, 2);
                    (112, 4096, 4); (120, 4104, 8); (128, 8192, 8)] /\
      e_patches e = match k with
        | Complete => [(8, PPtr 88); (16, PWord 2); (24, PPtr 96); (40, PPtr 104);
                       (80, PWord 0); (72, PWord 4); (120, PPtr 128)]
        | PtrOffset => [(8, PPtr 88); (24, PPtr 96); (40, PPtr 104); (120, PPtr 128)]
        | _ => []
        end /\
      @agree demo k demo_w rs z e = []
  | _, _ => False
  end.
Proof. intros k; destruct k; vm_compute; repeat split. Qed.

(** A release build with a 64-byte aligned storage of at most 1024 bytes, another allocator,
    and a storage with all the room. *)
Definition demo_other : Params :=
  {| pW := 8; pBE := false; dbg := false; SA := 64; MVA := 32; VA := 8; MAXC := 1024;
     orc := fun n size => if size <=? 2 ^ 32 then 1048576 * (1 + size mod 64) else 0 |}.
Lemma demo_other_cfg : @cfg_ok demo_other.
Proof.
  split; [right; reflexivity|]. unfold consts_ok, legal_layout.
  ands; first [conc | (exists 5; reflexivity) | (exists 6; reflexivity)].
Qed.
Lemma demo_other_alloc_ok : @alloc_ok demo_other.
Proof.
  intros n size. cbn [orc SA demo_other]. change (@umod demo_other) with 18446744073709551616.
  destruct (N.leb_spec size (2 ^ 32)) as [Hs|]; [right|left; reflexivity].
  pose proof (N.mod_lt size 64 ltac:(discriminate)). split; [|lia].
  apply N.divide_mul_l. apply divc; [reflexivity|discriminate].
Qed.
Definition other_w : sw := match @with_capacity demo_other 960 sw_new with Ok _ w => w | _ => sw_new end.
Lemma other_w_ok : @storage_ok demo_other other_w.
Proof.
  assert (H : @with_capacity demo_other 960 sw_new = Ok tt other_w) by (vm_compute; reflexivity).
  apply (start_ok demo_other_cfg demo_other_alloc_ok 960 other_w); [apply ltc; vm_compute; reflexivity|exact H].
Qed.
Lemma good_other l : @good_layout demo l -> @good_layout demo_other l.
Proof.
  unfold good_layout. change (@imax demo_other) with (@imax demo).
  intros H. ands; try apply H. cbn. etransitivity; [apply H|]. vm_compute; discriminate.
Qed.
Example C55_hypotheses : same_machine demo demo_other /\ @cfg_ok demo_other /\ @alloc_ok demo_other /\ @wf_env demo_other no_env /\ @storage_ok demo_other other_w /\
  s_pos (sw_s demo_w) = s_pos (sw_s other_w) /\ @valid_inputs demo_other no_env demo_mem (tl demo_items) 7.
Proof.
  ands; try reflexivity; [repeat split|exact demo_other_cfg|exact demo_other_alloc_ok|intros id d H; discriminate|exact other_w_ok|].
  intros t a v [H|[H|[]]]; inversion H; subst.
  - split; [|cbn; lia]. split; [apply W_prim; apply good_other; gl|]. split; [vm_compute; discriminate|apply R_prim; rd].
  - split; [|cbn; lia]. split; [apply W_box; [apply W_prim; apply good_other; gl|le]|]. split; [vm_compute; discriminate|].
    eapply R_box; [rd|unfold valid_ref; ands; num|exact I|apply R_prim; rd].
Qed.
Example C55_witness : forall k,
  same_machine demo demo_other /\
  match @serialize_all demo k no_env demo_mem 10 (inputs demo_items) (from_storage demo_w),
        @serialize_all demo_other k no_env demo_mem 7 (inputs demo_items) (from_storage other_w) with
  | Ok rs1 z1, Ok rs2 z2 =>
      rs1 = [0; 112; 120] /\ rs2 = rs1 /\
      (s_ptr (sw_s (z_sw z1)), s_ptr (sw_s (z_sw z2))) = (196608, 1048576) /\
      (s_cap (sw_s (z_sw z1)), s_cap (sw_s (z_sw z2))) = (256, 960) /\
      (k <> Complete ->
       map (s_buf (sw_s (z_sw z1))) [0;8;16;24;32;40;41;90;97;104;105;112;128] =
       map (s_buf (sw_s (z_sw z2))) [0;8;16;24;32;40;41;90;97;104;105;112;128])
  | _, _ => False
  end.
Proof. intros k; split; [repeat split|]. destruct k; vm_compute; repeat split; intros H; first [reflexivity | destruct (H eq_refl)]. Qed.
