(** * PropStorage: the properties of the storage (C01-C17, C37), each as one theorem,
    with a concrete case beside it.

    Vocabulary: Base.v (outcomes, machine), Spec.v (the specification); the
    functions named in the statements model the library (Storage.v). *)
From Verif Require Import Base Types Storage Spec ArithFacts StorageFacts StorageHist Moves StorageProps.
From Coq Require Import ZifyBool ZifyNat ZifyN.
Local Open Scope N_scope.

(** ** Concrete machines for the witnesses *)

(** An allocator which gives a fresh address to every request it can serve. *)
Definition demo_alloc (n : nat) (size : N) : N :=
  if size <=? 2 ^ 32 then 65536 * (N.of_nat n mod 1000 + 1) else 0.

(** 64-bit little endian debug build, AlignedVec<16, 16, 8, 4096>. *)
Definition demo : Params :=
  {| pW := 8; pBE := false; dbg := true; SA := 16; MVA := 16; VA := 8; MAXC := 4096; orc := demo_alloc |}.
(** The same as a release build; and with VALUE_ALIGNMENT = 1. *)
Definition demo_release : Params :=
  {| pW := 8; pBE := false; dbg := false; SA := 16; MVA := 16; VA := 8; MAXC := 4096; orc := demo_alloc |}.
Definition demo32 : Params :=
  {| pW := 4; pBE := true; dbg := true; SA := 16; MVA := 8; VA := 1; MAXC := 4096; orc := demo_alloc |}.

Lemma pow2_1 : pow2 1. Proof. exists 0; reflexivity. Qed.
Lemma pow2_2 : pow2 2. Proof. exists 1; reflexivity. Qed.
Lemma pow2_4 : pow2 4. Proof. exists 2; reflexivity. Qed.
Lemma pow2_8 : pow2 8. Proof. exists 3; reflexivity. Qed.
Lemma pow2_16 : pow2 16. Proof. exists 4; reflexivity. Qed.
Lemma divc a b : (b mod a =? 0) = true -> a <> 0 -> (a | b).
Proof. intros H Ha. apply N.mod_divide; auto. apply N.eqb_eq. exact H. Qed.
Lemma lec a b : (a <=? b) = true -> a <= b. Proof. apply N.leb_le. Qed.
Lemma ltc a b : (a <? b) = true -> a < b. Proof. apply N.ltb_lt. Qed.
Ltac conc := first
  [ exact pow2_1 | exact pow2_2 | exact pow2_4 | exact pow2_8 | exact pow2_16
  | apply divc; [vm_compute; reflexivity | vm_compute; discriminate]
  | apply lec; vm_compute; reflexivity
  | apply ltc; vm_compute; reflexivity
  | vm_compute; reflexivity
  | vm_compute; discriminate ].

Lemma demo_cfg : @cfg_ok demo.
Proof. split; [right; reflexivity|]. unfold consts_ok, legal_layout. ands; conc. Qed.
Lemma demo_release_cfg : @cfg_ok demo_release.
Proof. split; [right; reflexivity|]. unfold consts_ok, legal_layout. ands; conc. Qed.
Lemma demo32_cfg : @cfg_ok demo32.
Proof. split; [left; reflexivity|]. unfold consts_ok, legal_layout. ands; conc. Qed.

Lemma demo_alloc_facts n size : demo_alloc n size = 0 \/
  ((16 | demo_alloc n size) /\ demo_alloc n size <= 65536000 /\ size <= 2 ^ 32).
Proof.
  unfold demo_alloc. destruct (N.leb_spec size (2 ^ 32)) as [Hs|]; [right|left; reflexivity].
  pose proof (N.mod_lt (N.of_nat n) 1000 ltac:(discriminate)). ands; [|lia|exact Hs].
  apply N.divide_mul_l. apply divc; [reflexivity|discriminate].
Qed.
Lemma demo_alloc_ok : @alloc_ok demo.
Proof.
  intros n size. cbn [orc demo]. destruct (demo_alloc_facts n size) as [|(A & B & D)]; [left; assumption|right].
  split; [exact A|]. change (@umod demo) with 18446744073709551616. lia.
Qed.
Lemma demo_release_alloc_ok : @alloc_ok demo_release.
Proof.
  intros n size. cbn [orc demo_release]. destruct (demo_alloc_facts n size) as [|(A & B & D)]; [left; assumption|right].
  split; [exact A|]. change (@umod demo_release) with 18446744073709551616. lia.
Qed.
Lemma demo_alloc_succeeds : @alloc_succeeds demo.
Proof.
  intros n size H0 H. change (@MAXC demo) with 4096 in H. cbn [orc demo]. unfold demo_alloc.
  rewrite (proj2 (N.leb_le size (2 ^ 32))) by lia. lia.
Qed.

Definition u64_layout := mkLayout 8 8.
Definition u32_layout := mkLayout 4 4.
Lemma u64_demo : @good_layout demo u64_layout.
Proof. unfold good_layout. ands; conc. Qed.
Lemma u32_demo : @good_layout demo u32_layout.
Proof. unfold good_layout. ands; conc. Qed.

(** What a caller sees of an outcome. *)
Definition seen {A} (o : outcome sw A) : option (A * N * N * N) :=
  match o with
  | Ok x w => Some (x, s_ptr (sw_s w), s_cap (sw_s w), s_pos (sw_s w))
  | _ => None
  end.

(** ** C01-C04, C17: util.rs and the validation of the const parameters *)

Theorem C01_align_up_to {P : Params} : forall (S : Type) (s : S) pos alignment,
  pow2 alignment -> pos + alignment < umod ->
  exists r, align_up_to pos alignment s = Ok r s /\ least_multiple pos alignment r.
Proof. intros S s. exact (align_up_to_least s). Qed.

Example C01_witness : pow2 16 /\ 35 + 16 < @umod demo /\ @align_up_to demo unit 35 16 tt = Ok 48 tt.
Proof. ands; conc. Qed.

Theorem C02_is_aligned_to {P : Params} : forall (S : Type) (s : S) pos alignment,
  pow2 alignment ->
  exists b, is_aligned_to pos alignment s = Ok b s /\ (b = true <-> (alignment | pos)).
Proof. intros S s. exact (is_aligned_to_iff s). Qed.

Example C02_witness : pow2 8 /\ @is_aligned_to demo unit 24 8 tt = Ok true tt /\
  @is_aligned_to demo unit 28 8 tt = Ok false tt.
Proof. ands; conc. Qed.

Theorem C03_aligned_max_capacity {P : Params} : forall (S : Type) (s : S) alignment,
  machine_ok -> alignment < umod ->
  match aligned_max_capacity alignment s with
  | Ok c s' => s' = s /\ pow2 alignment /\ alignment < imax /\ (alignment | c) /\
               legal_layout c alignment /\ (forall c', legal_layout c' alignment -> c' <= c)
  | Panic _ s' => s' = s /\ ~ (pow2 alignment /\ alignment < imax)
  | _ => False
  end.
Proof. intros S s. exact (amc_spec s). Qed.

Example C03_witness : @machine_ok demo /\ 16 < @umod demo /\
  @aligned_max_capacity demo unit 16 tt = Ok 9223372036854775792 tt /\
  @aligned_max_capacity demo unit 24 tt = Panic PAssert tt.
Proof. ands; try conc. right; reflexivity. Qed.

Theorem C04_aligned_max_u32_capacity {P : Params} : forall (S : Type) (s : S) alignment,
  machine_ok -> alignment < umod ->
  match aligned_max_u32_capacity alignment s with
  | Ok c s' => s' = s /\ pow2 alignment /\ 0 < c /\ (alignment | c) /\ legal_layout c alignment /\
      (forall p, p < c -> p <= 4294967295) /\
      (forall c', (alignment | c') -> legal_layout c' alignment ->
         (forall p, p < c' -> p <= 4294967295) -> c' <= c)
  | Panic _ s' => s' = s /\ ~ (pow2 alignment /\ alignment < 4294967295 /\ alignment < imax)
  | _ => False
  end.
Proof. intros S s. exact (amuc_spec s). Qed.

Example C04_witness : @machine_ok demo /\ 16 < @umod demo /\
  @aligned_max_u32_capacity demo unit 16 tt = Ok 4294967296 tt /\
  @aligned_max_u32_capacity demo32 unit 16 tt = Ok 2147483632 tt.
Proof. ands; try conc. right; reflexivity. Qed.

Theorem C17_validation {P : Params} : forall (S : Type) (s : S),
  machine_ok -> SA < umod ->
  (assert_alignments_valid s = Ok tt s <-> consts_ok) /\
  (~ consts_ok -> exists e, assert_alignments_valid s = Panic e s).
Proof. intros S s. exact (valid_iff s). Qed.

(** ... and then every capacity up to MAX_CAPACITY has a legal Layout. *)
Theorem C17_every_capacity_legal {P : Params} : forall c,
  machine_ok -> consts_ok -> c <= MAXC -> legal_layout c SA.
Proof.
  intros c HM HC Hc. destruct HC as (S1 & S2 & S3 & S4 & S5 & S6 & S7 & S8 & S9).
  split; [exact S8|]. etransitivity; [|exact S9]. apply round_up_mono; [|exact Hc].
  destruct S8 as [k ->]. pose proof (N.pow_nonzero 2 k ltac:(discriminate)). lia.
Qed.

Example C17_witness : @machine_ok demo /\ @SA demo < @umod demo /\ @consts_ok demo /\
  @assert_alignments_valid demo unit tt = Ok tt tt.
Proof. ands; try conc. right; reflexivity. apply demo_cfg. Qed.

Lemma demo_new_ok : @storage_ok demo sw_new.
Proof. unfold storage_ok. cbn. ands; try conc; try lia; intros; exfalso; lia. Qed.

(** Close a concrete goal: the facts about [demo] by lemma, the rest by computing. *)
Ltac facts := first
  [ exact demo_cfg | exact demo_alloc_ok | exact demo_alloc_succeeds | exact demo_new_ok
  | exact demo_release_cfg | exact demo_release_alloc_ok | exact demo32_cfg
  | exact u64_demo | exact u32_demo | (right; reflexivity) | (left; reflexivity) | conc ].

(** ** C05: invariants after every history *)

Theorem C05_invariants {P : Params} : forall c os w0 w,
  cfg_ok -> alloc_ok -> c < umod -> Forall op_valid os ->
  with_capacity c sw_new = Ok tt w0 -> run_ops os w0 = Ok tt w -> storage_ok w.
Proof. intros c os w0 w C HA Hc Hv Hw. eapply history_ok; eauto. Qed.

(** A history with growth, a refused push, shrinking to nothing and more pushes. *)
Definition demo_ops : list sop :=
  [ OPush u64_layout no_mem; OPushSlice u32_layout 5 no_mem; OReserve 100; OPushEmpty u64_layout;
    OPushSlice u64_layout 4096 no_mem; OClear; OShrink; OPushBytes 3 no_mem; OShrink ].
Lemma demo_ops_valid : Forall (@op_valid demo) demo_ops.
Proof.
  repeat match goal with |- Forall _ _ => constructor end; cbn [op_valid];
    try exact I; try apply u64_demo; try apply u32_demo; try conc;
    split; first [apply u64_demo | apply u32_demo | conc].
Qed.
Example C05_witness :
  @cfg_ok demo /\ @alloc_ok demo /\ 20 < @umod demo /\ Forall (@op_valid demo) demo_ops /\
  seen (@with_capacity demo 20 sw_new) = Some (tt, 65536, 32, 0) /\
  seen ((@with_capacity demo 20 ;;; @run_ops demo demo_ops) sw_new) = Some (tt, 196608, 16, 8).
Proof. ands; first [exact demo_ops_valid | facts]. Qed.

(** ** C06: push *)

Theorem C06_push {P : Params} : forall w l n data,
  cfg_ok -> alloc_ok -> storage_ok w -> good_layout l -> l_size l * n <= imax ->
  (forall p w', push_slice l n data w = Ok p w' -> pushed w l n data p w') /\
  (forall p w', push l data w = Ok p w' -> pushed w l 1 data p w') /\
  (forall p w' len, push_bytes len data w = Ok p w' -> len <= imax -> pushed w u8_layout len data p w').
Proof.
  intros w l n data C HA Hok Hl Hn. ands; intros p w'.
  - intros Hr. eapply (push_pushed C HA); eauto.
  - intros Hr. eapply (push_pushed C HA); eauto. pose proof (proj1 (proj2 (proj2 Hl))). lia.
  - intros len Hr Hlen. unfold push_bytes in Hr. eapply (push_pushed C HA); eauto.
    + pose proof (c_MVA_pos C). unfold good_layout. cbn [u8_layout l_size l_align]. ands; try lia.
      * exact pow2_1.
      * apply N.divide_1_l.
      * pose proof (c_SA_lt_imax C). lia.
    + cbn [u8_layout l_size]. lia.
Qed.

(** Given room, push_slice does return. *)
Theorem C06_push_returns {P : Params} : forall w l n data,
  cfg_ok -> alloc_ok -> alloc_succeeds -> storage_ok w -> good_layout l -> l_size l * n <= imax -> 0 < n ->
  (l_size l = 0 \/ push_end (s_pos (sw_s w)) l n <= MAXC) ->
  exists p w', push_slice l n data w = Ok p w'.
Proof.
  intros w l n data C HA HS Hok Hl Hn H0 Hfit.
  pose proof (push_total C HA w l n data Hok Hl Hn H0) as Ht.
  destruct (push_slice l n data w) as [p w'|e w'| | |]; eauto; try contradiction.
  - exfalso. lia.
  - exfalso. destruct Ht as (i & sz & A & B & D). exact (HS i sz A B D).
Qed.

Example C06_witness :
  @cfg_ok demo /\ @alloc_ok demo /\ @alloc_succeeds demo /\ @storage_ok demo sw_new /\
  @good_layout demo u32_layout /\
  4 * 5 <= @imax demo /\ 0 < 5 /\ @push_end demo (s_pos (sw_s sw_new)) u32_layout 5 <= @MAXC demo /\
  seen (@push_slice demo u32_layout 5 (bytes_src [1;2;3;4;5;6;7;8;9;10;11;12;13;14;15;16;17;18;19;20]) sw_new)
    = Some (0, 65536, 32, 24).
Proof. ands; facts. Qed.

(** ** C07: the positions are a function of the types, lengths and start position *)

Lemma positions_VA (P Q : Params) : @VA P = @VA Q -> forall os p, @positions P p os = @positions Q p os.
Proof.
  intros HV. induction os as [|o os IH]; intros p; [reflexivity|]. cbn [positions].
  assert (Hs : forall x l, @push_start P x l = @push_start Q x l) by (intros; unfold push_start; rewrite HV; reflexivity).
  assert (He : forall x l n, @push_end P x l n = @push_end Q x l n)
    by (intros; unfold push_end; rewrite Hs, HV; reflexivity).
  assert (Hp : @op_pos P p o = @op_pos Q p o) by (destruct o; cbn; rewrite ?Hs; reflexivity).
  assert (Hn : @op_next P p o = @op_next Q p o) by (destruct o; cbn; rewrite ?Hs, ?He; reflexivity).
  rewrite Hp, Hn, IH. reflexivity.
Qed.

Lemma positions_shape {P : Params} : forall os p,
  returned (positions p os) = returned (positions p (map shape (placing os))).
Proof.
  induction os as [|o os IH]; intros p; [reflexivity|].
  destruct o; cbn [placing filter map shape positions op_pos op_next returned];
    try rewrite IH; try reflexivity.
Qed.

Theorem C07_positions : forall (P Q : Params) os1 os2 w1 w2 rs1 rs2 w1' w2',
  @cfg_ok P -> @alloc_ok P -> @cfg_ok Q -> @alloc_ok Q -> @VA P = @VA Q ->
  @storage_ok P w1 -> @storage_ok Q w2 -> s_pos (sw_s w1) = s_pos (sw_s w2) ->
  Forall (@op_valid P) os1 -> Forall (@no_overflow P) os1 ->
  Forall (@op_valid Q) os2 -> Forall (@no_overflow Q) os2 ->
  map shape (placing os1) = map shape (placing os2) ->
  @run_seq P os1 w1 = Ok rs1 w1' -> @run_seq Q os2 w2 = Ok rs2 w2' ->
  returned rs1 = returned rs2.
Proof.
  intros P Q os1 os2 w1 w2 rs1 rs2 w1' w2' CP AP CQ AQ HV O1 O2 Hpos V1 N1 V2 N2 Hsh R1 R2.
  rewrite (run_seq_positions CP AP _ _ _ _ O1 V1 N1 R1).
  rewrite (run_seq_positions CQ AQ _ _ _ _ O2 V2 N2 R2).
  rewrite Hpos, (positions_VA P Q HV), positions_shape, Hsh, <- positions_shape. reflexivity.
Qed.

Example C07_witness :
  @VA demo = @VA demo_release /\
  let os1 := [OPush u32_layout (bytes_src [1]); OReserve 777; OPushSlice u64_layout 3 no_mem; OPushBytes 5 no_mem] in
  let os2 := [OPush u32_layout no_mem; OPushSlice u64_layout 3 no_mem; OShrink; OPushBytes 5 no_mem] in
  map shape (placing os1) = map shape (placing os2) /\
  match @run_seq demo os1 sw_new, (@with_capacity demo_release 33 ;;; @run_seq demo_release os2) sw_new with
  | Ok r1 w1, Ok r2 w2 => returned r1 = [0; 8; 32] /\ returned r2 = [0; 8; 32] /\
                          s_ptr (sw_s w1) <> s_ptr (sw_s w2)
  | _, _ => False
  end.
Proof. vm_compute. ands; try reflexivity; discriminate. Qed.

(** ** C08-C11: reserve, with_capacity, shrink_to_fit, clear *)

Theorem C08_reserve {P : Params} : forall w n,
  cfg_ok -> alloc_ok -> storage_ok w -> n < umod ->
  match reserve n w with
  | Ok _ w' =>
      storage_ok w' /\ s_pos (sw_s w') = s_pos (sw_s w) /\
      n <= s_cap (sw_s w') - s_pos (sw_s w') /\
      (forall i, i < s_cap (sw_s w) -> s_buf (sw_s w') i = s_buf (sw_s w) i) /\
      (n <= s_cap (sw_s w) - s_pos (sw_s w) -> w' = w) /\
      (s_cap (sw_s w) - s_pos (sw_s w) < n ->
         s_pos (sw_s w) + n <= MAXC /\
         exists g, least_pow2 (s_pos (sw_s w) + n) g /\
           s_cap (sw_s w') = N.max (N.min g MAXC) (if s_cap (sw_s w) =? 0 then MVA else 0))
  | Panic e w' => e = PCapacity /\ w' = w /\ MAXC < s_pos (sw_s w) + n
  | Abort => alloc_failed
  | UB | OutOfFuel => False
  end.
Proof. intros w n C HA. exact (reserve_spec C HA w n). Qed.

Example C08_witness : @cfg_ok demo /\ @alloc_ok demo /\ @storage_ok demo sw_new /\ 100 < @umod demo /\
  seen (@reserve demo 100 sw_new) = Some (tt, 65536, 128, 0) /\
  seen (@reserve demo 3000 sw_new) = Some (tt, 65536, 4096, 0) /\
  @reserve demo 5000 sw_new = Panic PCapacity sw_new.
Proof. ands; facts. Qed.

Theorem C09_with_capacity {P : Params} : forall c,
  cfg_ok -> alloc_ok -> c < umod ->
  match with_capacity c sw_new with
  | Ok _ w =>
      c <= MAXC /\ storage_ok w /\ s_pos (sw_s w) = 0 /\
      least_multiple c MVA (s_cap (sw_s w)) /\ s_cap (sw_s w) <= MAXC /\
      (c = 0 -> w = sw_new) /\ (0 < c -> sw_calls w = 1%nat)
  | Panic e w => e = PWithCapacity /\ MAXC < c /\ w = sw_new
  | Abort => alloc_failed
  | UB | OutOfFuel => False
  end.
Proof.
  intros c C HA Hc. pose proof (with_capacity_spec C HA c Hc) as H.
  destruct (with_capacity c sw_new) as [x w|e w| | |]; try exact H.
  destruct H as (A & B & _ & D & F & G & I). ands; auto.
  - rewrite F. apply round_up_spec. pose proof (c_MVA_pos C). lia.
  - apply (ok_cap_le w B).
Qed.

Example C09_witness : @cfg_ok demo /\ @alloc_ok demo /\ 100 < @umod demo /\
  seen (@with_capacity demo 100 sw_new) = Some (tt, 65536, 112, 0).
Proof. ands; facts. Qed.

Theorem C10_shrink_to_fit {P : Params} : forall w,
  cfg_ok -> alloc_ok -> storage_ok w ->
  match shrink_to_fit w with
  | Ok _ w' =>
      storage_ok w' /\ s_pos (sw_s w') = s_pos (sw_s w) /\
      least_multiple (s_pos (sw_s w)) MVA (s_cap (sw_s w')) /\
      s_cap (sw_s w') <= s_cap (sw_s w) /\
      (forall i, i < s_pos (sw_s w) -> s_buf (sw_s w') i = s_buf (sw_s w) i) /\
      (s_cap (sw_s w') = 0 -> 0 < s_cap (sw_s w) ->
         sw_trace w' = sw_trace w ++ [EDealloc (s_ptr (sw_s w)) (s_cap (sw_s w)) SA])
  | Abort => alloc_failed
  | Panic _ _ | UB | OutOfFuel => False
  end.
Proof.
  intros w C HA Hok. pose proof (shrink_spec C HA w Hok) as H. pose proof (shrink_eq C w Hok) as Heq.
  destruct (shrink_to_fit w) as [x w'|e w'| | |]; try exact H.
  destruct H as (A & B & D & F & G & I). ands; auto.
  - rewrite F. apply round_up_spec. pose proof (c_MVA_pos C). lia.
  - intros Hz Hp. rewrite F in Hz. cbn zeta in Heq. rewrite Hz in Heq.
    rewrite (proj2 (N.eqb_neq 0 (s_cap (sw_s w)))) in Heq by lia. cbn in Heq.
    inversion Heq; subst. reflexivity.
Qed.

Example C10_witness : @cfg_ok demo /\ @alloc_ok demo /\
  (exists w, @run_ops demo [OReserve 500; OPush u32_layout no_mem; OPushBytes 20 no_mem] sw_new = Ok tt w /\
    s_cap (sw_s w) = 512 /\ s_pos (sw_s w) = 32 /\
    seen (@shrink_to_fit demo w) = Some (tt, 131072, 32, 32)).
Proof.
  split; [apply demo_cfg|]. split; [apply demo_alloc_ok|]. eexists. split; [vm_compute; reflexivity|].
  ands; conc.
Qed.

Theorem C11_clear {P : Params} : forall w,
  cfg_ok -> storage_ok w ->
  exists w', clear w = Ok tt w' /\ s_pos (sw_s w') = 0 /\ s_cap (sw_s w') = s_cap (sw_s w) /\
    s_ptr (sw_s w') = s_ptr (sw_s w) /\ s_buf (sw_s w') = s_buf (sw_s w) /\
    sw_calls w' = sw_calls w /\ sw_trace w' = sw_trace w /\ storage_ok w'.
Proof. intros w C. exact (clear_spec C w). Qed.

(** After clear, pushes return what they return on a fresh storage (of any capacity). *)
Theorem C11_clear_positions {P : Params} : forall w w' os rs w1 c w0 rs0 w2,
  cfg_ok -> alloc_ok -> storage_ok w -> clear w = Ok tt w' ->
  c < umod -> with_capacity c sw_new = Ok tt w0 ->
  Forall op_valid os -> Forall no_overflow os ->
  run_seq os w' = Ok rs w1 -> run_seq os w0 = Ok rs0 w2 -> rs = rs0.
Proof.
  intros w w' os rs w1 c w0 rs0 w2 C HA Hok Hc Hlt H0 Hv Hn R1 R2.
  rewrite (clear_positions C HA w w' os rs w1 Hok Hc Hv Hn R1).
  pose proof (with_capacity_spec C HA c Hlt) as Hw. rewrite H0 in Hw.
  destruct Hw as (_ & Hok0 & _ & Hp & _).
  rewrite (run_seq_positions C HA _ _ _ _ Hok0 Hv Hn R2), Hp. reflexivity.
Qed.

Example C11_witness :
  match (@run_ops demo [OPush u64_layout no_mem; OPushBytes 50 no_mem] ;;; @clear demo ;;;
         @run_seq demo [OPush u32_layout no_mem; OPush u64_layout no_mem]) sw_new,
        (@with_capacity demo 7 ;;; @run_seq demo [OPush u32_layout no_mem; OPush u64_layout no_mem]) sw_new with
  | Ok r _, Ok r0 _ => r = [Some 0; Some 8] /\ r0 = r
  | _, _ => False
  end.
Proof. vm_compute. split; reflexivity. Qed.

(** ** C12, C13: the allocator's contract; no undefined behaviour *)

Theorem C12_protocol {P : Params} : forall c os w0 w,
  cfg_ok -> alloc_ok -> c < umod -> Forall op_valid os ->
  with_capacity c sw_new = Ok tt w0 -> run_ops os w0 = Ok tt w ->
  protocol None (sw_trace w) (block w) /\
  exists w', drop_store w = Ok tt w' /\ protocol None (sw_trace w') None.
Proof. intros c os w0 w C HA Hc Hv Hw Hr. eapply history_protocol; eauto. Qed.

Example C12_witness :
  match (@with_capacity demo 20 ;;; @run_ops demo demo_ops ;;; @drop_store demo) sw_new with
  | Ok _ w => sw_trace w =
      [EAlloc 65536 32 16; ERealloc 65536 32 16 131072 256; EDealloc 131072 256 16;
       EAlloc 196608 16 16; EDealloc 196608 16 16]
  | _ => False
  end.
Proof. vm_compute. reflexivity. Qed.

(** C13 holds for histories without the push of an empty slice of a type that needs
    alignment; missing: that push on a storage without a buffer, which is undefined
    behaviour (copy_nonoverlapping to a misaligned dangling pointer). *)
Theorem C13_no_UB_partial {P : Params} : forall c os w0,
  cfg_ok -> alloc_ok -> c < umod -> Forall op_valid os ->
  with_capacity c sw_new = Ok tt w0 ->
  (forall l n d, In (OPushSlice l n d) os -> 0 < n \/ l_size l = 0 \/ l_align l = 1) ->
  run_ops os w0 <> UB.
Proof. intros c os w0 C HA Hc Hv Hw. eapply history_no_ub; eauto. Qed.

(** Stronger: if there is undefined behaviour at all, then at such a push and on a
    storage which has no buffer. *)
Theorem C13_only_UB {P : Params} : forall c os w0,
  cfg_ok -> alloc_ok -> c < umod -> Forall op_valid os ->
  with_capacity c sw_new = Ok tt w0 -> run_ops os w0 = UB ->
  exists os1 l d os2 w1, os = os1 ++ OPushSlice l 0 d :: os2 /\ run_ops os1 w0 = Ok tt w1 /\
    0 < l_size l /\ 1 < l_align l /\ s_cap (sw_s w1) = 0.
Proof.
  intros c os w0 C HA Hc Hv Hw Hu. pose proof (history_ub C HA c os w0 Hc Hw Hv) as H. rewrite Hu in H.
  destruct H as (os1 & o & os2 & w1 & A & B & D). destruct o; try contradiction. cbn in D.
  destruct D as (-> & D1 & D2 & D3). exists os1, l, data, os2, w1. auto.
Qed.

Theorem C13_counterexample :
  exists (P : Params) os, @cfg_ok P /\ @alloc_ok P /\ Forall (@op_valid P) os /\
    @run_ops P os sw_new = UB.
Proof.
  exists demo_release, [OPushSlice u32_layout 0 no_mem].
  split; [exact demo_release_cfg|]. split; [exact demo_release_alloc_ok|]. split; [|reflexivity].
  constructor; [|constructor]. cbn [op_valid]. split; [unfold good_layout; ands; conc|conc].
Qed.

Example C13_witness :
  Forall (@op_valid demo) demo_ops /\
  (forall l n d, In (OPushSlice l n d) demo_ops -> 0 < n \/ l_size l = 0 \/ l_align l = 1).
Proof.
  split; [exact demo_ops_valid|]. intros l n d Hin. cbn in Hin. left.
  repeat destruct Hin as [Hin|Hin]; try discriminate; try contradiction; inversion Hin; subst; reflexivity.
Qed.

(** ** C14: push_empty *)

(** Proved when the amount of bytes is a usize and, in debug builds, a multiple of
    VALUE_ALIGNMENT; missing: the other amounts, see the counterexamples. *)
Theorem C14_push_empty_partial {P : Params} : forall w l n,
  cfg_ok -> alloc_ok -> storage_ok w -> good_layout l -> l_size l * n < umod ->
  (dbg = true -> (VA | l_size l * n)) ->
  match push_empty_slice l n w with
  | Ok p w' =>
      (l_align l | p) /\ s_pos (sw_s w) <= p /\ p + l_size l * n <= s_pos (sw_s w') /\ storage_ok w' /\
      (forall i, i < s_pos (sw_s w) -> s_buf (sw_s w') i = s_buf (sw_s w) i)
  | Panic e w' => e = PCapacity /\ MAXC < push_start (s_pos (sw_s w)) l + l_size l * n
  | Abort => alloc_failed
  | UB | OutOfFuel => False
  end.
Proof. intros w l n C HA. exact (push_empty_spec C HA w l n). Qed.

Example C14_witness : 4 * 6 < @umod demo /\ (@VA demo | 4 * 6) /\
  seen (@push_empty_slice demo u32_layout 6 sw_new) = Some (0, 65536, 32, 24).
Proof. ands; conc. Qed.

(** A debug build panics on push_empty::<u32>() although there is room. *)
Theorem C14_counterexample_debug :
  exists (P : Params) l e w', @cfg_ok P /\ @alloc_ok P /\ @alloc_succeeds P /\ @good_layout P l /\
    @push_empty P l sw_new = Panic e w' /\ e <> PCapacity.
Proof.
  exists demo, u32_layout. eexists; eexists. ands; facts.
Qed.

(** A release build "reserves" 2^64 bytes in an empty storage: the size wraps. *)
Theorem C14_counterexample_release :
  exists (P : Params) l n p w', @cfg_ok P /\ @alloc_ok P /\ @good_layout P l /\ n < @umod P /\
    @push_empty_slice P l n sw_new = Ok p w' /\ s_cap (sw_s w') < p + l_size l * n.
Proof.
  exists demo_release, u32_layout, (2 ^ 62). eexists; eexists.
  ands; first [facts | (unfold good_layout; ands; conc)].
Qed.

(** ** C15: failures are clean *)

Theorem C15_clean_failure {P : Params} : forall w o w',
  cfg_ok -> alloc_ok -> storage_ok w -> op_valid o -> run_op o w = Panic PCapacity w' ->
  storage_ok w' /\ s_cap (sw_s w') = s_cap (sw_s w) /\ s_ptr (sw_s w') = s_ptr (sw_s w) /\
  s_buf (sw_s w') = s_buf (sw_s w) /\ sw_trace w' = sw_trace w /\
  s_pos (sw_s w) <= s_pos (sw_s w').
Proof. intros w o w' C HA. exact (op_clean_full C HA w o w'). Qed.

Example C15_witness :
  exists w, @run_op demo (OPushSlice u64_layout 4096 no_mem) sw_new = Panic PCapacity w.
Proof. eexists. vm_compute. reflexivity. Qed.

(** ** C16: write and read at a position *)

Theorem C16_write {P : Params} : forall w p l n data,
  cfg_ok -> storage_ok w -> good_layout l -> (l_align l | p) -> p + l_size l * n <= s_cap (sw_s w) ->
  (0 < s_cap (sw_s w) \/ l_size l = 0) ->
  exists w', write_slice p l n data w = Ok tt w' /\
    s_pos (sw_s w') = s_pos (sw_s w) /\ s_cap (sw_s w') = s_cap (sw_s w) /\
    s_ptr (sw_s w') = s_ptr (sw_s w) /\ sw_calls w' = sw_calls w /\
    sw_trace w' = sw_trace w /\ storage_ok w' /\
    (forall i, p <= i -> i < p + l_size l * n -> s_buf (sw_s w') i = data (i - p)) /\
    (forall i, i < p \/ p + l_size l * n <= i -> s_buf (sw_s w') i = s_buf (sw_s w) i).
Proof. intros w p l n data C. exact (write_exact C w p l n data). Qed.

Theorem C16_read {P : Params} : forall w p l,
  cfg_ok -> storage_ok w -> good_layout l -> (l_align l | p) -> p + l_size l <= s_pos (sw_s w) ->
  0 < s_cap (sw_s w) ->
  exists c, read p l w = Ok c w /\ forall i, i < l_size l -> c i = s_buf (sw_s w) (p + i).
Proof. intros w p l C. exact (read_exact C w p l). Qed.

Theorem C16_write_then_read {P : Params} : forall w p l data,
  cfg_ok -> storage_ok w -> good_layout l -> (l_align l | p) -> p + l_size l <= s_pos (sw_s w) ->
  0 < s_cap (sw_s w) ->
  exists w' c, write p l data w = Ok tt w' /\ read p l w' = Ok c w' /\
    forall i, i < l_size l -> c i = data i.
Proof. intros w p l data C. exact (write_then_read C w p l data). Qed.

Example C16_witness :
  match (@push demo u64_layout (bytes_src [1;2;3;4;5;6;7;8]) ;;;
         @push demo u64_layout (bytes_src [8;7;6;5;4;3;2;1]) ;;;
         @write demo 4 u32_layout (bytes_src [9;9;9;9]) ;;; @read demo 8 u64_layout) sw_new with
  | Ok c w => s_pos (sw_s w) = 16 /\ (u32_layout.(l_align) | 4) /\
      map (fun i => s_buf (sw_s w) (N.of_nat i)) (seq 0 9) =
        map Some [1;2;3;4;9;9;9;9;8] /\ c 1 = Some 7
  | _ => False
  end.
Proof. vm_compute. ands; try reflexivity. exists 1. reflexivity. Qed.

(** ** C37: amortised growth *)

Theorem C37_growth {P : Params} : forall os w w',
  cfg_ok -> alloc_ok -> storage_ok w -> Forall op_valid os -> ~ In OShrink os ->
  run_ops os w = Ok tt w' ->
  N.of_nat (sw_calls w') <= N.of_nat (sw_calls w) + (8 * pW + 1).
Proof. intros os w w' C HA Hok Hv Hs Hr. eapply no_shrink_calls; eauto. Qed.

(** Each growth goes to a strictly larger capacity, a power of two or MAX_CAPACITY
    (or MAX_VALUE_ALIGNMENT, itself a power of two). *)
Theorem C37_growth_step {P : Params} : forall w n w',
  cfg_ok -> alloc_ok -> storage_ok w -> n < umod ->
  reserve n w = Ok tt w' -> w' <> w ->
  s_cap (sw_s w) < s_cap (sw_s w') /\
  (pow2 (s_cap (sw_s w')) \/ s_cap (sw_s w') = MAXC).
Proof.
  intros w n w' C HA Hok Hn Hr Hne. pose proof (reserve_spec C HA w n Hok Hn) as H. rewrite Hr in H.
  destruct H as (Hok' & Hp & Hfit & _ & Hsame & Hgrow).
  destruct (N.le_gt_cases n (s_cap (sw_s w) - s_pos (sw_s w))) as [Hle|Hgt]; [elim Hne; auto|].
  destruct (Hgrow Hgt) as (Hmax & g & (Hg1 & Hg2 & _) & Hcap).
  split.
  - rewrite Hp in Hfit. pose proof (ok_pos_le w Hok). lia.
  - rewrite Hcap. pose proof (c_MVA C) as HM.
    destruct (N.le_ge_cases g MAXC) as [Hle|Hge].
    + rewrite (N.min_l g MAXC) by exact Hle. left. destruct (s_cap (sw_s w) =? 0).
      * destruct (N.max_spec g MVA) as [[_ ->]|[_ ->]]; assumption.
      * rewrite N.max_l by lia. exact Hg1.
    + rewrite (N.min_r g MAXC) by exact Hge. right.
      pose proof (c_MVA_le_MAXC C). destruct (s_cap (sw_s w) =? 0); lia.
Qed.

Example C37_witness :
  let os := repeat (OPushBytes 100 no_mem) 20 in
  ~ In OShrink os /\
  match @run_ops demo os sw_new with Ok _ w => sw_calls w = 6%nat /\ s_cap (sw_s w) = 4096 | _ => False end.
Proof.
  split; [intros H; apply repeat_spec in H; discriminate|]. vm_compute. split; reflexivity.
Qed.
