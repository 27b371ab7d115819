(** * WitnessSerialize: concrete cases for the theorems of PropSerialize.v, and the
    counterexamples to the parts of C39, C40, C41 and C45 that do not hold. *)
From Verif Require Import Base Types Storage Serializer Serialize Spec ArithFacts StorageFacts
  StorageHist SerFacts SerRoot Moves StorageProps SerProps Corner Misuse PropStorage PropSerialize Demo.
Local Open Scope N_scope.

Lemma demo_valid_canonical : @valid_input demo no_env canonical demo_mem t_demo 4096 demo_val.
Proof. split; [exact t_demo_wf|]. split; [vm_compute; discriminate|exact demo_repr]. Qed.

Lemma demo_valid : @valid_input demo no_env any_header demo_mem t_demo 4096 demo_val.
Proof.
  split; [exact t_demo_wf|]. split; [vm_compute; discriminate|].
  eapply repr_header; [|exact demo_repr]. intros; exact I.
Qed.

(** A storage with too little room: the buffer moves while pointers are recorded. *)
Definition demo_w : sw := match @with_capacity demo 88 sw_new with Ok _ w => w | _ => sw_new end.
Lemma demo_w_ok : @storage_ok demo demo_w.
Proof.
  assert (H : @with_capacity demo 88 sw_new = Ok tt demo_w) by (vm_compute; reflexivity).
  apply (start_ok demo_cfg demo_alloc_ok 88 demo_w); [apply ltc; vm_compute; reflexivity|exact H].
Qed.

Definition demo_out (k : kind) : outcome zs N :=
  @serialize demo k no_env demo_mem 10 t_demo 4096 (from_storage demo_w).
(** Position returned, buffer address, capacity, pos, and the words of the output. *)
Definition zseen (o : outcome zs N) :=
  match o with
  | Ok p z =>
      let st := sw_s (z_sw z) in
      Some (p, s_ptr st, s_cap st, s_pos st,
            map (fun i => @read_word demo (s_buf st) (8 * N.of_nat i)) (seq 0 12))
  | _ => None
  end.

(** All hypotheses of C18-C29, C38, C41 and C43 hold of the demo value, for each kind. *)
Example ser_hypotheses : forall k,
  @cfg_ok demo /\ @alloc_ok demo /\ @alloc_succeeds demo /\ @wf_env demo no_env /\ @storage_ok demo demo_w /\
  @valid_input demo no_env any_header demo_mem t_demo 4096 demo_val /\
  @valid_input demo no_env canonical demo_mem t_demo 4096 demo_val /\
  (vdepth demo_val < 10)%nat /\
  exists p z, demo_out k = Ok p z.
Proof.
  intros k. ands; first [exact demo_cfg | exact demo_alloc_ok | exact demo_alloc_succeeds | exact no_env_wf
    | exact demo_w_ok | exact demo_valid | exact demo_valid_canonical | idtac].
  - cbn. lia.
  - unfold demo_out. apply (C28_succeeds_iff_fits k no_env demo_mem t_demo 4096 demo_val demo_w 10
      demo_cfg demo_alloc_ok demo_alloc_succeeds no_env_wf demo_w_ok demo_valid ltac:(cbn; lia)).
    vm_compute. discriminate.
Qed.

Example C18_witness :
  match demo_out PureCopy with
  | Ok p z => @decode_root demo no_env (@out_mem 0 (z_sw z)) 10 t_demo p = Some demo_val
  | _ => False
  end.
Proof. vm_compute. reflexivity. Qed.

(** opt at 8, v at 16 (cap, ptr, len), s at 40 (ptr, cap, len), e at 64 (len, ptr, cap). *)
Example C19_witness : zseen (demo_out PtrOffset) =
  Some (0, 131072, 128, 112,
    [None; Some 88; Some 4; Some 96; Some 2; Some 104; Some 2; Some 2; Some 0; Some 8240; Some 3; Some 77]).
Proof. vm_compute. reflexivity. Qed.

(** The box was written while the buffer was at 65536, the rest after it moved to 131072. *)
Example C21_witness : zseen (demo_out Complete) =
  Some (0, 131072, 128, 112,
    [None; Some 131160; Some 2; Some 131168; Some 2; Some 131176; Some 2; Some 2; Some 0; Some 4; Some 0; Some 77]).
Proof. vm_compute. reflexivity. Qed.

(** C20, C23: the header conditions are not trivial. *)
Example C20_witness : ~ @forward demo 8 u64_layout 1 4 1 /\ @forward demo 8 u64_layout 1 88 1.
Proof. unfold forward. split; [intros H; specialize (H eq_refl eq_refl); vm_compute in H; congruence|intros; vm_compute; discriminate]. Qed.
Example C23_witness : ~ @tight 64 u32_layout 3 8240 0 /\ @tight 64 u32_layout 0 4 0.
Proof. unfold tight. split; [intros H; specialize (H eq_refl); destruct H; discriminate|intros _; auto]. Qed.

(** C22: two pointers, the buffer moving before, between and after. *)
Definition demo_evs : list event :=
  [ VOp (OPushSlice u64_layout 3 (bytes_src (repeat 7 24))); VPtr 0 16; VOp (OReserve 100); VPtr 8 0;
    VOp (OReserve 1000); VOp OShrink ].
(** A check of [events_ok] by computation. *)
Definition good_layoutb {P : Params} (l : layout) : bool :=
  is_pow2 (l_align l) && (l_size l mod l_align l =? 0) && (l_size l <=? imax) && (l_align l <=? MVA).
Definition op_okb {P : Params} (w : sw) (o : sop) : bool :=
  match o with
  | OPushSlice l n _ => good_layoutb l && (l_size l * n <=? imax) && (0 <? n)
  | OReserve n => n <? umod
  | OShrink => true
  | _ => false
  end.
Fixpoint events_okb {P : Params} (k : kind) (evs : list event) (wr : list N) (z : zs) : bool :=
  match evs with
  | [] => true
  | VPtr q t :: evs' =>
      (q mod pW =? 0) && (q + pW <=? s_pos (sw_s (z_sw z))) && (t <=? s_pos (sw_s (z_sw z))) &&
      negb (existsb (N.eqb q) wr) &&
      match overwrite_ptr k q t z with Ok _ z' => events_okb k evs' (wr ++ [q]) z' | _ => true end
  | VOp o :: evs' =>
      op_okb (z_sw z) o &&
      match run_op o (z_sw z) with
      | Ok _ w' | Panic _ w' => events_okb k evs' wr (mkZ w' (z_map z) (z_ptrs z))
      | _ => true
      end
  end.
Lemma good_layoutb_ok {P : Params} l : good_layoutb l = true -> good_layout l.
Proof.
  unfold good_layoutb, good_layout. intros H.
  apply andb_prop in H as [H H4]. apply andb_prop in H as [H H3]. apply andb_prop in H as [H H2].
  apply is_pow2_spec in H. ands; auto; try (apply N.leb_le; assumption).
  apply N.mod_divide; [destruct H as [j ->]; apply N.pow_nonzero; discriminate|apply N.eqb_eq; assumption].
Qed.
Lemma events_okb_ok {P : Params} k : pW <> 0 -> forall evs wr z,
  events_okb k evs wr z = true -> events_ok k evs wr z.
Proof.
  intros HW. induction evs as [|[q t|o] evs IH]; intros wr z H; cbn [events_okb events_ok] in *; auto.
  - apply andb_prop in H as [H H5]. apply andb_prop in H as [H H4]. apply andb_prop in H as [H H3].
    apply andb_prop in H as [H H2]. ands; auto.
    + apply N.mod_divide; auto. apply N.eqb_eq. assumption.
    + apply N.leb_le. assumption.
    + apply N.leb_le. assumption.
    + intros Hin. apply negb_true_iff in H4. rewrite <- not_true_iff_false in H4. apply H4.
      apply existsb_exists. exists q. split; auto. apply N.eqb_refl.
    + destruct (overwrite_ptr k q t z); auto.
  - apply andb_prop in H. destruct H as [Ho H]. ands.
    + destruct o; try discriminate; cbn in *; auto.
      * apply andb_prop in Ho as [Ho _]. apply andb_prop in Ho as [Ho Ho2]. split; [apply good_layoutb_ok; auto|apply N.leb_le; auto].
      * apply N.ltb_lt; auto.
    + destruct o; discriminate.
    + destruct o; cbn; auto. intros (-> & _). cbn in Ho. rewrite andb_false_r in Ho. discriminate.
    + destruct (run_op o (z_sw z)); auto.
Qed.

Example C22_witness :
  @events_ok demo Complete demo_evs [] (@from_storage sw_new) /\
  match @run_events demo Complete demo_evs (from_storage sw_new) with
  | Ok _ z => z_ptrs z = mkPtrs (mkGroup 131072 [8]) [mkGroup 65536 [0]] /\ s_ptr (sw_s (z_sw z)) = 262144
  | _ => False
  end.
Proof.
  split; [|vm_compute; split; reflexivity].
  apply events_okb_ok; [discriminate|]. vm_compute. reflexivity.
Qed.

(** C25: the same value twice and a u64, in one output. *)
Definition demo_items : list (ty * N * val) :=
  [ (t_demo, 4096, demo_val); (t_u64, 8192, VPrim 77); (t_demo, 4096, demo_val) ].
Example C25_witness :
  Forall (fun '(t, a, v) => @valid_input demo no_env any_header demo_mem t a v /\ (vdepth v < 10)%nat) demo_items /\
  match @serialize_all demo Complete no_env demo_mem 10 (map fst demo_items) (from_storage demo_w) with
  | Ok ps z => ps = [0; 112; 120] /\ s_pos (sw_s (z_sw z)) = 232
  | _ => False
  end.
Proof.
  split; [|vm_compute; auto].
  assert (A : @valid_input demo no_env any_header demo_mem t_demo 4096 demo_val /\ (vdepth demo_val < 10)%nat).
  { split; [exact demo_valid|cbn; lia]. }
  constructor; [exact A|]. constructor; [|constructor; [exact A|constructor]].
  split; [|cbn; lia]. split; [apply W_prim; exact u64_demo|]. split; [vm_compute; discriminate|].
  apply R_prim; vm_compute; reflexivity.
Qed.

(** C28: with MAX_CAPACITY = 96 the same value does not fit. *)
Definition demo_small : Params :=
  {| pW := 8; pBE := false; dbg := true; SA := 16; MVA := 16; VA := 8; MAXC := 96; orc := demo_alloc |}.
Example C28_witness :
  @end_pos demo 0 (@allocations demo no_env t_demo demo_val) = 112 /\
  match @serialize demo_small Complete no_env demo_mem 10 t_demo 4096 z_new with
  | Panic e _ => e = PCapacity
  | _ => False
  end.
Proof. split; vm_compute; reflexivity. Qed.

(** C30: a nested push. *)
Definition sl8 : slice := mkSlice u64_layout 5000 1 (bytes_src [1;2;3;4;5;6;7;8]).
Definition sl16 : slice := mkSlice u64_layout 6000 2 (bytes_src (repeat 9 16)).
Definition demo_z : zs :=
  match @push_raw_slice demo sl16 z_new with
  | Ok p z => mkZ (z_sw z) (mkMap 6000 p) (z_ptrs z)
  | _ => z_new
  end.
Lemma push_keeps_ok {P : Params} w l n d p w' :
  cfg_ok -> alloc_ok -> storage_ok w -> good_layout l -> l_size l * n <= imax ->
  push_slice l n d w = Ok p w' -> storage_ok w'.
Proof.
  intros C HA Hok Hl Hn H. pose proof (proj1 (push_pushed C HA w l n d Hok Hl Hn) p w' H) as Hp.
  unfold pushed in Hp. destruct (l_size l =? 0); [destruct Hp as [_ ->]; exact Hok|apply Hp].
Qed.
Lemma demo_z_ok : @storage_ok demo (z_sw demo_z).
Proof.
  unfold demo_z, push_raw_slice, lift. cbn [z_sw z_new from_storage sl_lay sl_len sl_data sl16].
  destruct (@push_slice demo u64_layout 2 (bytes_src (repeat 9 16)) sw_new) as [p w|e w| | |] eqn:H;
    cbn [z_sw]; try exact demo_new_ok.
  eapply (push_keeps_ok sw_new u64_layout 2 _ p w demo_cfg demo_alloc_ok demo_new_ok u64_demo);
    [vm_compute; discriminate|exact H].
Qed.
Example C30_witness :
  @storage_ok demo (z_sw demo_z) /\ @good_layout demo (sl_lay sl8) /\
  addr_inside (P := demo) Complete demo_z (ATrack 6008) /\
  match @push_and_process_slice demo Complete sl8 (ATrack 6008)
              (@ser_push_slice demo Complete sl16 (ATrack 5000) ;;; ret tt) demo_z with
  | Ok p z => p = 16 /\ @read_word demo (s_buf (sw_s (z_sw z))) 8 = Some (131072 + 16) /\
              z_map z = mkMap 6000 0
  | _ => False
  end.
Proof.
  ands.
  - exact demo_z_ok.
  - exact u64_demo.
  - intros _. exists 6008. ands; [reflexivity|vm_compute; discriminate|vm_compute; discriminate].
  - vm_compute. ands; reflexivity.
Qed.

Example C31_witness :
  map (fun vl => @vec_offsets demo vl 2) [CPL; LCP] = [Some (mkVoffs 8 0 16); Some (mkVoffs 16 8 0)].
Proof. reflexivity. Qed.

(** C32: an empty Vec<u32> with spare capacity at address 6000 of the input, copied to 0. *)
Definition demo_vec : slice := mkSlice (mkLayout 24 8) 6000 1 (bytes_src (w64 3 ++ w64 8240 ++ w64 0)).
Definition demo_vz : zs :=
  match @push_raw_slice demo demo_vec z_new with
  | Ok p z => mkZ (z_sw z) (mkMap 6000 p) (z_ptrs z)
  | _ => z_new
  end.
Example C32_witness :
  exists vo, @vec_offsets demo CPL 4 = Some vo /\
    match @overwrite_empty demo Complete vo 4 6000 demo_vz with
    | Ok _ z => map (fun i => @read_word demo (s_buf (sw_s (z_sw z))) i) [0; 8; 16] = [Some 0; Some 4; Some 0]
    | _ => False
    end.
Proof. eexists. split; [reflexivity|]. vm_compute. reflexivity. Qed.

(** ** C39 *)
Example C39_witness :
  slice_fine (P := demo) sl8 /\ addr_fine (P := demo) PtrOffset z_new (ATrack 100000) /\
  addr_fine (P := demo_release) PtrOffset demo_z (ATrack 6008).
Proof.
  unfold slice_fine, addr_fine. ands.
  - exact u64_demo.
  - vm_compute; discriminate.
  - reflexivity.
  - intros _. exists 100000. auto.
  - intros _. exists 6008. split; [reflexivity|]. right. ands; try (vm_compute; discriminate). exists 1. reflexivity.
Qed.

(** A release build writes at the position computed from any address: out of bounds. *)
Theorem C39_counterexample :
  exists (P : Params) s a, @cfg_ok P /\ @alloc_ok P /\ slice_fine (P := P) s /\
    @ser_push_slice P PtrOffset s a z_new = UB /\ @ser_push_slice P Complete s a z_new = UB.
Proof.
  exists demo_release, sl8, (ATrack 100000). ands.
  - exact demo_release_cfg.
  - exact demo_release_alloc_ok.
  - unfold slice_fine, good_layout. ands; try conc; try reflexivity; vm_compute; discriminate.
  - vm_compute. reflexivity.
  - vm_compute. reflexivity.
Qed.

(** ** C40 *)
Example C40_witness :
  let z := mkZ (z_sw demo_z) (mkMap 6000 0) ptrs_new in
  match @reserve demo 100 (z_sw demo_z) with
  | Ok _ w => s_cap (sw_s w) = 128 /\
      @push_end demo (@push_end demo (s_pos (sw_s w)) u64_layout 1) u64_layout 2 <= s_cap (sw_s w) /\
      no_stale (mkZ w (mkMap 6000 0) ptrs_new)
  | _ => False
  end.
Proof. cbn zeta. vm_compute. ands; try reflexivity; try discriminate. repeat constructor; right; reflexivity. Qed.

(** A word is pushed, then twice a value for the pointer in it; the second push moves
    the buffer, and finalize shifts the pointer twice. *)
Theorem C40_counterexample :
  exists (P : Params) s, @cfg_ok P /\ @alloc_ok P /\ slice_fine (P := P) s /\
    exists p2 z,
      (@push_raw_slice P s ;;;
       @ser_push_slice P Complete s (ATrack 0) ;;;
       p2 <- @ser_push_slice P Complete s (ATrack 0) ;;
       @finalize P Complete ;;; ret p2) z_new = Ok p2 z /\
      @read_word P (s_buf (sw_s (z_sw z))) 0 <> Some (s_ptr (sw_s (z_sw z)) + p2).
Proof.
  exists demo, sl8. ands.
  - exact demo_cfg.
  - exact demo_alloc_ok.
  - unfold slice_fine. ands; [exact u64_demo|vm_compute; discriminate|reflexivity].
  - eexists. eexists. split; [vm_compute; reflexivity|]. vm_compute. discriminate.
Qed.

(** ** C41 *)
(** [u64; 0] serialized into a new storage: position 0 of a storage at address 1. *)
Theorem C41_counterexample :
  exists (P : Params) E m t a v p z, @cfg_ok P /\ @alloc_ok P /\ @wf_env P E /\
    @valid_input P E any_header m t a v /\
    @serialize P Complete E m 2 t a z_new = Ok p z /\
    ~ @valid_ref P (@layout_of P E t) 1 (s_ptr (sw_s (z_sw z)) + p).
Proof.
  exists demo, no_env, demo_mem, (TArray t_u64 0), 4096, (VArray []). eexists. eexists. ands.
  - exact demo_cfg.
  - exact demo_alloc_ok.
  - exact no_env_wf.
  - split; [|split; [vm_compute; discriminate|apply R_array; [reflexivity|constructor]]].
    apply W_array; [apply W_prim; exact u64_demo|vm_compute; discriminate].
  - vm_compute. reflexivity.
  - intros (_ & H & _). cbn in H. destruct H as [x H]. lia.
Qed.

(** ** C45: the storage of a serializer that is not finished yet *)

(** A safe client of a CompleteSerializer: push a value with a pointer, then clear and
    shrink the storage (storage_mut() is a safe method), then finalize: the pointer
    recorded before is corrected outside the buffer, or in freed memory. *)
Theorem C45_counterexample :
  exists (P : Params) s1 s2, @cfg_ok P /\ @alloc_ok P /\ slice_fine (P := P) s1 /\ slice_fine (P := P) s2 /\
    (@push_raw_slice P s1 ;;;
     @ser_push_slice P Complete s2 (ATrack 0) ;;;
     @lift (option N) (@run_op P OClear) ;;;
     @lift (option N) (@run_op P OShrink) ;;;
     @finalize P Complete) z_new = UB.
Proof.
  exists demo, sl8, sl16. ands.
  - exact demo_cfg.
  - exact demo_alloc_ok.
  - unfold slice_fine. ands; [exact u64_demo|vm_compute; discriminate|reflexivity].
  - unfold slice_fine. ands; [exact u64_demo|vm_compute; discriminate|reflexivity].
  - vm_compute. reflexivity.
Qed.
