(** * PropSerialize: the properties of the serializers (C18-C32, C38-C41, C43), each as
    one theorem.  Concrete cases are in WitnessSerialize.v.

    [serialize k E m fuel t a (from_storage w)] is
    [XxxSerializer::from_storage(w).serialize(&value)] for the serializer kind [k], the
    value being the [t] at address [a] of the program's memory [m].  [fuel] only has to
    exceed the nesting depth of the value. *)
From Verif Require Import Base Types Storage Serializer Serialize Spec ArithFacts StorageFacts
  StorageHist MemFacts TypeFacts SerFacts SerMain SerValue SerRoot Moves StorageProps SerProps Corner Misuse.
From Coq Require Import ZifyBool ZifyNat ZifyN.
Local Open Scope N_scope.

Section Facts.
Context {P : Params}.
Hypothesis C : cfg_ok.
Hypothesis HA : alloc_ok.
Variable E : tenv.
Hypothesis HE : wf_env E.
Variables (k : kind) (m : mem) (Hin Hout : header).
Hypothesis T : transfers k Hin Hout.

Lemma ser_facts fuel t a v w :
  storage_ok w -> valid_input E Hin m t a v -> (vdepth v < fuel)%nat ->
  match serialize k E m fuel t a (from_storage w) with
  | Ok p z' =>
      let w' := z_sw z' in
      p = root_pos E (s_pos (sw_s w)) t /\
      s_pos (sw_s w') = end_pos (s_pos (sw_s w)) (allocations E t v) /\
      s_pos (sw_s w') <= MAXC /\ storage_ok w' /\ extends w w' /\
      (forall i, i < s_pos (sw_s w) -> s_buf (sw_s w') i = s_buf (sw_s w) i) /\
      (s_pos (sw_s w') <= s_cap (sw_s w) -> s_ptr (sw_s w') = s_ptr (sw_s w) /\ s_cap (sw_s w') = s_cap (sw_s w) /\
         sw_calls w' = sw_calls w /\ sw_trace w' = sw_trace w) /\
      root_final E k Hout w' t v p
  | Panic e z' =>
      let w' := z_sw z' in
      e = PCapacity /\ MAXC < end_pos (s_pos (sw_s w)) (allocations E t v) /\
      storage_ok w' /\ extends w w' /\ s_pos (sw_s w) <= s_pos (sw_s w') /\
      (forall i, i < s_pos (sw_s w) -> s_buf (sw_s w') i = s_buf (sw_s w) i)
  | Abort => alloc_failed
  | UB | OutOfFuel => False
  end.
Proof.
  intros Hw (V1 & V2 & V3) Hf. apply (serialize_spec C HA E HE k m Hin Hout T fuel t a v w Hw).
  unfold input_ok. auto.
Qed.
End Facts.

(** ** C18: PureCopy output decodes to the value *)

Theorem C18_pure_copy {P : Params} : forall k E m t a v w fuel p z f,
  cfg_ok -> alloc_ok -> wf_env E -> storage_ok w ->
  valid_input E any_header m t a v -> (vdepth v < fuel)%nat ->
  serialize k E m fuel t a (from_storage w) = Ok p z ->
  (vdepth v < f)%nat -> decode_root E (out_mem 0 (z_sw z)) f t p = Some v.
Proof.
  intros k E m t a v w fuel p z f C HA HE Hw Hv Hf Hr Hf'.
  pose proof (ser_facts C HA E HE k m any_header any_header (transfers_any k) fuel t a v w Hw Hv Hf) as H.
  rewrite Hr in H. destruct H as (_ & _ & _ & _ & _ & _ & _ & _ & H). apply H; auto.
Qed.

(** ** C19, C20: PtrOffset output is navigable, all offsets point forward *)

Theorem C19_ptr_offset {P : Params} : forall E m t a v w fuel p z,
  cfg_ok -> alloc_ok -> wf_env E -> storage_ok w ->
  valid_input E any_header m t a v -> (vdepth v < fuel)%nat ->
  serialize PtrOffset E m fuel t a (from_storage w) = Ok p z ->
  repr E any_header (out_mem 0 (z_sw z)) t p v.
Proof.
  intros E m t a v w fuel p z C HA HE Hw Hv Hf Hr.
  pose proof (ser_facts C HA E HE PtrOffset m any_header any_header (transfers_any _) fuel t a v w Hw Hv Hf) as H.
  rewrite Hr in H. destruct H as (_ & _ & _ & _ & _ & _ & _ & H & _). apply H. reflexivity.
Qed.

Theorem C20_offsets_forward {P : Params} : forall E m t a v w fuel p z,
  cfg_ok -> alloc_ok -> wf_env E -> storage_ok w ->
  valid_input E any_header m t a v -> (vdepth v < fuel)%nat ->
  serialize PtrOffset E m fuel t a (from_storage w) = Ok p z ->
  repr E forward (out_mem 0 (z_sw z)) t p v.
Proof.
  intros E m t a v w fuel p z C HA HE Hw Hv Hf Hr.
  pose proof (ser_facts C HA E HE PtrOffset m any_header forward (transfers_forward _) fuel t a v w Hw Hv Hf) as H.
  rewrite Hr in H. destruct H as (_ & _ & _ & _ & _ & _ & _ & H & _). apply H. reflexivity.
Qed.

(** ** C21, C23, C24: Complete output *)

Theorem C21_complete {P : Params} : forall E m t a v w fuel p z,
  cfg_ok -> alloc_ok -> wf_env E -> storage_ok w ->
  valid_input E any_header m t a v -> (vdepth v < fuel)%nat ->
  serialize Complete E m fuel t a (from_storage w) = Ok p z ->
  let base := s_ptr (sw_s (z_sw z)) in
  repr E any_header (out_mem base (z_sw z)) t (base + p) v.
Proof.
  intros E m t a v w fuel p z C HA HE Hw Hv Hf Hr.
  pose proof (ser_facts C HA E HE Complete m any_header any_header (transfers_any _) fuel t a v w Hw Hv Hf) as H.
  rewrite Hr in H. destruct H as (_ & _ & _ & _ & _ & _ & _ & H & _). apply H. reflexivity.
Qed.

(** The pointer inside the output to everything that takes space points past itself. *)
Theorem C21_complete_forward {P : Params} : forall E m t a v w fuel p z,
  cfg_ok -> alloc_ok -> wf_env E -> storage_ok w ->
  valid_input E any_header m t a v -> (vdepth v < fuel)%nat ->
  serialize Complete E m fuel t a (from_storage w) = Ok p z ->
  let base := s_ptr (sw_s (z_sw z)) in
  repr E forward (out_mem base (z_sw z)) t (base + p) v.
Proof.
  intros E m t a v w fuel p z C HA HE Hw Hv Hf Hr.
  pose proof (ser_facts C HA E HE Complete m any_header forward (transfers_forward _) fuel t a v w Hw Hv Hf) as H.
  rewrite Hr in H. destruct H as (_ & _ & _ & _ & _ & _ & _ & H & _). apply H. reflexivity.
Qed.

Theorem C23_shrunk {P : Params} : forall E m t a v w fuel p z,
  cfg_ok -> alloc_ok -> wf_env E -> storage_ok w ->
  valid_input E canonical m t a v -> (vdepth v < fuel)%nat ->
  serialize Complete E m fuel t a (from_storage w) = Ok p z ->
  let base := s_ptr (sw_s (z_sw z)) in
  repr E tight (out_mem base (z_sw z)) t (base + p) v.
Proof.
  intros E m t a v w fuel p z C HA HE Hw Hv Hf Hr.
  pose proof (ser_facts C HA E HE Complete m canonical tight transfers_tight fuel t a v w Hw Hv Hf) as H.
  rewrite Hr in H. destruct H as (_ & _ & _ & _ & _ & _ & _ & H & _). apply H. reflexivity.
Qed.

Theorem C24_self_contained {P : Params} : forall E m t a v w fuel p z M,
  cfg_ok -> alloc_ok -> wf_env E -> storage_ok w ->
  valid_input E any_header m t a v -> (vdepth v < fuel)%nat ->
  serialize Complete E m fuel t a (from_storage w) = Ok p z ->
  let base := s_ptr (sw_s (z_sw z)) in
  (forall i, i < s_pos (sw_s (z_sw z)) -> M (base + i) = s_buf (sw_s (z_sw z)) i) ->
  repr E any_header M t (base + p) v.
Proof.
  intros E m t a v w fuel p z M C HA HE Hw Hv Hf Hr base HM.
  eapply repr_mono; [apply (out_mem_sub base), HM|].
  eapply C21_complete; eauto.
Qed.

(** ** C22: pointers are corrected after any history of moves *)

Theorem C22_correction {P : Params} : forall evs w z,
  cfg_ok -> alloc_ok -> pW <= MVA -> storage_ok w ->
  events_ok Complete evs [] (from_storage w) ->
  run_events Complete evs (from_storage w) = Ok tt z ->
  exists z', finalize Complete z = Ok tt z' /\
    s_pos (sw_s (z_sw z')) = s_pos (sw_s (z_sw z)) /\ s_cap (sw_s (z_sw z')) = s_cap (sw_s (z_sw z)) /\
    s_ptr (sw_s (z_sw z')) = s_ptr (sw_s (z_sw z)) /\ sw_trace (z_sw z') = sw_trace (z_sw z) /\
    (forall q t, In (VPtr q t) evs ->
       read_word (s_buf (sw_s (z_sw z'))) q = Some (s_ptr (sw_s (z_sw z')) + t)) /\
    (forall i, (forall q t, In (VPtr q t) evs -> i < q \/ q + pW <= i) ->
       s_buf (sw_s (z_sw z')) i = s_buf (sw_s (z_sw z)) i).
Proof. intros evs w z C HA. exact (correction C HA evs w z). Qed.

(** ** C45: the storage used directly between pushes (partial: not clear) *)

(** Any sequence of pointer writes and storage calls through storage_mut() (caught panics
    included), and then finalize: no undefined behaviour, every pointer written is right in
    the end, all other bytes are those the calls left there.  [events_ok]: missing are clear,
    after which the claim is false (C45_counterexample, C53), and the unsound empty push of
    C13. *)
Theorem C45_access_partial {P : Params} : forall k evs w,
  k = PtrOffset \/ k = Complete ->
  cfg_ok -> alloc_ok -> pW <= MVA -> storage_ok w -> events_ok k evs [] (from_storage w) ->
  match run_events k evs (from_storage w) with
  | Ok _ z =>
      exists z', finalize k z = Ok tt z' /\ storage_ok (z_sw z') /\
        s_pos (sw_s (z_sw z')) = s_pos (sw_s (z_sw z)) /\
        (forall q t, In (VPtr q t) evs ->
           read_word (s_buf (sw_s (z_sw z'))) q =
           Some (match k with Complete => s_ptr (sw_s (z_sw z')) | _ => 0 end + t)) /\
        (forall i, (forall q t, In (VPtr q t) evs -> i < q \/ q + pW <= i) ->
           s_buf (sw_s (z_sw z')) i = s_buf (sw_s (z_sw z)) i) /\
        (forall i, i < s_pos (sw_s w) -> (forall q t, In (VPtr q t) evs -> i < q \/ q + pW <= i) ->
           s_buf (sw_s (z_sw z')) i = s_buf (sw_s w) i)
  | Abort => alloc_failed
  | Panic _ _ | UB | OutOfFuel => False
  end.
Proof.
  intros k evs w Hk C HA. apply (access C HA k evs w). destruct Hk as [->| ->]; reflexivity.
Qed.

(** ** C25: several values in one output *)

(** [(t, a, v)]: the value [v] of type [t] at address [a]. *)
Theorem C25_several_values {P : Params} : forall k E m (xs : list (ty * N * val)) w fuel ps z,
  cfg_ok -> alloc_ok -> wf_env E -> storage_ok w ->
  Forall (fun '(t, a, v) => valid_input E any_header m t a v /\ (vdepth v < fuel)%nat) xs ->
  serialize_all k E m fuel (map fst xs) (from_storage w) = Ok ps z ->
  let base := match k with Complete => s_ptr (sw_s (z_sw z)) | _ => 0 end in
  Forall2 (fun '(t, a, v) p =>
      (k = PtrOffset \/ k = Complete -> repr E any_header (out_mem base (z_sw z)) t (base + p) v) /\
      (forall f, (vdepth v < f)%nat -> decode_root E (out_mem 0 (z_sw z)) f t p = Some v))
    xs ps.
Proof.
  intros k E m xs w fuel ps z C HA HE Hw Hxs Hr base.
  pose proof (serialize_all_spec C HA E HE k m any_header any_header (transfers_any k) fuel xs w Hw) as H.
  assert (Hxs' : Forall (fun '(t, a, v) => input_ok E m any_header fuel t a v) xs).
  { eapply Forall_impl; [|exact Hxs]. intros [[t a] v] ((A & B & D) & F). unfold input_ok. auto. }
  specialize (H Hxs'). change (map it_in xs) with (map fst xs) in H. rewrite Hr in H.
  destruct H as (_ & _ & _ & _ & _ & _ & _ & H).
  clear - H. subst base. unfold root_final, out_base in H.
  induction H as [|[[t a] v] p xs ps Hx Hrest IH]; constructor; auto.
  destruct Hx as [H1 H2]. split; auto. intros [->| ->]; auto.
Qed.

(** ** C26: existing contents are kept *)

Theorem C26_existing_kept {P : Params} : forall k E m t a v w fuel z,
  cfg_ok -> alloc_ok -> wf_env E -> storage_ok w ->
  valid_input E any_header m t a v -> (vdepth v < fuel)%nat ->
  (exists p, serialize k E m fuel t a (from_storage w) = Ok p z) \/
  (exists e, serialize k E m fuel t a (from_storage w) = Panic e z) ->
  s_pos (sw_s w) <= s_pos (sw_s (z_sw z)) /\
  forall i, i < s_pos (sw_s w) -> s_buf (sw_s (z_sw z)) i = s_buf (sw_s w) i.
Proof.
  intros k E m t a v w fuel z C HA HE Hw Hv Hf Hr.
  pose proof (ser_facts C HA E HE k m any_header any_header (transfers_any k) fuel t a v w Hw Hv Hf) as H.
  destruct Hr as [[p Hr]|[e Hr]]; rewrite Hr in H.
  - destruct H as (_ & Hp & _ & _ & _ & H & _ & _). split; auto. rewrite Hp. apply end_pos_ge; auto.
  - destruct H as (_ & _ & _ & _ & H1 & H2). auto.
Qed.

(** ** C27: one layout rule for all kinds *)

Theorem C27_same_layout {P : Params} : forall k1 k2 E m1 m2 t a1 a2 v w1 w2 f1 f2 p1 p2 z1 z2,
  cfg_ok -> alloc_ok -> wf_env E -> storage_ok w1 -> storage_ok w2 ->
  s_pos (sw_s w1) = s_pos (sw_s w2) ->
  valid_input E any_header m1 t a1 v -> (vdepth v < f1)%nat ->
  valid_input E any_header m2 t a2 v -> (vdepth v < f2)%nat ->
  serialize k1 E m1 f1 t a1 (from_storage w1) = Ok p1 z1 ->
  serialize k2 E m2 f2 t a2 (from_storage w2) = Ok p2 z2 ->
  p1 = p2 /\ s_pos (sw_s (z_sw z1)) = s_pos (sw_s (z_sw z2)) /\
  p1 = root_pos E (s_pos (sw_s w1)) t /\
  s_pos (sw_s (z_sw z1)) = end_pos (s_pos (sw_s w1)) (allocations E t v).
Proof.
  intros k1 k2 E m1 m2 t a1 a2 v w1 w2 f1 f2 p1 p2 z1 z2 C HA HE W1 W2 Hp V1 F1 V2 F2 R1 R2.
  pose proof (ser_facts C HA E HE k1 m1 any_header any_header (transfers_any k1) f1 t a1 v w1 W1 V1 F1) as H1.
  pose proof (ser_facts C HA E HE k2 m2 any_header any_header (transfers_any k2) f2 t a2 v w2 W2 V2 F2) as H2.
  rewrite R1 in H1. rewrite R2 in H2.
  destruct H1 as (A1 & B1 & _). destruct H2 as (A2 & B2 & _).
  rewrite A1, A2, B1, B2, Hp. auto.
Qed.

(** ** C28, C29: it succeeds iff it fits, and nothing else can happen *)

Theorem C28_succeeds_iff_fits {P : Params} : forall k E m t a v w fuel,
  cfg_ok -> alloc_ok -> alloc_succeeds -> wf_env E -> storage_ok w ->
  valid_input E any_header m t a v -> (vdepth v < fuel)%nat ->
  ((exists p z, serialize k E m fuel t a (from_storage w) = Ok p z) <->
     end_pos (s_pos (sw_s w)) (allocations E t v) <= MAXC) /\
  ((exists z, serialize k E m fuel t a (from_storage w) = Panic PCapacity z) <->
     MAXC < end_pos (s_pos (sw_s w)) (allocations E t v)).
Proof.
  intros k E m t a v w fuel C HA HS HE Hw Hv Hf.
  pose proof (ser_facts C HA E HE k m any_header any_header (transfers_any k) fuel t a v w Hw Hv Hf) as H.
  destruct (serialize k E m fuel t a (from_storage w)) as [p z|e z| | |] eqn:Hr; try contradiction.
  - destruct H as (_ & Hp & Hle & _). rewrite Hp in Hle. split; split; intros H; auto.
    + eauto.
    + destruct H as [? H]; discriminate.
    + lia.
  - destruct H as (-> & Hlt & _). split; split; intros H; auto.
    + destruct H as (? & ? & H); discriminate.
    + lia.
    + eauto.
  - exfalso. destruct H as (n & s & A & B & D). exact (HS n s A B D).
Qed.

Theorem C29_nothing_else {P : Params} : forall k E m t a v w fuel,
  cfg_ok -> alloc_ok -> wf_env E -> storage_ok w ->
  valid_input E any_header m t a v -> (vdepth v < fuel)%nat ->
  match serialize k E m fuel t a (from_storage w) with
  | Ok _ z => storage_ok (z_sw z)
  | Panic e z => e = PCapacity /\ storage_ok (z_sw z)
  | Abort => alloc_failed
  | UB | OutOfFuel => False
  end.
Proof.
  intros k E m t a v w fuel C HA HE Hw Hv Hf.
  pose proof (ser_facts C HA E HE k m any_header any_header (transfers_any k) fuel t a v w Hw Hv Hf) as H.
  destruct (serialize k E m fuel t a (from_storage w)) as [p z|e z| | |]; try contradiction; auto.
  - apply H.
  - destruct H as (A & _ & B & _). auto.
Qed.

(** The allocator's contract is kept too, and the block is the storage's at the end. *)
Theorem C29_allocator {P : Params} : forall k E m t a v w fuel z,
  cfg_ok -> alloc_ok -> wf_env E -> storage_ok w ->
  valid_input E any_header m t a v -> (vdepth v < fuel)%nat ->
  (exists p, serialize k E m fuel t a (from_storage w) = Ok p z) \/
  (exists e, serialize k E m fuel t a (from_storage w) = Panic e z) ->
  exists evs, sw_trace (z_sw z) = sw_trace w ++ evs /\ protocol (block w) evs (block (z_sw z)).
Proof.
  intros k E m t a v w fuel z C HA HE Hw Hv Hf Hr.
  pose proof (ser_facts C HA E HE k m any_header any_header (transfers_any k) fuel t a v w Hw Hv Hf) as H.
  destruct Hr as [[p Hr]|[e Hr]]; rewrite Hr in H.
  - destruct H as (_ & _ & _ & _ & H & _). exact H.
  - destruct H as (_ & _ & _ & H & _). exact H.
Qed.

(** ** C30: position mapping *)

Theorem C30_mapping {P : Params} : forall k s a process z p z',
  cfg_ok -> alloc_ok -> k <> PureCopy ->
  storage_ok (z_sw z) -> good_layout (sl_lay s) -> l_size (sl_lay s) * sl_len s <= imax ->
  addr_inside k z a ->
  push_and_process_slice k s a process z = Ok p z' ->
  z_map z' = z_map z /\
  exists z1 z2, process z1 = Ok tt z2 /\
    forall i, i < l_size (sl_lay s) * sl_len s ->
      pos_for_addr (z_map z1) (ATrack (sl_addr s + i)) z1 = Ok (p + i) z1 /\
      s_buf (sw_s (z_sw z1)) (p + i) = sl_data s i.
Proof. intros k s a process z p z' C HA. exact (tracking_restored C HA k s a process z p z'). Qed.

(** ** C31, C32: the fields of Vec and String *)

Theorem C31_vec_offsets {P : Params} : forall vl dangle,
  dangle <> 0 ->
  exists vo, vec_offsets vl dangle = Some vo /\
    vo_cap vo = cap_off vl /\ vo_ptr vo = ptr_off vl /\ vo_len vo = len_off vl.
Proof.
  intros vl d Hd. eexists. split; [apply vec_offsets_ok; exact Hd|]. auto.
Qed.

Theorem C32_empty_overwrite {P : Params} : forall z vl dangle a vo,
  let q := a - pm_in (z_map z) + pm_out (z_map z) in
  cfg_ok -> vec_offsets vl dangle = Some vo -> dangle <> 0 -> dangle < umod ->
  storage_ok (z_sw z) -> pW <= MVA -> pm_in (z_map z) <= a -> (pW | q) ->
  q + 3 * pW <= s_pos (sw_s (z_sw z)) -> a + 3 * pW <= umod ->
  exists z', overwrite_empty Complete vo dangle a z = Ok tt z' /\ same_but_buf z z' /\
    read_word (s_buf (sw_s (z_sw z'))) (q + cap_off vl) = Some 0 /\
    read_word (s_buf (sw_s (z_sw z'))) (q + ptr_off vl) = Some dangle /\
    (forall i, (i < q + cap_off vl \/ q + cap_off vl + pW <= i) ->
               (i < q + ptr_off vl \/ q + ptr_off vl + pW <= i) ->
               s_buf (sw_s (z_sw z')) i = s_buf (sw_s (z_sw z)) i).
Proof. intros z vl d a vo q C. exact (overwrite_empty_exact C z vl d a vo). Qed.

(** ** C38: a pre-sized buffer never moves *)

Theorem C38_presized {P : Params} : forall k E m t a v w fuel p z,
  cfg_ok -> alloc_ok -> wf_env E -> storage_ok w ->
  valid_input E any_header m t a v -> (vdepth v < fuel)%nat ->
  serialize k E m fuel t a (from_storage w) = Ok p z ->
  s_pos (sw_s (z_sw z)) <= s_cap (sw_s w) ->
  s_ptr (sw_s (z_sw z)) = s_ptr (sw_s w) /\ s_cap (sw_s (z_sw z)) = s_cap (sw_s w) /\
  sw_trace (z_sw z) = sw_trace w.
Proof.
  intros k E m t a v w fuel p z C HA HE Hw Hv Hf Hr Hle.
  pose proof (ser_facts C HA E HE k m any_header any_header (transfers_any k) fuel t a v w Hw Hv Hf) as H.
  rewrite Hr in H. destruct H as (_ & _ & _ & _ & _ & _ & H & _).
  destruct (H Hle) as (A & B & _ & D). auto.
Qed.

(** ** C39: any address given to a push *)

(** Proved for debug builds with any address, and for release builds with an address
    of an aligned word of the current output; missing: release builds with other
    addresses, see the counterexample.  [process] is any callback that does not itself
    cause undefined behaviour. *)
Theorem C39_addresses_partial {P : Params} : forall k s a process z,
  cfg_ok -> alloc_ok -> storage_ok (z_sw z) -> pW <= MVA -> slice_fine s -> addr_fine k z a ->
  (forall z1, storage_ok (z_sw z1) -> process z1 <> UB) ->
  push_and_process_slice k s a process z <> UB.
Proof. intros k s a process z C HA. exact (push_any_addr C HA k s a process z). Qed.

(** ** C40: a pointer written twice *)

(** Proved when the buffer has room for both pushes; missing: the buffer moves between
    them, see the counterexample. *)
Theorem C40_repush_partial {P : Params} : forall z s1 s2 n,
  let q := n - pm_in (z_map z) + pm_out (z_map z) in
  cfg_ok -> alloc_ok -> storage_ok (z_sw z) -> pW <= MVA -> slice_fine s1 -> slice_fine s2 ->
  0 < l_size (sl_lay s1) -> 0 < l_size (sl_lay s2) ->
  pm_in (z_map z) <= n -> (pW | q) -> q + pW <= s_pos (sw_s (z_sw z)) -> no_stale z ->
  push_end (push_end (s_pos (sw_s (z_sw z))) (sl_lay s1) (sl_len s1)) (sl_lay s2) (sl_len s2)
    <= s_cap (sw_s (z_sw z)) ->
  exists p1 p2 z', (p1 <- ser_push_slice Complete s1 (ATrack n) ;;
                    p2 <- ser_push_slice Complete s2 (ATrack n) ;;
                    finalize Complete ;;; ret (p1, p2)) z = Ok (p1, p2) z' /\
    read_word (s_buf (sw_s (z_sw z'))) q = Some (s_ptr (sw_s (z_sw z')) + p2) /\
    (forall i, i < l_size (sl_lay s2) * sl_len s2 ->
       s_buf (sw_s (z_sw z')) (p2 + i) = sl_data s2 i).
Proof. intros z s1 s2 n q C HA. exact (repush C HA z s1 s2 n). Qed.

(** ** C41: the returned position *)

(** Proved when the storage has a buffer or T has alignment 1; missing: a zero-sized T
    with a larger alignment serialized into an empty storage, see the counterexample. *)
Theorem C41_position_usable_partial {P : Params} : forall k E m t a v w fuel p z,
  cfg_ok -> alloc_ok -> wf_env E -> storage_ok w ->
  valid_input E any_header m t a v -> (vdepth v < fuel)%nat ->
  serialize k E m fuel t a (from_storage w) = Ok p z ->
  0 < s_cap (sw_s (z_sw z)) \/ align_of E t = 1 ->
  valid_ref (layout_of E t) 1 (s_ptr (sw_s (z_sw z)) + p) /\
  p + size_of E t <= s_pos (sw_s (z_sw z)).
Proof.
  intros k E m t a v w fuel p z C HA HE Hw Hv Hf Hr Hc.
  pose proof (ser_facts C HA E HE k m any_header any_header (transfers_any k) fuel t a v w Hw Hv Hf) as H.
  rewrite Hr in H. destruct H as (Hp & Hpos & _ & Hok & _).
  destruct Hv as (Hwf & _ & _).
  pose proof (wf_good C E HE t Hwf) as Hg.
  assert (Hfit : (align_of E t | p) /\ p + size_of E t <= s_pos (sw_s (z_sw z))).
  { rewrite Hp, Hpos. unfold root_pos, allocations. destruct (N.eqb_spec (size_of E t) 0) as [E0|E0].
    - split; [apply N.divide_0_r|]. rewrite E0. cbn. lia.
    - split; [apply push_start_align; auto; apply Hg|]. cbn [app end_pos].
      pose proof (push_end_ge C (s_pos (sw_s w)) (layout_of E t) 1).
      pose proof (end_pos_ge C (push_end (s_pos (sw_s w)) (layout_of E t) 1) (owned E t v)).
      unfold size_of in *. lia. }
  destruct Hfit as [H1 H2]. split; auto. eapply returned_ref; eauto.
Qed.

(** ** C43: the size of the output *)

Theorem C43_size_bound {P : Params} : forall k E m t a v w fuel p z,
  cfg_ok -> alloc_ok -> wf_env E -> storage_ok w ->
  valid_input E any_header m t a v -> (vdepth v < fuel)%nat ->
  serialize k E m fuel t a (from_storage w) = Ok p z ->
  s_pos (sw_s (z_sw z)) <= s_pos (sw_s w) + data_size (allocations E t v) +
     N.of_nat (length (allocations E t v)) * ((MVA - 1) + (VA - 1)).
Proof.
  intros k E m t a v w fuel p z C HA HE Hw Hv Hf Hr.
  pose proof (ser_facts C HA E HE k m any_header any_header (transfers_any k) fuel t a v w Hw Hv Hf) as H.
  rewrite Hr in H. destruct H as (_ & -> & _).
  apply (end_pos_bound C).
  apply (allocations_good C); auto. apply Hv.
Qed.
