(** * PropUse: how serialization uses the storage (C59), and what that costs (C58).

    [push_ops], [alike] and [bytes_moved] are in Spec.v, [step_slices] in ClientSpec.v. *)
From Verif Require Import Base Types Storage Serializer Serialize Spec Client ClientSpec ArithFacts
  StorageFacts StorageHist Frame MemFacts TypeFacts SerFacts SerMain SerRoot SerProps ClientFacts Cost
  PropStorage PropSerialize PropClient PropCost Demo WitnessSerialize.
From Coq Require Import ZifyBool ZifyNat ZifyN.
Local Open Scope N_scope.

(** ** C59: serializing is, for the storage, pushing the slices *)

(** [(t, a, v)]: the value [v] of type [t] at address [a].  Serializing values drives the
    storage exactly as one push_slice for each allocation of the values does, in order: same
    positions, same growths, same allocator calls, same panic, whatever the serializer. *)
Theorem C59_storage_use {P : Params} : forall k E m (xs : list (ty * N * val)) w fuel,
  cfg_ok -> alloc_ok -> wf_env E -> storage_ok w ->
  Forall (fun '(t, a, v) => valid_input E any_header m t a v /\ (vdepth v < fuel)%nat) xs ->
  let ops := push_ops (all_allocations E (map (fun '(t, a, v) => (t, v)) xs)) in
  match serialize_all k E m fuel (map fst xs) (from_storage w) with
  | Ok _ z => exists rs w', run_seq ops w = Ok rs w' /\ alike w' (z_sw z)
  | Panic e z => e = PCapacity /\ exists w', run_seq ops w = Panic PCapacity w' /\ alike w' (z_sw z)
  | Abort => run_seq ops w = Abort
  | UB | OutOfFuel => False
  end.
Proof.
  intros k E m xs w fuel C HA HE Hw Hxs ops.
  assert (Hxs' : Forall (fun '(t, a, v) => input_ok E m any_header fuel t a v) xs).
  { eapply Forall_impl; [|exact Hxs]. intros [[t a] v] ((A & B & D) & F). unfold input_ok. auto. }
  pose proof (serialize_all_spec C HA E HE k m any_header any_header (transfers_any k) fuel xs w Hw Hxs') as H.
  assert (Hmap : map it_tv xs = map (fun '(t, a, v) => (t, v)) xs).
  { apply map_ext. intros [[t a] v]. reflexivity. }
  rewrite Hmap in H. change (map it_in xs) with (map fst xs) in H.
  assert (Hgood : Forall (fun x => good_layout (fst x)) (all_allocations E (map (fun '(t, a, v) => (t, v)) xs))).
  { unfold all_allocations. apply Forall_flat_map. apply Forall_map.
    eapply Forall_impl; [|exact Hxs']. intros [[t a] v] Hx. apply (allocations_good C); [exact HE|apply Hx]. }
  pose proof (fpushes_run C HA (all_allocations E (map (fun '(t, a, v) => (t, v)) xs)) w Hw Hgood) as HR.
  fold ops in HR.
  destruct (serialize_all k E m fuel (map fst xs) (from_storage w)) as [rs z|e z| | |]; auto.
  - destruct H as (_ & _ & _ & _ & _ & _ & H & _). rewrite Hmap in H. rewrite H in HR.
    destruct HR as (rs' & w' & R1 & R2). exists rs', w'. split; [exact R1|apply frame_alike; exact R2].
  - destruct H as (He & _ & H & _). split; [exact He|]. rewrite Hmap in H. rewrite H in HR.
    destruct HR as (w' & R1 & R2). exists w'. split; [exact R1|apply frame_alike; exact R2].
  - destruct H as (_ & H). rewrite H in HR. exact HR.
Qed.

(** So two serializers, given equal values (anywhere in memory) and storages that differ in
    contents only, make the same allocator calls with the same sizes and end in the same way,
    at the same positions. *)
Theorem C59_all_kinds {P : Params} : forall k1 k2 E m1 m2 (xs1 xs2 : list (ty * N * val)) w f1 f2,
  cfg_ok -> alloc_ok -> wf_env E -> storage_ok w ->
  Forall (fun '(t, a, v) => valid_input E any_header m1 t a v /\ (vdepth v < f1)%nat) xs1 ->
  Forall (fun '(t, a, v) => valid_input E any_header m2 t a v /\ (vdepth v < f2)%nat) xs2 ->
  map (fun '(t, a, v) => (t, v)) xs1 = map (fun '(t, a, v) => (t, v)) xs2 ->
  match serialize_all k1 E m1 f1 (map fst xs1) (from_storage w),
        serialize_all k2 E m2 f2 (map fst xs2) (from_storage w) with
  | Ok _ z1, Ok _ z2 => alike (z_sw z1) (z_sw z2)
  | Panic e1 z1, Panic e2 z2 => e1 = e2 /\ alike (z_sw z1) (z_sw z2)
  | Abort, Abort => True
  | _, _ => False
  end.
Proof.
  intros k1 k2 E m1 m2 xs1 xs2 w f1 f2 C HA HE Hw H1 H2 Heq.
  pose proof (C59_storage_use k1 E m1 xs1 w f1 C HA HE Hw H1) as A.
  pose proof (C59_storage_use k2 E m2 xs2 w f2 C HA HE Hw H2) as B.
  rewrite Heq in A. cbv zeta in A, B.
  assert (Hal : forall w0 w1 w2 : sw, alike w0 w1 -> alike w0 w2 -> alike w1 w2).
  { unfold alike. intros w0 w1 w2 (X1 & X2 & X3 & X4 & X5) (Y1 & Y2 & Y3 & Y4 & Y5). ands; congruence. }
  destruct (serialize_all k1 E m1 f1 (map fst xs1) (from_storage w)) as [r1 z1|e1 z1| | |]; try contradiction.
  - destruct A as (rs & w1 & A1 & A2). rewrite A1 in B.
    destruct (serialize_all k2 E m2 f2 (map fst xs2) (from_storage w)) as [r2 z2|e2 z2| | |]; try contradiction.
    + destruct B as (rs' & w2 & B1 & B2). inversion B1; subst. eapply Hal; eassumption.
    + destruct B as (_ & w2 & B1 & _). discriminate.
    + discriminate.
  - destruct A as (-> & w1 & A1 & A2). rewrite A1 in B.
    destruct (serialize_all k2 E m2 f2 (map fst xs2) (from_storage w)) as [r2 z2|e2 z2| | |]; try contradiction.
    + destruct B as (rs' & w2 & B1 & B2). discriminate.
    + destruct B as (-> & w2 & B1 & B2). inversion B1; subst. split; [reflexivity|]. eapply Hal; eassumption.
    + discriminate.
  - rewrite A in B.
    destruct (serialize_all k2 E m2 f2 (map fst xs2) (from_storage w)) as [r2 z2|e2 z2| | |]; try contradiction; auto.
    + destruct B as (rs' & w2 & B1 & B2). discriminate.
    + destruct B as (_ & w2 & B1 & _). discriminate.
Qed.

(** The same for a hand-written implementation that makes no storage calls and does not panic. *)
Lemma slices_allocs {P : Params} E : forall s, may_panic s = false -> step_slices E s = step_allocs E s.
Proof.
  fix IH 1. intros s Hp.
  assert (IHs : forall ss, existsb may_panic ss = false ->
     flat_map (step_slices E) ss = flat_map (step_allocs E) ss).
  { clear s Hp. fix IHs 1. intros [|s ss] Hp; [reflexivity|]. cbn [existsb] in Hp.
    apply Bool.orb_false_elim in Hp. destruct Hp as [Hp1 Hp2]. cbn [flat_map].
    rewrite (IH s Hp1), (IHs ss Hp2). reflexivity. }
  destruct s; try reflexivity.
  - cbn [step_slices step_allocs]. f_equal. apply IHs. exact Hp.
  - discriminate.
Qed.

Lemma slices_good {P : Params} E m fuel : cfg_ok -> wf_env E -> forall s size al a,
  step_ok E m fuel size al a s -> Forall (fun x => good_layout (fst x)) (step_slices E s).
Proof.
  intros C HE. fix IH 5. intros s size al a Hs.
  assert (IHs : forall ss size al a, steps_ok E m fuel size al a ss ->
     Forall (fun x => good_layout (fst x)) (flat_map (step_slices E) ss)).
  { clear s size al a Hs. fix IHs 5. intros ss size al a Hss. destruct Hss; cbn [flat_map]; [constructor|].
    apply Forall_app. split; [eapply IH; eassumption|eapply IHs; eassumption]. }
  destruct Hs; cbn [step_slices]; try solve [constructor].
  - match goal with H : slice_ok _ _ _ |- _ => destruct H end. apply Forall_app. split; [|eapply IHs; eassumption].
    unfold slice_list. destruct (_ =? 0); [constructor|constructor; [assumption|constructor]].
  - match goal with H : slice_ok _ _ _ |- _ => destruct H end.
    unfold slice_list. destruct (_ =? 0); [constructor|constructor; [assumption|constructor]].
  - match goal with H : slice_ok _ _ _ |- _ => destruct H end.
    unfold slice_list. destruct (_ =? 0); [constructor|constructor; [assumption|constructor]].
  - apply (owned_good C); assumption.
Qed.

Theorem C59_client {P : Params} : forall k E m fuel l a ss w,
  cfg_ok -> alloc_ok -> wf_env E -> storage_ok w ->
  good_layout l -> 0 < l_size l -> a + l_size l <= umod ->
  steps_ok E m fuel (l_size l) (l_align l) a ss -> existsb may_panic ss = false ->
  let ops := push_ops ((l, 1) :: flat_map (step_slices E) ss) in
  match client_serialize k E m fuel l a ss (from_storage w) with
  | Ok _ z => exists rs w', run_seq ops w = Ok rs w' /\ alike w' (z_sw z)
  | Panic e z => e = PCapacity /\ exists w', run_seq ops w = Panic PCapacity w' /\ alike w' (z_sw z)
  | Abort => run_seq ops w = Abort
  | UB | OutOfFuel => False
  end.
Proof.
  intros k E m fuel l a ss w C HA HE Hok Hl Hsz Ha Hss Hp ops.
  assert (Hsame : flat_map (step_slices E) ss = flat_map (step_allocs E) ss).
  { clear - Hp. induction ss as [|s ss IH]; [reflexivity|]. cbn [existsb] in Hp.
    apply Bool.orb_false_elim in Hp. destruct Hp as [Hp1 Hp2]. cbn [flat_map].
    rewrite (slices_allocs E s Hp1), (IH Hp2). reflexivity. }
  assert (Hgood : Forall (fun x => good_layout (fst x)) ((l, 1) :: flat_map (step_slices E) ss)).
  { constructor; [exact Hl|]. clear - C HE Hss. induction Hss; cbn [flat_map]; [constructor|].
    apply Forall_app. split; [eapply slices_good; eassumption|assumption]. }
  pose proof (fpushes_run C HA _ w Hok Hgood) as HR. fold ops in HR.
  assert (Hcalm : ~ In busy ((l, 1) :: flat_map (step_slices E) ss)) by (apply busy_not_good; exact Hgood).
  rewrite Hsame in Hcalm, HR.
  pose proof (from_storage_inv k w Hok) as Hz.
  pose proof (impl_done C HA E HE k m fuel l a ss (from_storage w) [] Hl Hsz Ha Hss Hz) as HV.
  pose proof (impl_reason E k m fuel l a ss (from_storage w)) as HU.
  unfold client_serialize, bind.
  destruct (serialize_value_with k (slice_at m l a 1) (run_steps k E m fuel a ss) (from_storage w)) as [p z1|e z1| | |]; auto.
  - cbn [rdone app] in HV. destruct HV as (G & -> & V1 & V2 & V3 & V4 & V5 & V6 & V7 & V8 & V9).
    destruct V7 as [V7 _]. specialize (V7 Hcalm). cbn [from_storage z_sw] in *. rewrite V7 in HR.
    destruct HR as (rs & w' & R1 & R2).
    assert (Hc0 : 0 < s_cap (sw_s (z_sw z1))).
    { pose proof (ok_pos_le _ (zinv_ok _ _ _ V1)). rewrite V2 in *. cbn [end_pos] in *.
      pose proof (push_start_ge C (s_pos (sw_s w)) l (proj1 Hl)).
      pose proof (push_end_ge C (s_pos (sw_s w)) l 1).
      pose proof (end_pos_ge C (push_end (s_pos (sw_s w)) l 1) (flat_map (step_allocs E) ss)). lia. }
    destruct (finalize_eq C k z1 G V1 (fun _ => or_introl Hc0)) as (z' & -> & Z1 & Z2 & Z3 & Z4 & Z5 & Z6 & Z7).
    cbn [ret]. exists rs, w'. split; [exact R1|]. apply frame_alike in R2.
    unfold alike in *. rewrite Z1, Z2, Z3, Z4, Z5. exact R2.
  - cbn [rdone] in HV. destruct HV as ([->|[-> [_ V1]]] & _).
    + rewrite (HU PUser z1 eq_refl eq_refl) in Hp. discriminate.
    + split; [reflexivity|]. specialize (V1 Hcalm). cbn [from_storage z_sw] in V1. rewrite V1 in HR.
      destruct HR as (w' & R1 & R2). exists w'. split; [exact R1|apply frame_alike; exact R2].
  - cbn [rdone] in HV. destruct HV as [_ HV]. specialize (HV Hcalm). cbn [from_storage z_sw] in HV.
    rewrite HV in HR. exact HR.
Qed.

(** The demo value (88 bytes, then three slices), into a storage of capacity 96: the storage
    grows twice under each serializer, as it does under four pushes. *)
Example C59_witness : forall k,
  match demo_out k, @run_seq demo (push_ops (@allocations demo no_env t_demo demo_val)) demo_w with
  | Ok _ z, Ok rs w' =>
      (s_ptr (sw_s (z_sw z)), s_cap (sw_s (z_sw z)), s_pos (sw_s (z_sw z)), sw_trace (z_sw z)) =
      (s_ptr (sw_s w'), s_cap (sw_s w'), s_pos (sw_s w'), sw_trace w') /\
      rs = [Some 0; Some 88; Some 96; Some 104] /\
      sw_trace w' = [EAlloc 65536 96 16; ERealloc 65536 96 16 131072 128]
  | _, _ => False
  end.
Proof. intros []; vm_compute; repeat split. Qed.

(** The implementation of C47 without its storage calls. *)
Definition demo_pure_steps : list step :=
  [ SPush 8 u64_layout 8192 1 [SOver 0 u64_layout (bytes_src (w64 99))];
    SField 16 (TVec CPL t_u16) (VVec [VPrim 258; VPrim 772]);
    SPushPlain 40 (mkLayout 1 1) 8224 2;
    SOver 80 u64_layout (bytes_src (w64 0));
    SRaw (mkLayout 2 2) 8208 2 ].
Example C59_client_witness :
  existsb may_panic demo_pure_steps = false /\
  @step_slices demo no_env (hd SPanic demo_pure_steps) = [(u64_layout, 1)] /\
  match @client_serialize demo Complete no_env demo_mem 10 (mkLayout 88 8) 4096 demo_pure_steps (from_storage demo_w),
        @run_seq demo (push_ops ((mkLayout 88 8, 1) :: flat_map (@step_slices demo no_env) demo_pure_steps)) demo_w with
  | Ok _ z, Ok rs w' => s_pos (sw_s (z_sw z)) = 120 /\ s_pos (sw_s w') = 120 /\ sw_trace (z_sw z) = sw_trace w'
  | _, _ => False
  end.
Proof. vm_compute. repeat split. Qed.
Example C59_client_hypotheses : @steps_ok demo no_env demo_mem 10 88 8 4096 demo_pure_steps.
Proof.
  pose proof C47_hypotheses as H. unfold demo_steps in H. unfold demo_pure_steps.
  repeat match goal with
  | H : steps_ok _ _ _ _ _ _ (_ :: _) |- _ => inversion H; subst; clear H
  end.
  repeat (constructor; [assumption|apart|]). constructor.
Qed.

(** ** C58 for serialization *)

(** Serializing copies, by growing, at most twice the capacity reached, which is at most twice
    the output (or what it was, or MAX_VALUE_ALIGNMENT). *)
Theorem C58_serialize {P : Params} : forall k E m (xs : list (ty * N * val)) w fuel ps z,
  cfg_ok -> alloc_ok -> wf_env E -> storage_ok w ->
  Forall (fun '(t, a, v) => valid_input E any_header m t a v /\ (vdepth v < fuel)%nat) xs ->
  serialize_all k E m fuel (map fst xs) (from_storage w) = Ok ps z ->
  s_cap (sw_s (z_sw z)) <= N.max (s_cap (sw_s w)) (N.max MVA (2 * s_pos (sw_s (z_sw z)))) /\
  exists es, sw_trace (z_sw z) = sw_trace w ++ es /\ bytes_moved es <= 2 * s_cap (sw_s (z_sw z)).
Proof.
  intros k E m xs w fuel ps z C HA HE Hw Hxs Hr.
  pose proof (C59_storage_use k E m xs w fuel C HA HE Hw Hxs) as H. cbv zeta in H. rewrite Hr in H.
  destruct H as (rs & w' & Hrun & (A1 & A2 & A3 & A4 & A5)). rewrite <- A2, <- A3, <- A5.
  set (al := all_allocations E (map (fun '(t, a, v) => (t, v)) xs)) in *.
  assert (Hgood : Forall (fun x => good_layout (fst x)) al).
  { subst al. unfold all_allocations. apply Forall_flat_map. apply Forall_map.
    eapply Forall_impl; [|exact Hxs]. intros [[t a] v] (Hx & _).
    apply (allocations_good C); [exact HE|apply Hx]. }
  assert (Hlen : exists f, fpushes al (frame_of w) = FOk f).
  { assert (Hxs' : Forall (fun '(t, a, v) => input_ok E m any_header fuel t a v) xs).
    { eapply Forall_impl; [|exact Hxs]. intros [[t a] v] ((A & B & D) & F). unfold input_ok. auto. }
    pose proof (serialize_all_spec C HA E HE k m any_header any_header (transfers_any k) fuel xs w Hw Hxs') as H.
    change (map it_in xs) with (map fst xs) in H. rewrite Hr in H.
    destruct H as (_ & _ & _ & _ & _ & _ & H & _).
    replace (map it_tv xs) with (map (fun '(t, a, v) => (t, v)) xs) in H
      by (apply map_ext; intros [[t a] v]; reflexivity).
    eexists. exact H. }
  assert (Hval : Forall op_valid (push_ops al)).
  { destruct Hlen as [f Hf]. clear Hrun. revert f Hf. generalize (frame_of w).
    induction Hgood as [|[l n] al Hl Hgood IH]; intros f0 f Hf; [constructor|].
    cbn [fpushes] in Hf. destruct (fpush f0 l n) as [f1| | |] eqn:Ef; try discriminate.
    constructor; [|eapply IH; exact Hf]. split; [exact Hl|]. cbn [fst snd].
    unfold fpush in Ef. destruct (imax <? l_size l * n) eqn:El; [|lia].
    rewrite Bool.orb_true_r in Ef. discriminate. }
  assert (Hpush : Forall is_push (push_ops al)).
  { apply Forall_map. apply Forall_forall. intros; exact I. }
  assert (Hno : Forall no_overflow (push_ops al)).
  { apply Forall_map. apply Forall_forall. intros; exact I. }
  assert (Hns : ~ In OShrink (push_ops al)).
  { unfold push_ops. intros Hin. apply in_map_iff in Hin. destruct Hin as (x & Hx & _). discriminate. }
  split.
  - pose proof (run_seq_cap C HA _ _ _ _ Hw Hval Hno Hrun) as H1.
    destruct (push_peak _ _ _ _ C HA Hw Hval Hpush Hrun) as [H2 _].
    revert H1 H2. generalize (peak (s_pos (sw_s w)) (push_ops al)). intros; lia.
  - apply (no_shrink_moved C HA _ _ _ Hw Hval Hns (run_seq_ops _ _ _ _ Hrun)).
Qed.
