(** * PropGenSer: property C66 (the serializers, over any storage). *)
From Verif Require Import Base Types Storage Serializer Serialize Spec ArithFacts StorageFacts StorageHist
  MemFacts TypeFacts SerFacts SerMain SerValue SerRoot SerProps PropStorage Demo WitnessSerialize PropEncode
  GenStorage GenSpec GenFacts PropGen GenSerializer GenSerSpec GenSerAV GenSerFacts GenSerRoot.
From Coq Require Import ZifyBool ZifyNat ZifyN.
Local Open Scope N_scope.

(** What is found in the storage [s], where the value [v] of type [t] was serialized to
    position [p]: read where the pointers say (ptr_offset: from 0; complete: from
    as_ptr()), and decoded by the layout rule (no pointers needed). *)
Definition g_found {P : Params} {St} (R : ra_impl St) (contents : St -> mem) (k : kind) (E : tenv)
    (H : header) (s : St) (t : ty) (v : val) (p : N) : Prop :=
  (forall f, (vdepth v < f)%nat -> decode_root E (g_out_mem (r_st R) contents 0 s) f t p = Some v) /\
  match k with
  | PureCopy | PosTracking => True
  | PtrOffset => repr E H (g_out_mem (r_st R) contents 0 s) t p v
  | Complete =>
      let base := r_as_ptr R s in repr E H (g_out_mem (r_st R) contents base s) t (base + p) v
  end.

Lemma valid_inputs_ok {P : Params} E H m f (xs : list (ty * N * val)) :
  (forall t a v, In (t, a, v) xs -> valid_input E H m t a v /\ (vdepth v < f)%nat) ->
  Forall (fun '(t, a, v) => input_ok E m H f t a v) xs.
Proof.
  intros HV. apply Forall_forall. intros [[t a] v] Hin. destruct (HV t a v Hin) as ((V1 & V2 & V3) & Hf).
  unfold input_ok. auto.
Qed.

Lemma g_root_final_found {P : Params} {St} (R : ra_impl St) contents k E H s t v p :
  g_root_final R contents E k H s t v p -> g_found R contents k E H s t v p.
Proof.
  intros [A B]. unfold g_found. split; [exact B|]. destruct k; cbn in A; auto; apply A; reflexivity.
Qed.

Lemma any_serialize_gen {P : Params} {St} (R : ra_impl St) inv contents empties :
  cfg_ok -> keeps_contract (r_st R) inv contents empties -> reserve_keeps_pos (r_st R) inv ->
  forall k E m Hin Hout, storage_for k R inv contents -> wf_env E -> transfers k Hin Hout ->
  forall fuel xs s, ready (r_st R) inv s ->
  (forall t a v, In (t, a, v) xs -> valid_input E Hin m t a v /\ (vdepth v < fuel)%nat) ->
  match g_serialize_all R k E m fuel (inputs xs) (g_from_storage s) with
  | Ok rs z =>
      rs = root_positions E (i_pos (r_st R) s) (values xs) /\
      i_pos (r_st R) (gz_st z) = end_pos (i_pos (r_st R) s) (all_allocations E (values xs)) /\
      ready (r_st R) inv (gz_st z) /\
      same_below (i_pos (r_st R) s) (contents (gz_st z)) (contents s) /\
      Forall2 (fun '(t, _, v) p => g_found R contents k E Hout (gz_st z) t v p) xs rs
  | Panic e z =>
      refused_within (r_st R) inv (i_pos (r_st R) s) (end_pos (i_pos (r_st R) s) (all_allocations E (values xs))) e /\
      ready (r_st R) inv (gz_st z) /\
      i_pos (r_st R) s <= i_pos (r_st R) (gz_st z) /\
      same_below (i_pos (r_st R) s) (contents (gz_st z)) (contents s)
  | Abort => True
  | UB | OutOfFuel => False
  end.
Proof.
  intros C K KP k E m Hin Hout HS HE T fuel xs s Hr HV.
  pose proof (g_serialize_all_spec R C inv contents empties K KP E HE k m Hin Hout T HS fuel xs s (fun x : False => x) Hr
    (valid_inputs_ok E Hin m fuel xs HV)) as HH.
  rewrite inputs_in, values_tv.
  destruct (g_serialize_all R k E m fuel (map it_in xs) (g_from_storage s)) as [rs z|e z| | |]; auto.
  destruct HH as (Q1 & Q2 & Q3 & Q4 & Q5). ands; auto.
  clear - Q5. induction Q5 as [|[[t a] v] p xs rs Hx _ IH]; constructor; auto.
  apply g_root_final_found. exact Hx.
Qed.

(** ** C66 *)

(** A serializer of any kind over any storage that keeps to its contract: every value is
    found again, at the position the layout rules give, on top of what was stored before;
    the only panic is one of the storage's reserve; no undefined behaviour. *)
Theorem any_storage_serialize_all {P : Params} {St} (R : ra_impl St) inv contents empties :
  cfg_ok -> keeps_contract (r_st R) inv contents empties -> reserve_keeps_pos (r_st R) inv ->
  forall k E m, storage_for k R inv contents -> wf_env E ->
  forall fuel xs s, ready (r_st R) inv s -> valid_inputs E m xs fuel ->
  match g_serialize_all R k E m fuel (inputs xs) (g_from_storage s) with
  | Ok rs z =>
      rs = root_positions E (i_pos (r_st R) s) (values xs) /\
      i_pos (r_st R) (gz_st z) = end_pos (i_pos (r_st R) s) (all_allocations E (values xs)) /\
      ready (r_st R) inv (gz_st z) /\
      same_below (i_pos (r_st R) s) (contents (gz_st z)) (contents s) /\
      Forall2 (fun '(t, _, v) p => g_found R contents k E forward (gz_st z) t v p) xs rs
  | Panic e z =>
      refused_within (r_st R) inv (i_pos (r_st R) s) (end_pos (i_pos (r_st R) s) (all_allocations E (values xs))) e /\
      ready (r_st R) inv (gz_st z) /\
      i_pos (r_st R) s <= i_pos (r_st R) (gz_st z) /\
      same_below (i_pos (r_st R) s) (contents (gz_st z)) (contents s)
  | Abort => True
  | UB | OutOfFuel => False
  end.
Proof.
  intros C K KP k E m HS HE fuel xs s Hr HV.
  apply (any_serialize_gen R inv contents empties C K KP k E m any_header forward HS HE (transfers_forward k)); auto.
Qed.

(** With complete, the Vecs and Strings in the output are shrunk to fit. *)
Theorem any_storage_complete_tight {P : Params} {St} (R : ra_impl St) inv contents empties :
  cfg_ok -> keeps_contract (r_st R) inv contents empties -> reserve_keeps_pos (r_st R) inv ->
  forall E m, storage_for Complete R inv contents -> wf_env E ->
  forall fuel xs s rs z, ready (r_st R) inv s ->
  (forall t a v, In (t, a, v) xs -> valid_input E canonical m t a v /\ (vdepth v < fuel)%nat) ->
  g_serialize_all R Complete E m fuel (inputs xs) (g_from_storage s) = Ok rs z ->
  let base := r_as_ptr R (gz_st z) in
  Forall2 (fun '(t, _, v) p => repr E tight (g_out_mem (r_st R) contents base (gz_st z)) t (base + p) v) xs rs.
Proof.
  intros C K KP E m HS HE fuel xs s rs z Hr HV EQ.
  pose proof (any_serialize_gen R inv contents empties C K KP Complete E m canonical tight HS HE transfers_tight fuel xs s Hr HV) as HH.
  rewrite EQ in HH. destruct HH as (_ & _ & _ & _ & HH). cbv zeta. clear - HH.
  induction HH as [|[[t a] v] p xs rs [_ Hx] _ IH]; constructor; auto.
Qed.

(** serialize(&value): one value. *)
Theorem any_storage_serialize {P : Params} {St} (R : ra_impl St) inv contents empties :
  cfg_ok -> keeps_contract (r_st R) inv contents empties -> reserve_keeps_pos (r_st R) inv ->
  forall k E m, storage_for k R inv contents -> wf_env E ->
  forall fuel t a v s, ready (r_st R) inv s ->
  valid_input E any_header m t a v -> (vdepth v < fuel)%nat ->
  match g_serialize R k E m fuel t a (g_from_storage s) with
  | Ok p z =>
      p = root_pos E (i_pos (r_st R) s) t /\
      i_pos (r_st R) (gz_st z) = end_pos (i_pos (r_st R) s) (allocations E t v) /\
      ready (r_st R) inv (gz_st z) /\
      same_below (i_pos (r_st R) s) (contents (gz_st z)) (contents s) /\
      g_found R contents k E forward (gz_st z) t v p
  | Panic e z =>
      refused_within (r_st R) inv (i_pos (r_st R) s) (end_pos (i_pos (r_st R) s) (allocations E t v)) e /\
      ready (r_st R) inv (gz_st z) /\
      i_pos (r_st R) s <= i_pos (r_st R) (gz_st z) /\
      same_below (i_pos (r_st R) s) (contents (gz_st z)) (contents s)
  | Abort => True
  | UB | OutOfFuel => False
  end.
Proof.
  intros C K KP k E m HS HE fuel t a v s Hr HV Hf.
  assert (HVs : valid_inputs E m [(t, a, v)] fuel).
  { intros t' a' v' [EQ|[]]. inversion EQ; subst. auto. }
  pose proof (any_storage_serialize_all R inv contents empties C K KP k E m HS HE fuel [(t, a, v)] s Hr HVs) as HH.
  cbn [inputs map fst values root_positions all_allocations flat_map] in HH. rewrite app_nil_r in HH.
  unfold g_serialize_all in HH. cbn [g_serialize_values] in HH. unfold g_serialize.
  unfold bind, ret in *.
  destruct (g_serialize_value R k E m fuel t a (g_from_storage s)) as [p z|e z| | |]; auto.
  destruct (g_finalize R k z) as [[] z'|e z'| | |]; auto.
  destruct HH as (Q1 & Q2 & Q3 & Q4 & Q5). inversion Q1; subst. inversion Q5; subst.
  ands; auto.
Qed.

(** Two storages with the same const parameters, whatever they are made of, get the same
    values at the same positions, and end at the same position. *)
Theorem any_two_storages_serialize_alike {P : Params} {St1 St2}
    (R1 : ra_impl St1) inv1 contents1 e1 (R2 : ra_impl St2) inv2 contents2 e2 :
  cfg_ok ->
  keeps_contract (r_st R1) inv1 contents1 e1 -> reserve_keeps_pos (r_st R1) inv1 ->
  keeps_contract (r_st R2) inv2 contents2 e2 -> reserve_keeps_pos (r_st R2) inv2 ->
  forall k1 k2 E m1 m2 f1 f2 xs1 xs2 s1 s2 rs1 rs2 z1 z2,
  storage_for k1 R1 inv1 contents1 -> storage_for k2 R2 inv2 contents2 -> wf_env E ->
  ready (r_st R1) inv1 s1 -> ready (r_st R2) inv2 s2 ->
  i_pos (r_st R1) s1 = i_pos (r_st R2) s2 ->
  valid_inputs E m1 xs1 f1 -> valid_inputs E m2 xs2 f2 -> values xs1 = values xs2 ->
  g_serialize_all R1 k1 E m1 f1 (inputs xs1) (g_from_storage s1) = Ok rs1 z1 ->
  g_serialize_all R2 k2 E m2 f2 (inputs xs2) (g_from_storage s2) = Ok rs2 z2 ->
  rs1 = rs2 /\ i_pos (r_st R1) (gz_st z1) = i_pos (r_st R2) (gz_st z2).
Proof.
  intros C K1 KP1 K2 KP2 k1 k2 E m1 m2 f1 f2 xs1 xs2 s1 s2 rs1 rs2 z1 z2 S1 S2 HE Q1 Q2 Hp V1 V2 Hv E1 E2.
  pose proof (any_storage_serialize_all R1 inv1 contents1 e1 C K1 KP1 k1 E m1 S1 HE f1 xs1 s1 Q1 V1) as A.
  pose proof (any_storage_serialize_all R2 inv2 contents2 e2 C K2 KP2 k2 E m2 S2 HE f2 xs2 s2 Q2 V2) as B.
  rewrite E1 in A. rewrite E2 in B.
  destruct A as (A1 & A2 & _). destruct B as (B1 & B2 & _).
  rewrite A1, A2, B1, B2, Hv, Hp. auto.
Qed.

(** AlignedVec is a storage for every kind of serializer, and over it these serializers
    are those the other properties are about. *)
Theorem aligned_vec_serializers {P : Params} : cfg_ok -> alloc_ok ->
  keeps_contract (r_st aligned_vec_ra) av_inv av_contents false /\
  reserve_keeps_pos (r_st aligned_vec_ra) av_inv /\
  (forall k, storage_for k aligned_vec_ra av_inv av_contents) /\
  (forall k E m fuel vs w,
     on_state to_zs (g_serialize_all aligned_vec_ra k E m fuel vs (g_from_storage w)) =
     serialize_all k E m fuel vs (from_storage w)) /\
  (forall k E m fuel t a w,
     on_state to_zs (g_serialize aligned_vec_ra k E m fuel t a (g_from_storage w)) =
     serialize k E m fuel t a (from_storage w)).
Proof.
  intros C HA. split; [apply (av_keeps_contract C HA)|]. split; [apply (av_reserve_keeps_pos C HA)|].
  split; [apply (av_storage_for C)|].
  split; intros; [apply (sim_serialize_all k E m fuel vs)|apply (sim_serialize k E m fuel t a)].
Qed.

(** ** Another storage: a block of fixed size, which is moved from [a1] to [a2] when the
    position reaches [thr].  Outside the documented contract: UB. *)
Section FixedRA.
Context {P : Params}.
Variables size skip thr a1 a2 : N.

Definition fixed_ra : ra_impl fixed := {|
  r_st := fixed_buf size skip;
  r_write_slice := fun q l n data s =>
    if l_size l =? 0 then Ok tt s
    else if (q mod l_align l =? 0) && (q + l_size l * n <=? size)
    then Ok tt (mkFixed (fx_pos s) (blit (fx_buf s) q (l_size l * n) data)) else UB;
  r_as_ptr := fun s => if fx_pos s <? thr then a1 else a2;
  r_correct_ptr := fun shift q s =>
    if (q mod pW =? 0) && (q + pW <=? size) then
      match read_word (fx_buf s) q with
      | Some x => Ok tt (mkFixed (fx_pos s) (blit (fx_buf s) q pW (word_src (wrapping_add x shift))))
      | None => UB
      end
    else UB
|}.

Lemma fixed_ra_for :
  cfg_ok -> a1 <> 0 -> a2 <> 0 -> (SA | a1) -> (SA | a2) -> a1 + size <= umod -> a2 + size <= umod ->
  forall k, storage_for k fixed_ra (fixed_inv size) fx_buf.
Proof.
  intros C N1 N2 D1 D2 L1 L2.
  assert (W : writes_in_place fixed_ra (fixed_inv size) fx_buf).
  { intros s q l n data Hi Hg Hs Hn Hd Hfit. cbn in *. unfold fixed_inv in Hi.
    rewrite (proj2 (N.eqb_neq (l_size l) 0)) by lia.
    rewrite (proj2 (mod_eqb_divide (l_align l) q ltac:(pose proof (pow2_pos _ (proj1 Hg)); lia)) Hd).
    rewrite (proj2 (N.leb_le _ size)) by lia. cbn. eexists. split; [reflexivity|].
    cbn. ands; auto. apply same_below_refl. }
  assert (T : contiguous fixed_ra (fixed_inv size)).
  { intros s Hi Hc. cbn in *. destruct (fx_pos s <? thr); auto. }
  assert (T' : ptrs_through fixed_ra (fixed_inv size) fx_buf).
  { intros s q x sh Hi Hm Hq Hfit Hx. cbn in *. unfold fixed_inv in Hi.
    rewrite (proj2 (mod_eqb_divide pW q ltac:(pose proof (pW_vals (c_machine C)); lia)) Hq).
    rewrite (proj2 (N.leb_le _ size)) by lia. cbn. rewrite Hx. eexists. split; [reflexivity|].
    cbn. ands; auto. apply same_below_refl. }
  destruct k; cbn; auto.
Qed.
End FixedRA.

(** C66, hypotheses met by a storage other than AlignedVec, and what comes out: the
    pointers of a complete output written before the block moved are right after it. *)
Definition gs_inputs : list (ty * N * val) := [(t_demo, 4096, demo_val); (t_demo, 4096, demo_val)].
Definition gs_storage : ra_impl fixed := @fixed_ra demo 4096 0 150 65536 1048576.

Theorem any_storage_serialize_witness :
  @keeps_contract demo _ (r_st gs_storage) (fixed_inv 4096) fx_buf true /\
  @reserve_keeps_pos demo _ (r_st gs_storage) (fixed_inv 4096) /\
  (forall k, @storage_for demo _ k gs_storage (fixed_inv 4096) fx_buf) /\
  @ready demo _ (r_st gs_storage) (fixed_inv 4096) (mkFixed 8 no_mem) /\
  @valid_inputs demo no_env demo_mem gs_inputs 10 /\
  r_as_ptr gs_storage (mkFixed 8 no_mem) = 65536 /\
  (match @g_serialize_all demo _ gs_storage Complete no_env demo_mem 10 (inputs gs_inputs) (g_from_storage (mkFixed 8 no_mem)) with
   | Ok rs z => rs = [8; 120] /\ fx_pos (gz_st z) = 232 /\ r_as_ptr gs_storage (gz_st z) = 1048576 /\
       @read_word demo (fx_buf (gz_st z)) 16 = Some (1048576 + 96)
   | _ => False end) /\
  (match @g_serialize_all demo _ gs_storage PtrOffset no_env demo_mem 10 (inputs gs_inputs) (g_from_storage (mkFixed 8 no_mem)) with
   | Ok rs z => rs = [8; 120] /\ @read_word demo (fx_buf (gz_st z)) 16 = Some 96
   | _ => False end).
Proof.
  assert (C := demo_cfg).
  split; [|split; [|split; [|split; [|split; [|split; [|split]]]]]].
  - apply (@fixed_keeps_contract demo 4096 0 C); [dv|vm_compute; discriminate|apply N.divide_0_r].
  - apply (@fixed_reserve_keeps_pos demo 4096 0 eq_refl).
  - apply (@fixed_ra_for demo 4096 0 150 65536 1048576 C); try discriminate; try dv; vm_compute; discriminate.
  - split; [vm_compute; discriminate|dv].
  - intros t a v [H|[H|[]]]; inversion H; subst; (split; [exact demo_valid|cbn; lia]).
  - reflexivity.
  - vm_compute. repeat split; reflexivity.
  - vm_compute. repeat split; reflexivity.
Qed.

(** C66, reserve must leave the position alone where the reader has no pointers: over a
    storage that keeps to the contract of Storage but whose reserve moves the position on
    ("reserve is allowed to alter pos", storage/mod.rs:277), the value is not where the
    layout rules look for it. *)
Theorem moving_reserve_loses_value :
  @keeps_contract demo _ (r_st (@fixed_ra demo 4096 16 0 65536 65536)) (fixed_inv 4096) fx_buf true /\
  @valid_input demo no_env any_header demo_mem t_demo 4096 demo_val /\
  (match @g_serialize demo _ (@fixed_ra demo 4096 16 0 65536 65536) PureCopy no_env demo_mem 10 t_demo 4096
           (g_from_storage (mkFixed 0 no_mem)) with
   | Ok p z =>
       @decode_root demo no_env (g_out_mem (r_st (@fixed_ra demo 4096 16 0 65536 65536)) fx_buf 0 (gz_st z)) 10 t_demo p
         <> Some demo_val
   | _ => False end).
Proof.
  split; [|split].
  - apply (@fixed_keeps_contract demo 4096 16 demo_cfg); [dv|vm_compute; discriminate|dv].
  - exact demo_valid.
  - vm_compute. discriminate.
Qed.
