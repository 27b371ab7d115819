(** * PropIdem: copies of copies (C56). *)
From Verif Require Import Base Types Storage Serializer Serialize Spec ArithFacts StorageFacts StorageHist MemFacts TypeFacts
  SerFacts SerMain SerValue SerRoot SerProps Encode EncodeFacts Idem PropClient PropEncode.
From Coq Require Import ZifyBool ZifyNat ZifyN.
Local Open Scope N_scope.

(** The values [xs], now found in an output at address [B], at positions [rs]. *)
Definition found_at (B : N) (xs : list (ty * N * val)) (rs : list N) : list (ty * N * val) :=
  map (fun '((t, _, v), r) => (t, B + r, v)) (combine xs rs).

Lemma found_reread B : forall xs rs, found_at B xs rs = reread B xs rs.
Proof.
  unfold found_at. induction xs as [|[[t a] v] xs IH]; intros [|r rs]; cbn; try reflexivity. rewrite IH. reflexivity.
Qed.

Lemma blocks_end {P : Params} : cfg_ok -> forall ps cur st n,
  In (st, n) (blocks cur ps) -> st + n <= end_pos cur ps.
Proof.
  intros C. induction ps as [|[l k] ps IH]; intros cur st n Hin; [destruct Hin|].
  cbn [blocks end_pos] in *. destruct Hin as [Heq|Hin]; [|apply IH; exact Hin]. inversion Heq; subst.
  etransitivity; [apply (push_end_ge C)|apply (end_pos_ge C)].
Qed.

Section Facts.
Context {P : Params}.
Hypothesis C : cfg_ok.
Hypothesis HA : alloc_ok.
Variable E : tenv.
Hypothesis HE : wf_env E.

Lemma roots_end : forall (xs : list item) cur,
  Forall (fun '(t, a, v) => wf_ty E t) xs ->
  Forall2 (fun '(t, a, v) r => (size_of E t = 0 /\ r = 0) \/ r + size_of E t <= end_pos cur (all_allocations E (map it_tv xs)))
    xs (root_positions E cur (map it_tv xs)).
Proof.
  induction xs as [|[[t a] v] xs IH]; intros cur Hall; [constructor|].
  inversion Hall as [|? ? Hw Hxs]; subst. cbn beta iota in Hw.
  cbn [map it_tv fst snd root_positions all_allocations flat_map]. rewrite end_pos_app.
  pose proof (end_pos_ge C (end_pos cur (allocations E t v)) (all_allocations E (map it_tv xs))) as Hge.
  constructor.
  - unfold root_pos. destruct (N.eqb_spec (size_of E t) 0) as [Hs|Hs]; [left; auto|right].
    unfold all_allocations in Hge. etransitivity; [|exact Hge].
    unfold allocations. rewrite (proj2 (N.eqb_neq _ _) Hs). cbn [app end_pos].
    pose proof (end_pos_ge C (push_end cur (layout_of E t) 1) (owned E t v)).
    pose proof (push_end_ge C cur (layout_of E t) 1). unfold size_of. lia.
  - apply (IH (end_pos cur (allocations E t v)) Hxs).
Qed.

Lemma found_valid m xs w fuel rs z M :
  storage_ok w -> valid_inputs E m xs fuel ->
  serialize_all Complete E m fuel (inputs xs) (from_storage w) = Ok rs z ->
  (forall i, i < s_pos (sw_s (z_sw z)) -> M (s_ptr (sw_s (z_sw z)) + i) = s_buf (sw_s (z_sw z)) i) ->
  Forall2 (fun '(t, a, v) r => valid_input E shrunk M t (s_ptr (sw_s (z_sw z)) + r) v) xs rs.
Proof.
  intros Hok Hv Hs HM.
  assert (A : Forall (fun '(t, a, v) => input_ok E m any_header fuel t a v) xs).
  { apply Forall_forall. intros [[t a] v] Hin. destruct (Hv t a v Hin) as [(V1 & V2 & V3) Hd]. unfold input_ok. auto. }
  pose proof (serialize_all_spec C HA E HE Complete m any_header shrunk transfers_shrunk fuel xs w Hok A) as F.
  change (map it_in xs) with (inputs xs) in F. rewrite Hs in F.
  destruct F as (F1 & F2 & F3 & F4 & F5 & F6 & F7 & F8).
  assert (Hwf : Forall (fun '(t, a, v) => wf_ty E t) xs).
  { eapply Forall_impl; [|exact A]. intros [[t a] v] (_ & Hw & _). exact Hw. }
  pose proof (roots_end xs (s_pos (sw_s w)) Hwf) as R. rewrite <- F1, <- F2 in R.
  assert (Hb : s_ptr (sw_s (z_sw z)) <= umod /\ s_ptr (sw_s (z_sw z)) + s_pos (sw_s (z_sw z)) <= umod \/ s_pos (sw_s (z_sw z)) = 0 /\ s_ptr (sw_s (z_sw z)) = 1).
  { destruct F4 as (O1 & O2 & O3 & O4 & O5 & O6). destruct (N.eq_0_gt_0_cases (s_cap (sw_s (z_sw z)))) as [Hc|Hc].
    - right. split; [lia|auto].
    - left. destruct (O6 Hc) as (_ & _ & Hle). lia. }
  pose proof (c_umod C). pose proof (c_SA_pos C).
  clear - F8 R Hb HM H H0 Hwf C. revert R F8. revert Hwf. generalize rs. clear rs. induction xs as [|[[t a] v] xs IH]; intros [|r rs] Hwf R F8; try (inversion F8; fail); [constructor|].
  inversion R as [|? ? ? ? R1 R2]; subst. inversion F8 as [|? ? ? ? G1 G2]; subst. inversion Hwf as [|? ? W1 W2]; subst.
  constructor; [|apply IH; auto].
  cbn beta iota in *. split; [exact W1|]. split.
  - assert (Hone : 1 <= umod) by lia. lia.
  - destruct G1 as [G1 _]. specialize (G1 eq_refl). unfold out_base in G1.
    eapply repr_mono; [|exact G1]. apply out_mem_sub. exact HM.
Qed.

End Facts.

(** ** C56.  The output of the Complete serializer is as good an input as the original:
    serializing the values found in it (with Complete) gives, byte for byte, the output that
    serializing the original values would have given there.

    Run 1 serializes [xs], giving an output at [B1]; run 2 serializes what is found in
    that output; run 3 serializes [xs] again.  Runs 2 and 3 start at the same
    position as run 1, in any storages, and end with buffers at the same address. *)
Theorem C56_copy_of_copy {P : Params} : forall E m xs M w1 w2 w3 fuel1 fuel2 fuel3 rs1 rs2 rs3 z1 z2 z3,
  cfg_ok -> alloc_ok -> wf_env E -> storage_ok w1 -> storage_ok w2 -> storage_ok w3 ->
  s_pos (sw_s w2) = s_pos (sw_s w1) -> s_pos (sw_s w3) = s_pos (sw_s w1) ->
  valid_inputs E m xs fuel1 -> valid_inputs E m xs fuel2 -> valid_inputs E m xs fuel3 ->
  serialize_all Complete E m fuel1 (inputs xs) (from_storage w1) = Ok rs1 z1 ->
  let B1 := s_ptr (sw_s (z_sw z1)) in
  (forall i, i < s_pos (sw_s (z_sw z1)) -> M (B1 + i) = s_buf (sw_s (z_sw z1)) i) ->
  serialize_all Complete E M fuel2 (inputs (found_at B1 xs rs1)) (from_storage w2) = Ok rs2 z2 ->
  serialize_all Complete E m fuel3 (inputs xs) (from_storage w3) = Ok rs3 z3 ->
  rs2 = rs3 /\ s_pos (sw_s (z_sw z2)) = s_pos (sw_s (z_sw z3)) /\
  (s_ptr (sw_s (z_sw z2)) = s_ptr (sw_s (z_sw z3)) ->
   forall st n i, In (st, n) (blocks (s_pos (sw_s w1)) (all_allocations E (values xs))) ->
     st <= i -> i < st + n -> i < s_pos (sw_s (z_sw z3)) ->
     s_buf (sw_s (z_sw z2)) i = s_buf (sw_s (z_sw z3)) i).
Proof.
  intros E m xs M w1 w2 w3 fuel1 fuel2 fuel3 rs1 rs2 rs3 z1 z2 z3 C HA HE Hok1 Hok2 Hok3 Hp2 Hp3
    Hv1 Hv2 Hv3 Hs1 B1 HM Hs2 Hs3.
  pose proof (found_valid C HA E HE m xs w1 fuel1 rs1 z1 M Hok1 Hv1 Hs1 HM) as HF. fold B1 in HF.
  rewrite found_reread in Hs2.
  set (f := Nat.max fuel1 (Nat.max fuel2 fuel3)).
  assert (Hvf : valid_inputs E m xs f).
  { intros t a v Hin. destruct (Hv1 t a v Hin). split; [assumption|unfold f; lia]. }
  assert (A1 : Forall (fun '(t, a, v) => repr E any_header m t a v /\ (vdepth v < f)%nat) xs).
  { apply Forall_forall. intros [[t a] v] Hin. destruct (Hvf t a v Hin) as [(_ & _ & Hr) Hd]. auto. }
  assert (A2 : Forall (fun '(t, a, v) => (repr E any_header m t a v /\ wf_ty E t) /\ (vdepth v < f)%nat) xs).
  { apply Forall_forall. intros [[t a] v] Hin. destruct (Hvf t a v Hin) as [(V1 & V2 & V3) Hd]. auto. }
  assert (AI : forall fu, valid_inputs E m xs fu ->
    Forall (fun '(t, a, v) => input_ok E m any_header fu t a v /\ (vdepth v < f)%nat) xs).
  { intros fu Hfu. apply Forall_forall. intros [[t a] v] Hin. destruct (Hfu t a v Hin) as [(V1 & V2 & V3) Hd].
    destruct (Hvf t a v Hin) as [_ Hd']. unfold input_ok. auto. }
  destruct (encode_all_some E HE Complete m any_header f xs (s_pos (sw_s w1)) A1) as [e He].
  destruct (serialize_all_exact C HA E HE Complete m any_header fuel1 f xs w1 rs1 z1 e Hok1 (AI _ Hv1) He Hs1)
    as (R1 & R2 & R3 & R4).
  assert (He3 : encode_all Complete E m f (map it_in xs) (s_pos (sw_s w3)) = Some e) by (rewrite Hp3; exact He).
  destruct (serialize_all_exact C HA E HE Complete m any_header fuel3 f xs w3 rs3 z3 e Hok3 (AI _ Hv3) He3 Hs3)
    as (T1 & T2 & T3 & T4).
  rewrite Hp3 in T1.
  set (ys := reread B1 xs rs1) in *.
  assert (HY : map it_tv ys = map it_tv xs /\
               Forall (fun '(t, a, v) => input_ok E M any_header fuel2 t a v /\ (vdepth v < f)%nat) ys).
  { assert (Hd : Forall (fun '(t, a, v) => (vdepth v < fuel2)%nat) xs).
    { apply Forall_forall. intros [[t a] v] Hin. apply (Hv2 t a v Hin). }
    clear - HF Hd. unfold ys. clear ys. revert Hd. induction HF as [|[[t a] v] r xs rs HV HF IH]; intros Hd; cbn; [split; [reflexivity|constructor]|].
    inversion Hd as [|? ? D1 D2]; subst. cbn beta iota in D1, HV. destruct (IH D2) as [I1 I2]. split; [rewrite I1; reflexivity|].
    constructor; [|exact I2]. destruct HV as (V1 & V2 & V3). split; [|unfold f; lia].
    unfold input_ok. ands; auto. eapply repr_header; [|exact V3]. intros; exact I. }
  destruct HY as [HY1 HY2].
  assert (A1Y : Forall (fun '(t, a, v) => repr E any_header M t a v /\ (vdepth v < f)%nat) ys).
  { eapply Forall_impl; [|exact HY2]. intros [[t a] v] ((V1 & V2 & V3) & Hd). auto. }
  destruct (encode_all_some E HE Complete M any_header f ys (s_pos (sw_s w2)) A1Y) as [e' He'].
  destruct (serialize_all_exact C HA E HE Complete M any_header fuel2 f ys w2 rs2 z2 e' Hok2 HY2 He' Hs2)
    as (S1 & S2 & S3 & S4).
  rewrite HY1, Hp2 in S1.
  assert (Hpos : s_pos (sw_s (z_sw z2)) = s_pos (sw_s (z_sw z3))).
  { assert (A2Y : Forall (fun '(t, a, v) => (repr E any_header M t a v /\ wf_ty E t) /\ (vdepth v < f)%nat) ys).
    { eapply Forall_impl; [|exact HY2]. intros [[t a] v] ((V1 & V2 & V3) & Hd). auto. }
    destruct (all_covers C E HE Complete M any_header f ys _ e' A2Y He') as [K1 _].
    destruct (all_covers C E HE Complete m any_header f xs _ e A2 He) as [K2 _].
    rewrite S2, T2, K1, K2, HY1, Hp2. reflexivity. }
  ands; [congruence|exact Hpos|].
  intros Hptr st n i Hin Hlo Hhi Hi.
  assert (Hpos1 : s_pos (sw_s (z_sw z1)) = s_pos (sw_s (z_sw z3))) by congruence.
  pose proof (ok_pos_le _ R3). pose proof (ok_pos_le _ S3). pose proof (ok_pos_le _ T3).
  specialize (R4 ltac:(lia)). specialize (S4 ltac:(lia)). specialize (T4 ltac:(lia)).
  unfold out_base in *. fold B1 in R4. set (B2 := s_ptr (sw_s (z_sw z2))) in *. rewrite <- Hptr in T4.
  destruct (all_covers C E HE Complete m any_header f xs _ e A2 He) as [K1 K2].
  assert (A3 : Forall (fun '(t, a, v) => repr E any_header m t a v /\ wf_ty E t) xs).
  { eapply Forall_impl; [|exact A2]. intros [[t a] v] [X _]. exact X. }
  pose proof (encode_all_inside Complete E m HE f xs _ e A3 He) as Hins.
  assert (Hcp : forall st tp n, In (st, tp, n) (e_copies e) -> st + n <= s_pos (sw_s (z_sw z1))).
  { intros st' tp n' Hc. rewrite R2, K1. apply (blocks_end C). rewrite <- K2.
    apply in_map_iff. exists (st', tp, n'). split; [reflexivity|exact Hc]. }
  destruct R3 as (_ & _ & R3c & _ & _ & R3p). destruct (R3p ltac:(lia)) as (_ & _ & Hum1). fold B1 in Hum1.
  assert (Hpw : 0 < pW). { pose proof (pW_vals (c_machine C)). lia. }
  assert (Hlink : linked M B1 e).
  { intros q t Hq. destruct (Hins q (PPtr t) Hq) as [[A|(st' & tp & n' & A & A' & A'')] B]; [lia|].
    destruct (B t eq_refl) as (tp2 & n2 & D & D'). pose proof (Hcp _ _ _ A). pose proof (Hcp _ _ _ D).
    apply read_word_src; [lia|]. intros j Hj.
    pose proof (proj1 R4 q (PPtr t) Hq j Hj) as X. cbn [patch_src] in X. rewrite <- X.
    rewrite <- N.add_assoc, HM by lia. unfold at_base. f_equal. lia. }
  (* run 2 was given the blocks of run 1, with the pointers to fix *)
  assert (Hre : e' = rebase B1 e).
  { assert (X : encode_all Complete E M f (map it_in ys) (s_pos (sw_s w1)) = Some (rebase B1 e)).
    { unfold ys. rewrite R1. apply (encode_all_rebase E m M B1 HE C); auto. rewrite <- R1.
      clear - HF. induction HF as [|[[t a] v] r xs rs HV HF IH]; constructor; auto. apply HV. }
    rewrite Hp2, X in He'. inversion He'. reflexivity. }
  subst e'.
  assert (Hb2 : forall j, s_buf (sw_s (z_sw z2)) j = at_base B2 (z_sw z2) (B2 + j)) by (intros j; unfold at_base; f_equal; lia).
  assert (Hb3 : forall j, s_buf (sw_s (z_sw z3)) j = at_base B2 (z_sw z3) (B2 + j)) by (intros j; unfold at_base; f_equal; lia).
  assert (Hb1 : forall j, s_buf (sw_s (z_sw z1)) j = at_base B1 (z_sw z1) (B1 + j)) by (intros j; unfold at_base; f_equal; lia).
  rewrite Hb2, Hb3.
  unfold values in Hin. rewrite (values_tv xs : map _ xs = map it_tv xs) in Hin. rewrite <- K2 in Hin. apply in_map_iff in Hin.
  destruct Hin as ([[st' tp] n'] & Heq & Hin). inversion Heq; subst st' n'; clear Heq.
  destruct (find (fun x => patch_at i x && is_ptr x) (e_patches e)) as [[q w]|] eqn:Ef.
  - (* a pointer *)
    apply find_some in Ef. destruct Ef as [Hq Hc]. apply andb_true_iff in Hc. destruct Hc as [Hc1 Hc2].
    unfold patch_at in Hc1; cbn [fst] in Hc1.
    replace i with (q + (i - q)) by lia.
    rewrite (proj1 T4 q w Hq (i - q) ltac:(lia)).
    rewrite (proj1 S4 q w); [reflexivity| |lia].
    cbn [rebase e_patches]. apply filter_In. split; [exact Hq|exact Hc2].
  - (* not part of a pointer: copied from the first output *)
    assert (HS : at_base B2 (z_sw z2) (B2 + i) = s_buf (sw_s (z_sw z1)) i).
    { rewrite (proj2 (proj2 S4) st (B1 + st) n).
      - rewrite <- HM by lia. f_equal. lia.
      - cbn [rebase e_copies]. apply in_map_iff. exists (st, tp, n). split; [reflexivity|exact Hin].
      - unfold seg. lia.
      - intros q w Hq Hc. cbn [rebase e_patches] in Hq. apply filter_In in Hq. destruct Hq as [Hq Hp].
        pose proof (find_none _ _ Ef (q, w) Hq) as X. unfold patch_at in X. cbn [fst] in X. lia. }
    rewrite HS, Hb1.
    destruct (find (patch_at i) (e_patches e)) as [[q w]|] eqn:Eg.
    + (* a word both runs wrote *)
      pose proof (find_some _ _ Eg) as [Hq Hc]. unfold patch_at in Hc; cbn [fst] in Hc.
      assert (Hw : is_ptr (q, w) = false).
      { pose proof (find_none _ _ Ef (q, w) Hq) as X. unfold patch_at in X. cbn [fst] in X.
        destruct (is_ptr (q, w)); [lia|reflexivity]. }
      replace i with (q + (i - q)) by lia.
      rewrite (proj1 T4 q w Hq (i - q) ltac:(lia)), (proj1 R4 q w Hq (i - q) ltac:(lia)).
      destruct w; [discriminate|reflexivity].
    + assert (Hu : unpatched e i).
      { intros q w Hq Hc. pose proof (find_none _ _ Eg (q, w) Hq) as X. unfold patch_at in X. cbn [fst] in X. lia. }
      rewrite (proj2 (proj2 R4) st tp n Hin i ltac:(unfold seg; lia) Hu).
      rewrite (proj2 (proj2 T4) st tp n Hin i ltac:(unfold seg; lia) Hu). reflexivity.
Qed.

(** In particular, if the second copy ends up at the address of the first (say, after
    the first has been moved to a file and its memory freed), it is the same. *)
Theorem C56_idempotent {P : Params} : forall E m xs M w1 w2 fuel rs1 rs2 z1 z2,
  cfg_ok -> alloc_ok -> wf_env E -> storage_ok w1 -> storage_ok w2 ->
  s_pos (sw_s w2) = s_pos (sw_s w1) -> valid_inputs E m xs fuel ->
  serialize_all Complete E m fuel (inputs xs) (from_storage w1) = Ok rs1 z1 ->
  let B1 := s_ptr (sw_s (z_sw z1)) in
  (forall i, i < s_pos (sw_s (z_sw z1)) -> M (B1 + i) = s_buf (sw_s (z_sw z1)) i) ->
  serialize_all Complete E M fuel (inputs (found_at B1 xs rs1)) (from_storage w2) = Ok rs2 z2 ->
  rs2 = rs1 /\ s_pos (sw_s (z_sw z2)) = s_pos (sw_s (z_sw z1)) /\
  (s_ptr (sw_s (z_sw z2)) = B1 ->
   forall st n i, In (st, n) (blocks (s_pos (sw_s w1)) (all_allocations E (values xs))) ->
     st <= i -> i < st + n -> i < s_pos (sw_s (z_sw z1)) ->
     s_buf (sw_s (z_sw z2)) i = s_buf (sw_s (z_sw z1)) i).
Proof.
  intros E m xs M w1 w2 fuel rs1 rs2 z1 z2 C HA HE Hok1 Hok2 Hp Hv Hs1 B1 HM Hs2.
  apply (C56_copy_of_copy E m xs M w1 w2 w1 fuel fuel fuel rs1 rs2 rs1 z1 z2 z1); auto.
Qed.

(** Serializing the copy never fails for another reason than room: it is a valid input. *)
Theorem C56_valid_again {P : Params} : forall E m xs M w fuel rs z,
  cfg_ok -> alloc_ok -> wf_env E -> storage_ok w -> valid_inputs E m xs fuel ->
  serialize_all Complete E m fuel (inputs xs) (from_storage w) = Ok rs z ->
  (forall i, i < s_pos (sw_s (z_sw z)) -> M (s_ptr (sw_s (z_sw z)) + i) = s_buf (sw_s (z_sw z)) i) ->
  length rs = length xs /\ valid_inputs E M (found_at (s_ptr (sw_s (z_sw z))) xs rs) fuel.
Proof.
  intros E m xs M w fuel rs z C HA HE Hok Hv Hs HM.
  pose proof (found_valid C HA E HE m xs w fuel rs z M Hok Hv Hs HM) as HF.
  rewrite found_reread.
  assert (Hd : Forall (fun '(t, a, v) => (vdepth v < fuel)%nat) xs).
  { apply Forall_forall. intros [[t a] v] Hin. apply (Hv t a v Hin). }
  clear - HF Hd. revert Hd. induction HF as [|[[t a] v] r xs rs HV HF IH]; intros Hd.
  - split; [reflexivity|]. intros t a v [].
  - inversion Hd as [|? ? D1 D2]; subst. destruct (IH D2) as [I1 I2]. split; [cbn; lia|].
    intros t' a' v' [Heq|Hin]; [|apply I2; exact Hin]. inversion Heq; subst.
    split; [|exact D1]. destruct HV as (V1 & V2 & V3). split; [exact V1|]. split; [exact V2|].
    eapply repr_header; [|exact V3]. intros; exact I.
Qed.

(** A concrete case: the demo values serialized into a growing storage, giving a buffer at
    address 196608; what is found there serialized into a storage that starts large
    enough, at 65536; and the same storage given the original values. *)
From Verif Require Import StorageProps PropStorage PropSerialize Demo WitnessSerialize.
Definition big_w : sw := match @with_capacity demo 960 sw_new with Ok _ w => w | _ => sw_new end.
Lemma big_w_ok : @storage_ok demo big_w.
Proof.
  assert (H : @with_capacity demo 960 sw_new = Ok tt big_w) by (vm_compute; reflexivity).
  apply (start_ok demo_cfg demo_alloc_ok 960 big_w); [apply ltc; vm_compute; reflexivity|exact H].
Qed.
Example C56_hypotheses :
  @cfg_ok demo /\ @alloc_ok demo /\ @wf_env demo no_env /\ @storage_ok demo demo_w /\ @storage_ok demo big_w /\
  s_pos (sw_s big_w) = s_pos (sw_s demo_w) /\ @valid_inputs demo no_env demo_mem PropEncode.demo_items 10.
Proof.
  ands; try reflexivity; [exact demo_cfg|exact demo_alloc_ok|exact no_env_wf|exact demo_w_ok|exact big_w_ok|exact C54_hypotheses].
Qed.
(** The memory after run 1: the output only (the input may be gone). *)
Definition only_output (z : zs) : mem := fun a =>
  if (s_ptr (sw_s (z_sw z)) <=? a) && (a <? s_ptr (sw_s (z_sw z)) + s_pos (sw_s (z_sw z)))
  then s_buf (sw_s (z_sw z)) (a - s_ptr (sw_s (z_sw z))) else None.
Example C56_witness :
  match @serialize_all demo Complete no_env demo_mem 10 (inputs PropEncode.demo_items) (from_storage demo_w),
        @serialize_all demo Complete no_env demo_mem 10 (inputs PropEncode.demo_items) (from_storage big_w) with
  | Ok rs1 z1, Ok rs3 z3 =>
      match @serialize_all demo Complete no_env (only_output z1) 10
              (inputs (found_at (s_ptr (sw_s (z_sw z1))) PropEncode.demo_items rs1)) (from_storage big_w) with
      | Ok rs2 z2 =>
          (s_ptr (sw_s (z_sw z1)), s_ptr (sw_s (z_sw z2)), s_ptr (sw_s (z_sw z3))) = (196608, 65536, 65536) /\
          rs1 = [0; 112; 120] /\ rs2 = rs1 /\ rs3 = rs1 /\ s_pos (sw_s (z_sw z2)) = 136 /\
          map (s_buf (sw_s (z_sw z2))) (map N.of_nat (seq 0 136)) = map (s_buf (sw_s (z_sw z3))) (map N.of_nat (seq 0 136)) /\
          map (s_buf (sw_s (z_sw z2))) [8;9;10] = [Some 88; Some 0; Some 1] /\
          map (s_buf (sw_s (z_sw z1))) [8;9;10] = [Some 88; Some 0; Some 3]
      | _ => False
      end
  | _, _ => False
  end.
Proof. vm_compute. repeat split. Qed.
