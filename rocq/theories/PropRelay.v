(** * PropRelay: C75 — one thread's output is the next thread's input. *)
From Verif Require Import Base Types Storage StorageFacts StorageHist StorageProps Spec Serializer Serialize SerFacts SerValue SerMain SerRoot SerProps
  PropEncode PropIdem PropTree Prog ProgSer Alone AloneSer Confined Machine MachineFacts Jobs MachineRun PropMachine PropStorage Demo WitnessSerialize.
From Coq Require Import Arith ZifyBool ZifyNat ZifyN.
Local Open Scope N_scope.

Section Mono.
Context {P : Params}.
Variable E : tenv.
Variables m m' : mem.
Hypothesis Hs : sub_mem m m'.

Lemma word_mono a x : read_word m a = Some x -> read_word m' a = Some x.
Proof. apply read_int_mono. exact Hs. Qed.
Lemma cat2_inv (x y : option (list (N * N))) ps : cat2 x y = Some ps -> exists p q, x = Some p /\ y = Some q /\ ps = p ++ q.
Proof. destruct x as [p|]; [|discriminate]. destruct y as [q|]; [|discriminate]. cbn. intros [= <-]. eauto. Qed.

Lemma places_mono f : forall t a ps, places E m f t a = Some ps -> places E m' f t a = Some ps.
Proof.
  induction f as [|f IH]; intros t a ps H; cbn [places] in *; [discriminate|].
  assert (Hel : forall t' n x qs, places_elems (places E m f t') (size_of E t') n x = Some qs -> places_elems (places E m' f t') (size_of E t') n x = Some qs).
  { intros t' n. induction n as [|n IHn]; intros x qs Hq; cbn [places_elems] in *; [exact Hq|].
    apply cat2_inv in Hq. destruct Hq as (p & q & Q1 & Q2 & ->). rewrite (IH _ _ _ Q1), (IHn _ _ Q2). reflexivity. }
  assert (Hfl : forall fs x qs, places_fields (places E m f) fs x = Some qs -> places_fields (places E m' f) fs x = Some qs).
  { induction fs as [|[o t'] fs IHn]; intros x qs Hq; cbn [places_fields] in *; [exact Hq|].
    apply cat2_inv in Hq. destruct Hq as (p & q & Q1 & Q2 & ->). rewrite (IH _ _ _ Q1), (IHn _ _ Q2). reflexivity. }
  destruct (resolve E t).
  - exact H.
  - destruct (_ =? 0); [exact H|]. destruct (read_word m a) as [p|] eqn:Er; [|discriminate]. rewrite (word_mono _ _ Er).
    apply cat2_inv in H. destruct H as (p' & q & Q1 & Q2 & ->). injection Q1 as <-. rewrite (IH _ _ _ Q2). reflexivity.
  - destruct (read_word m (a + ptr_off vl)) as [p|] eqn:E1; [|discriminate].
    destruct (read_word m (a + len_off vl)) as [n|] eqn:E2; [|discriminate]. rewrite (word_mono _ _ E1), (word_mono _ _ E2).
    destruct (_ || _); [exact H|]. apply cat2_inv in H. destruct H as (p' & q & Q1 & Q2 & ->). injection Q1 as <-.
    rewrite (Hel _ _ _ _ Q2). reflexivity.
  - destruct (read_word m (a + ptr_off vl)) as [p|] eqn:E1; [|discriminate].
    destruct (read_word m (a + len_off vl)) as [n|] eqn:E2; [|discriminate]. rewrite (word_mono _ _ E1), (word_mono _ _ E2). exact H.
  - apply Hel. exact H.
  - apply Hfl. exact H.
  - destruct (read_discr m a d) as [v|] eqn:Ed; [|discriminate]. rewrite (read_discr_mono m m' a d v Hs Ed).
    destruct (nth_error vs v); [|discriminate]. apply Hfl. exact H.
  - exact H.
Qed.
Lemma root_places_mono f t a ps : root_places E m f t a = Some ps -> root_places E m' f t a = Some ps.
Proof.
  unfold root_places. destruct (_ =? 0); [auto|]. intros H. apply cat2_inv in H. destruct H as (p & q & Q1 & Q2 & ->).
  injection Q1 as <-. rewrite (places_mono _ _ _ _ Q2). reflexivity.
Qed.
End Mono.

(** What a thread that serialized with CompleteSerializer leaves behind. *)
Lemma left_behind {P : Params} : forall (st : machine) i (t : thread) ps s xs,
  reachable job_ok st -> g_tasks st i = Some t -> tk_prog t = Done (Ok (Some ps) s) ->
  cl_ser (j_client (tk_job t)) = Some (Complete, map it_in xs) -> cl_drop (j_client (tk_job t)) = false ->
  Forall (fun '(ty, a, v) => repr (j_env (tk_job t)) any_header (tk_mem t) ty a v /\ (vdepth v < j_fuel (tk_job t))%nat) xs ->
  exists o w1 z, let Q := job_params (tk_job t) o in
    cfg_ok (P := Q) /\ alloc_ok (P := Q) /\ wf_env (P := Q) (j_env (tk_job t)) /\ storage_ok (P := Q) w1 /\
    valid_inputs (P := Q) (j_env (tk_job t)) (tk_mem t) xs (j_fuel (tk_job t)) /\
    serialize_all (P := Q) Complete (j_env (tk_job t)) (tk_mem t) (j_fuel (tk_job t)) (inputs xs) (from_storage w1) = Ok ps z /\
    storage_ok (P := Q) (z_sw z) /\ h_ptr (hz_h s) = s_ptr (sw_s (z_sw z)) /\
    (forall n, n < s_pos (sw_s (z_sw z)) -> g_mem st (s_ptr (sw_s (z_sw z)) + n) = s_buf (sw_s (z_sw z)) n) /\
    (0 < s_pos (sw_s (z_sw z)) -> exists b, In b (g_live st) /\ b_own b = Some i /\
       b_addr b = s_ptr (sw_s (z_sw z)) /\ s_pos (sw_s (z_sw z)) <= b_size b).
Proof.
  intros st i t ps s xs HR Ht Hp Hk Hd Hxs. destruct (finished st i t HR Ht) as (o & L & p0 & Ho & Hm & Hj & Hs).
  rewrite Hp in Hs. pose proof Hj as (J1 & J2 & _). cbn [with_prog tk_job tk_mem tk_reads tk_al] in J1, J2.
  exists o. set (Q := job_params (tk_job t) o) in *.
  assert (HA : alloc_ok (P := Q)) by (intros n size; rewrite J2 in Ho; exact (Ho n size)).
  pose proof (client_ok_orc (with_consts P (j_consts (tk_job t))) o _ _ _ _ _ J1) as J1'. fold (job_params (tk_job t) o) in J1'. fold Q in J1'.
  unfold result_of in Hs. fold Q in Hs. cbn [alone] in Hs. unfold same_outcomeq in Hs.
  destruct (run_client (P := Q) _ _ _ _ _) as [r' z|e' z| | |] eqn:Er; try contradiction.
  destruct Hs as [<- Hs]. unfold end_state, dropped in Hs. rewrite Hd in Hs. cbn [orb] in Hs. destruct Hs as (Hs & _).
  destruct (run_client_serialized (P := Q) _ _ _ _ _ _ _ _ _ HA J1' Hk Er Hd) as (w1 & W1 & W2).
  destruct J1' as (C & HE & _ & _ & _ & J). rewrite Hk in J. destruct J as (xs' & X1 & X2).
  exists w1, z. cbv zeta.
  assert (A2 : Forall (fun '(t0, a, v) => input_ok (P := Q) (j_env (tk_job t)) (tk_mem t) any_header (j_fuel (tk_job t)) t0 a v) xs).
  { clear - X1 X2 Hxs. revert xs X1 Hxs. induction X2 as [|x' xs' H1 _ IH]; intros [|x xs] X1 Hxs; try discriminate; [constructor|].
    cbn in X1. injection X1 as E1 X1. inversion Hxs as [|? ? K1 K2]; subst. constructor; [|apply IH; assumption].
    destruct x as [[t1 a1] v1], x' as [[t2 a2] v2]. cbn in E1. injection E1 as -> ->. destruct H1 as ((V1 & V2 & V3) & _).
    destruct K1 as [K1 K1']. split; [exact (repr_params P Q _ _ _ eq_refl eq_refl _ _ _ K1)|]. split; [exact V1|]. split; [exact K1'|exact V2]. }
  pose proof (serialize_all_spec (P := Q) C HA (j_env (tk_job t)) HE Complete (tk_mem t) any_header any_header (transfers_any (P := Q) Complete) (j_fuel (tk_job t)) xs w1 W1 A2) as F.
  rewrite W2 in F. destruct F as (F1 & F2 & _ & F4 & _ & _ & _ & F8).
  destruct Hs as (E1 & E2 & E3 & E4 & E5 & E6 & E7 & E8).
  pose proof (ok_pos_le (P := Q) _ F4) as Hpos. destruct Hm as (_ & M2 & M3).
  split; [exact C|]. split; [exact HA|]. split; [exact HE|]. split; [exact W1|]. split.
  { intros t0 a v Hin. rewrite Forall_forall in A2. specialize (A2 (t0, a, v) Hin). cbv beta iota in A2.
    destruct A2 as (K1 & K2 & K3 & K4). split; [split; [exact K2|split; [exact K4|exact K1]]|exact K3]. }
  split; [exact W2|]. split; [exact F4|]. split; [exact E1|]. split.
  - intros n Hn. destruct (E8 ltac:(lia)) as [A1 _]. rewrite <- E4, <- A1. apply M3. rewrite E7. lia.
  - intros Hp0. destruct (E8 ltac:(lia)) as [A1 _]. exists (mkBlk (lc_base L) (lc_size L) (lc_al L) (Some i)).
    split; [apply M2; rewrite E7; lia|]. split; [reflexivity|]. cbn. split; [exact A1|]. rewrite E7. exact Hpos.
Qed.

(** Thread [i] has serialized [xs] with CompleteSerializer.  Then it can hand over its block and
    a new thread [n], with storage constants of its own, can be started to serialize what is found in the
    block, with any serializer, being lent nothing but bytes of that block.  The values
    it is given are those thread [i] was given. *)
Theorem C75_relay {P : Params} : forall (st : machine) i (t : thread) ps s xs n c2 k2 cap2 drop2,
  reachable job_ok st -> g_tasks st i = Some t -> tk_prog t = Done (Ok (Some ps) s) ->
  cl_ser (j_client (tk_job t)) = Some (Complete, map it_in xs) -> cl_drop (j_client (tk_job t)) = false ->
  Forall (fun '(ty, a, v) => repr (j_env (tk_job t)) any_header (tk_mem t) ty a v /\ (vdepth v < j_fuel (tk_job t))%nat) xs ->
  g_tasks st n = None -> (forall b, In b (g_live st) -> b_own b <> Some n) ->
  cfg_ok (P := with_consts P c2) -> wf_env (P := with_consts P c2) (j_env (tk_job t)) ->
  Forall (fun '(ty, _, _) => wf_ty (P := with_consts P c2) (j_env (tk_job t)) ty) xs -> cap2 < umod ->
  let ys := found_at (h_ptr (hz_h s)) xs ps in
  let j2 := mkJob c2 (j_env (tk_job t)) (j_fuel (tk_job t)) (mkClient cap2 [] (Some (k2, map it_in ys)) drop2) in
  exists lent st',
    reachable job_ok st' /\ g_mem st' = g_mem st /\ g_tasks st' i = None /\
    g_tasks st' n = Some (mkTask j2 (g_mem st) lent (cs_SA c2) (job_prog j2)) /\
    (forall r x, In r lent -> in_range x (fst r) (snd r) ->
       exists b, In b (g_live st) /\ b_own b = Some i /\ in_blk x b) /\
    length ys = length xs /\
    Forall (fun '(ty, a, v) => repr (j_env (tk_job t)) any_header (g_mem st) ty a v /\ (vdepth v < j_fuel (tk_job t))%nat) ys.
Proof.
  intros st i t ps s xs n c2 k2 cap2 drop2 HR Ht Hp Hk Hd Hxs Hn Hnb C2 HE2 Hw2 Hc2 ys j2.
  destruct (left_behind st i t ps s xs HR Ht Hp Hk Hd Hxs) as (o & w1 & z & H). cbv zeta in H.
  set (Q := job_params (tk_job t) o) in *. destruct H as (C & HA & HE & W1 & Hv & Hs & W2 & Hb & Hmem & Hblk).
  set (B := s_ptr (sw_s (z_sw z))) in *. set (E := j_env (tk_job t)) in *. set (fuel := j_fuel (tk_job t)) in *.
  pose proof (found_valid (P := Q) C HA E HE (tk_mem t) xs w1 fuel ps z (g_mem st) W1 Hv Hs Hmem) as HF. fold B in HF.
  assert (Hlen : length ys = length xs).
  { unfold ys, found_at. rewrite map_length, combine_length. apply Nat.min_l. apply Nat.eq_le_incl. exact (F2_length _ _ _ HF). }
  assert (Hys : Forall (fun '(ty, a, v) => (valid_input (P := with_consts P c2) E any_header (g_mem st) ty a v /\ (vdepth v < fuel)%nat)) ys).
  { unfold ys. rewrite Hb. clear - HF Hw2 Hxs. revert Hw2 Hxs. unfold found_at. induction HF as [|[[t1 a1] v1] p xs ps Hx HF IH]; intros Hw2 Hxs; [constructor|].
    inversion Hw2; subst. inversion Hxs as [|? ? K1 K2]; subst. cbn [combine map]. constructor; [|apply IH; assumption].
    destruct Hx as (V1 & V2 & V3). split; [|apply K1]. split; [assumption|]. split; [exact V2|].
    apply (repr_params Q (with_consts P c2) _ _ _ eq_refl eq_refl). eapply (repr_header (P := Q)); [|exact V3]. intros; exact Logic.I. }
  destruct (C69_lent c2 E fuel (g_mem st) k2 ys cap2 drop2 C2 HE2 Hc2 Hys) as (lent & L1 & L2). fold j2 in L2.
  assert (Hin : forall r x, In r lent -> in_range x (fst r) (snd r) -> exists b, In b (g_live st) /\ b_own b = Some i /\ in_blk x b).
  { intros r x Hr Hx. destruct (L1 r Hr) as (ty & a & v & qs & Hy & Hq & Hrq).
    destruct (C68_separate (P := Q) Complete E (tk_mem t) xs w1 fuel fuel ps z C HA HE W1 (or_intror eq_refl) Hv Hv Hs) as (pss & Q1 & _ & Q3 & _).
    cbn [PropClient.read_base] in Q1, Q3. fold B in Q1, Q3.
    assert (Hsub : sub_mem (out_mem B (z_sw z)) (g_mem st)).
    { intros y b Hy'. unfold out_mem in Hy'. destruct (_ && _) eqn:G in Hy'; [|discriminate]. rewrite <- Hy', <- Hmem by lia. f_equal. lia. }
    assert (Hrc : In r (concat pss)).
    { unfold ys in Hy. rewrite Hb in Hy. clear - Hy Hq Hrq Q1 Hsub. unfold found_at, inputs in *. revert pss ps Q1 Hy.
      induction xs as [|[[t1 a1] v1] xs IH]; intros pss ps Q1 Hy; [destruct Hy|]. destruct ps as [|p ps]; [destruct Hy|].
      cbn [map combine fst] in Q1, Hy. inversion Q1 as [|? q0 ? pss' K1 K2]; subst. cbn [concat]. apply in_app_iff. destruct Hy as [Hy|Hy].
      - left. injection Hy as -> <- ->. apply (root_places_mono (P := Q) E _ _ Hsub) in K1.
        change (root_places (P := Q) E (g_mem st) fuel ty (B + p)) with (root_places (P := P) E (g_mem st) fuel ty (B + p)) in K1.
        rewrite Hq in K1. injection K1 as <-. exact Hrq.
      - right. apply (IH pss' ps K2 Hy). }
    destruct r as [rs rn]. specialize (Q3 rs rn Hrc). cbn [fst snd] in Hx. unfold in_range in Hx.
    destruct (Hblk ltac:(lia)) as (b & B1 & B2 & B3 & B4). exists b. split; [exact B1|]. split; [exact B2|]. unfold in_blk, in_range. lia. }
  set (st1 := mkG (g_mem st) (map (hand_over i) (g_live st)) (set_task (g_tasks st) i None) : machine).
  assert (HR1 : reachable (P := P) (job_ok (P := P)) st1).
  { eapply R_step; [exact HR|]. eapply MFinish; [exact Ht|]. left. rewrite Hp. eauto. }
  set (t2 := mkTask j2 (g_mem st) lent (cs_SA c2) (job_prog (P := P) j2) : thread).
  assert (Hni : n <> i) by (intros ->; congruence).
  exists lent, (mkG (g_mem st) (g_live st1) (set_task (g_tasks st1) n (Some t2))).
  split; [|split; [reflexivity|split; [|split; [|split; [exact Hin|split; [exact Hlen|]]]]]].
  - eapply R_step; [exact HR1|]. apply (MSpawn (P := P) (job_ok (P := P)) st1 n t2).
    + cbn. unfold set_task. rewrite (proj2 (Nat.eqb_neq n i) Hni). exact Hn.
    + intros b Hbin. cbn in Hbin. apply in_map_iff in Hbin. destruct Hbin as (b0 & <- & Hb0). specialize (Hnb b0 Hb0).
      unfold hand_over. destruct (b_own b0) as [j|] eqn:Ej; [|rewrite Ej; discriminate].
      destruct (Nat.eqb_spec j i); [discriminate|]. rewrite Ej. exact Hnb.
    + intros r x Hr Hx (b1 & j & Hb1 & Hj & Hxb). destruct (Hin r x Hr Hx) as (b & B1 & B2 & B3).
      cbn in Hb1. apply in_map_iff in Hb1. destruct Hb1 as (b0 & <- & Hb0).
      assert (Hx0 : in_blk x b0). { unfold hand_over in Hxb. destruct (b_own b0) as [j0|]; [destruct (Nat.eqb j0 i)|]; exact Hxb. }
      destruct (C70_separate st b b0 i x HR B1 B2 B3) as [K _]. specialize (K Hb0 Hx0). subst b0.
      unfold hand_over in Hj. rewrite B2, Nat.eqb_refl in Hj. discriminate.
    + reflexivity.
    + exact L2.
  - cbn. unfold set_task. rewrite (proj2 (Nat.eqb_neq i n)) by auto. rewrite Nat.eqb_refl. reflexivity.
  - cbn. unfold set_task. rewrite Nat.eqb_refl. reflexivity.
  - eapply Forall_impl; [|exact Hys]. intros [[t1 a1] v1] [(_ & _ & V) Hdep]. split; [|exact Hdep].
    exact (repr_params (with_consts P c2) P _ _ _ eq_refl eq_refl _ _ _ V).
Qed.

(** So the values reach the end of the relay unchanged: if thread [n] too serializes with
    CompleteSerializer and finishes, its block holds what thread [i] was given. *)
Theorem C75_end_to_end {P : Params} : forall (st : machine) i (t : thread) ps s xs (st2 : machine) n (t2 : thread) ps2 s2,
  reachable job_ok st -> g_tasks st i = Some t -> tk_prog t = Done (Ok (Some ps) s) ->
  cl_ser (j_client (tk_job t)) = Some (Complete, map it_in xs) -> cl_drop (j_client (tk_job t)) = false ->
  Forall (fun '(ty, a, v) => repr (j_env (tk_job t)) any_header (tk_mem t) ty a v /\ (vdepth v < j_fuel (tk_job t))%nat) xs ->
  reachable job_ok st2 -> g_tasks st2 n = Some t2 -> tk_prog t2 = Done (Ok (Some ps2) s2) ->
  tk_mem t2 = g_mem st -> j_env (tk_job t2) = j_env (tk_job t) -> j_fuel (tk_job t2) = j_fuel (tk_job t) ->
  cl_ser (j_client (tk_job t2)) = Some (Complete, map it_in (found_at (h_ptr (hz_h s)) xs ps)) ->
  cl_drop (j_client (tk_job t2)) = false ->
  Forall2 (fun '(ty, _, v) p => repr (j_env (tk_job t)) any_header (g_mem st2) ty (h_ptr (hz_h s2) + p) v) xs ps2.
Proof.
  intros st i t ps s xs st2 n t2 ps2 s2 HR Ht Hp Hk Hd Hxs HR2 Ht2 Hp2 Hm2 HE2 Hf2 Hk2 Hd2.
  pose proof (C70_output st i t ps s xs HR Ht Hp Hk Hd Hxs) as H1.
  assert (Hys : Forall (fun '(ty, a, v) => repr (j_env (tk_job t2)) any_header (tk_mem t2) ty a v /\ (vdepth v < j_fuel (tk_job t2))%nat)
     (found_at (h_ptr (hz_h s)) xs ps)).
  { rewrite Hm2, HE2, Hf2. clear - H1 Hxs. unfold found_at. revert Hxs.
    induction H1 as [|[[t1 a1] v1] p xs ps Hx H1 IH]; intros Hxs; [constructor|]. inversion Hxs as [|? ? K1 K2]; subst.
    cbn [combine map]. constructor; [split; [apply Hx|apply K1]|apply IH; exact K2]. }
  pose proof (C70_output st2 n t2 ps2 s2 _ HR2 Ht2 Hp2 Hk2 Hd2 Hys) as H2. rewrite HE2 in H2.
  clear - H1 H2. unfold found_at in H2. revert ps2 H2.
  induction H1 as [|[[t1 a1] v1] p xs ps _ H1 IH]; intros ps2 H2; cbn [combine map] in H2; inversion H2 as [|? p2 ? ps2' K1 K2]; subst; constructor.
  - apply K1.
  - apply IH. exact K2.
Qed.

(** The state of C70_witness is such a state: a third thread may serialize, with the constants of the
    second and PtrOffsetSerializer, what the first one left at 0xD80000. *)
Theorem C75_witness : exists st lent st',
  reachable (P := demo) (job_ok (P := demo)) st /\ reachable (P := demo) (job_ok (P := demo)) st' /\
  g_tasks st 2%nat = None /\
  option_map tk_reads (g_tasks st' 2%nat) = Some lent /\
  option_map (fun t : thread => cl_ser (j_client (tk_job t))) (g_tasks st' 2%nat) =
    Some (Some (PtrOffset, [(t_demo, 14155776 + 0); (t_u32, 14155776 + 112); (TBox t_u64, 14155776 + 120)])) /\
  repr (P := demo) no_env any_header (g_mem st') t_demo (14155776 + 0) demo_val.
Proof.
  destruct C70_witness as (st & s & HR & (t & T1 & T2 & T3 & T4) & _ & N2 & HL & HB & _).
  assert (HV : Forall (fun '(ty, a, v) => repr (P := demo) no_env any_header demo_mem ty a v /\ (vdepth v < 10)%nat) PropEncode.demo_items).
  { pose proof C54_hypotheses as HV. apply Forall_forall. intros [[t' a] v] Hin. destruct (HV t' a v Hin) as [(_ & _ & V1) V2]. auto. }
  pose proof (C75_relay (P := demo) st 0%nat t [0; 112; 120] s PropEncode.demo_items 2%nat consts_a PtrOffset 0 true HR T1 T4) as H.
  rewrite T2, T3, HB in H. change (with_consts demo consts_a) with demo in H.
  destruct (H eq_refl eq_refl HV N2) as (lent & st' & R1 & R2 & _ & R4 & _ & _ & R7).
  - rewrite HL. intros b [<-|[]]. discriminate.
  - exact demo_cfg.
  - exact no_env_wf.
  - pose proof C54_hypotheses as HW. apply Forall_forall. intros [[t' a] v] Hin. destruct (HW t' a v Hin) as [(V1 & _) _]. exact V1.
  - apply ltc; vm_compute; reflexivity.
  - exists st, lent, st'. split; [exact HR|]. split; [exact R1|]. split; [exact N2|]. rewrite R4. split; [reflexivity|]. split; [reflexivity|].
    rewrite R2. inversion R7 as [|? ? K1 K2]; subst. exact (proj1 K1).
Qed.
