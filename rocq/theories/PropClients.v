(** * PropClients: C77 — hand-written implementations at work in one process.

    As PropMachine.v, for threads that run any clients: calls of the storage, and sessions in
    which values with hand-written Serialize implementations (ClientSpec.v) are serialized, with
    whatever panics they make being caught. *)
From Verif Require Import Base Types Storage ArithFacts TypeFacts StorageFacts StorageHist StorageProps Spec Serializer Serialize SerFacts SerValue SerMain SerRoot SerProps
  PropTree Client ClientSpec ClientFacts PropClient PropResume Prog ProgSer ProgClient Alone AloneSer Confined Machine MachineFacts Jobs ClientJobs MachineRun PropMachine.
From Coq Require Import Arith ZifyBool ZifyNat ZifyN.
Local Open Scope N_scope.

Notation ithread := (task ijob hz (list (list (N * option N)))).
Notation imachine := (gstate ijob hz (list (list (N * option N)))).

(** ** What an output must be depends on the word size, byte order and storage constants only *)
Scheme image_mut := Induction for image Sort Prop
with images_mut := Induction for images Sort Prop
with region_mut := Induction for region Sort Prop.

Section Params.
Variables P1 P2 : Params.
Hypothesis HPW : pW (Params := P1) = pW (Params := P2).
Hypothesis HBE : pBE (Params := P1) = pBE (Params := P2).
Hypothesis HVA : VA (Params := P1) = VA (Params := P2).
Hypothesis HMX : MAXC (Params := P1) = MAXC (Params := P2).

Lemma attempts_params k E m M B b rs outs e :
  attempts (P := P1) k E m M B b rs outs e -> attempts (P := P2) k E m M B b rs outs e.
Proof.
  destruct P1 as [w1 be1 d1 sa1 mva1 va1 mx1 o1], P2 as [w2 be2 d2 sa2 mva2 va2 mx2 o2]. cbn [pW pBE VA MAXC] in *. subst w1 be1 va1 mx1.
  set (PA := {| pW := w2; pBE := be2; dbg := d1; SA := sa1; MVA := mva1; VA := va2; MAXC := mx2; orc := o1 |}).
  set (PB := {| pW := w2; pBE := be2; dbg := d2; SA := sa2; MVA := mva2; VA := va2; MAXC := mx2; orc := o2 |}).
  assert (Hr : forall p a size cur ss, region (P := PA) k E m M B p a size cur ss -> region (P := PB) k E m M B p a size cur ss).
  { apply (region_mut PA k E m M B (fun p a cur s _ => image (P := PB) k E m M B p a cur s)
      (fun p a cur ss _ => images (P := PB) k E m M B p a cur ss)
      (fun p a size cur ss _ => region (P := PB) k E m M B p a size cur ss)); intros.
    - apply (I_push (P := PB)); assumption.
    - apply (I_plain (P := PB)); assumption.
    - apply (I_raw (P := PB)); assumption.
    - apply (I_over (P := PB)); assumption.
    - apply (I_field (P := PB)); try assumption. intros Ht. apply (repr_params PA PB); [reflexivity|reflexivity|auto].
    - apply (I_store (P := PB)); assumption.
    - apply (IS_nil (P := PB)).
    - apply (IS_cons (P := PB)); assumption.
    - apply (I_region (P := PB)); assumption. }
  induction 1.
  - apply (A_nil (P := PB)).
  - apply (A_some (P := PB)); auto.
  - eapply (A_none (P := PB)); eauto.
Qed.
End Params.

(** ** C77 *)

(** No thread is ever about to do something undefined, and no two threads race. *)
Theorem C77_no_UB {P : Params} : forall (st : imachine) i (t : ithread),
  reachable ijob_ok st -> g_tasks st i = Some t -> defined st i t.
Proof. intros st i t HR Ht. exact (invariant_defined ijob_ok ijob_safe st (reachable_invariant ijob_ok ijob_safe st HR) i t Ht). Qed.

Theorem C77_no_race {P : Params} : forall (st : imachine), reachable ijob_ok st -> ~ data_race st.
Proof. intros st HR. exact (invariant_no_race ijob_ok ijob_safe st (reachable_invariant ijob_ok ijob_safe st HR)). Qed.

(** At every moment the next access of a thread is to its own block or (only to read) to the
    ranges it was lent, and these are as they were when the thread was started. *)
Theorem C77_touches {P : Params} : forall (st : imachine) i (t : ithread) x writes,
  reachable ijob_ok st -> g_tasks st i = Some t -> accesses (tk_prog t) x writes ->
  (exists b, In b (g_live st) /\ b_own b = Some i /\ in_blk x b) \/
  (writes = false /\ exists r, In r (tk_reads t) /\ in_range x (fst r) (snd r)).
Proof.
  intros st i t x w HR Ht Ha.
  pose proof (C77_no_UB st i t HR Ht) as Hu. unfold defined, accesses in *.
  assert (Hown : forall a n, owns (g_live st) i a n -> in_range x a n -> exists b, In b (g_live st) /\ b_own b = Some i /\ in_blk x b).
  { intros a n [->|(b & B1 & B2 & B3 & B4)] Hx; [unfold in_range in Hx; lia|]. exists b. unfold in_blk, in_range in *. repeat split; auto; lia. }
  assert (Hrd : forall a n, within (tk_reads t) a n -> in_range x a n -> exists r, In r (tk_reads t) /\ in_range x (fst r) (snd r)).
  { intros a n [->|(r & R1 & R2 & R3)] Hx; [unfold in_range in Hx; lia|]. exists r. unfold in_range in *. repeat split; auto; lia. }
  destruct (tk_prog t) as [oc|size al k|addr old al new k|addr size al k|src dst n k|dst n data k|a n k|a n k] eqn:Ep; try contradiction.
  - destruct Ha as [Ha ->]. left. exists (mkBlk addr old al (Some i)). split; [apply Hu|split; [reflexivity|exact Ha]].
  - destruct Ha as [Ha ->]. left. exists (mkBlk addr size al (Some i)). split; [apply Hu|split; [reflexivity|exact Ha]].
  - destruct Hu as (U1 & U2 & _). destruct Ha as [[Ha ->]|[Ha ->]]; [right; split; [reflexivity|eauto]|left; eauto].
  - destruct Ha as [Ha ->]. left. eauto.
  - destruct Ha as [Ha ->]. right. split; [reflexivity|eauto].
  - destruct Ha as [Ha ->]. left. eauto.
Qed.

Theorem C77_inputs_unchanged {P : Params} : forall (st : imachine) i (t : ithread) r x,
  reachable ijob_ok st -> g_tasks st i = Some t -> In r (tk_reads t) -> in_range x (fst r) (snd r) ->
  g_mem st x = tk_mem t x.
Proof.
  intros st i t r x HR Ht Hr Hx. destruct (reachable_invariant ijob_ok ijob_safe st HR) as (I1 & _).
  destruct (I1 i t Ht) as (p0 & ans & L & _ & _ & _ & H & _). eauto.
Qed.

Lemma ifinished {P : Params} : forall (st : imachine) i (t : ithread),
  reachable ijob_ok st -> g_tasks st i = Some t ->
  exists o L p0, orc_ok (tk_al t) o /\ mirrors st i L /\ ijob_ok (with_prog t p0) /\
    same_outcomeq (iend_state (P := ijob_params (tk_job t) o) (i_client (tk_job t))) (same_ser (P := ijob_params (tk_job t) o))
      (alone (P := with_orc P o) (tk_mem t) (tk_prog t) L)
      (run_iclient (P := ijob_params (tk_job t) o) (tk_mem t) (i_env (tk_job t)) (i_fuel (tk_job t)) (i_client (tk_job t)) z_new).
Proof.
  intros st i t HR Ht. destruct (reachable_invariant ijob_ok ijob_safe st HR) as (I1 & _).
  destruct (on_track_facts ijob_ok ijob_safe st i t (I1 i t Ht)) as (p0 & ans & L & F1 & F2 & F3 & F4 & F5 & F6 & F7 & F8).
  exists (recorded ans), L, p0. pose proof (recorded_ok (tk_al t) ans F3) as Ho. split; [exact Ho|]. split; [exact F5|]. split; [exact F1|].
  rewrite <- F7. exact (ijob_alone (with_prog t p0) (recorded ans) F1 Ho).
Qed.

(** How a thread ends, whatever the panics of its implementations: it returns (and owns no block
    if it drops its storage), or its storage could not be made and it owns no block, or the
    process aborted because the allocator had no memory. *)
Theorem C77_ends {P : Params} : forall (st : imachine) i (t : ithread) oc,
  reachable ijob_ok st -> g_tasks st i = Some t -> tk_prog t = Done oc ->
  match oc with
  | Ok r s => ic_drop (i_client (tk_job t)) = true -> forall b, In b (g_live st) -> b_own b <> Some i
  | Panic e s => e = PWithCapacity /\ cs_MAXC (i_consts (tk_job t)) < ic_cap (i_client (tk_job t)) /\
      forall b, In b (g_live st) -> b_own b <> Some i
  | Abort => True
  | UB | OutOfFuel => False
  end.
Proof.
  intros st i t oc HR Ht Hp. destruct (ifinished st i t HR Ht) as (o & L & p0 & Ho & Hm & Hj & Hs).
  rewrite Hp in Hs. pose proof Hj as (J1 & J2 & _). cbn [with_prog tk_job tk_mem tk_reads tk_al] in J1, J2.
  pose proof (iclient_ok_orc (with_consts P (i_consts (tk_job t))) o _ _ _ _ _ J1) as J1'. fold (ijob_params (tk_job t) o) in J1'.
  assert (HA : alloc_ok (P := ijob_params (tk_job t) o)) by (intros n size; rewrite J2 in Ho; exact (Ho n size)).
  pose proof (run_iclient_ends (P := ijob_params (tk_job t) o) (proj1 J1') HA _ _ _ _ _ J1') as He.
  unfold same_outcomeq in Hs.
  destruct oc as [r s|e s| | |]; cbn [alone] in Hs;
    destruct (run_iclient (P := ijob_params (tk_job t) o) _ _ _ _ _) as [r' z|e' z| | |] eqn:Er; try contradiction; auto.
  - destruct Hs as [<- Hs]. intros Hd. unfold iend_state in Hs. rewrite Hd in Hs.
    destruct Hs as (Z & _). destruct Hm as (M1 & _). intros b Hb Hob. destruct (M1 b Hb Hob). lia.
  - destruct Hs as [<- Hs]. destruct He as (-> & ->). split; [reflexivity|]. split.
    + unfold run_iclient in Er. unfold bind at 1 in Er. unfold lift at 1 in Er. change (z_sw z_new) with sw_new in Er.
      pose proof (with_capacity_spec (P := ijob_params (tk_job t) o) (proj1 J1') HA (ic_cap (i_client (tk_job t))) (proj1 (proj2 (proj2 J1')))) as H1.
      destruct (with_capacity (P := ijob_params (tk_job t) o) (ic_cap (i_client (tk_job t))) sw_new) as [u w0|e w0| | |]; try discriminate Er; try contradiction.
      * exfalso. destruct H1 as (_ & Hok0 & _). unfold bind at 1 in Er.
        pose proof (phases_end (P := ijob_params (tk_job t) o) (proj1 J1') HA _ _ _ _ _ (proj1 (proj2 J1')) (proj2 (proj2 (proj2 J1')))
           (mkZ w0 (z_map z_new) (z_ptrs z_new)) Hok0) as H2.
        destruct (run_phases (P := ijob_params (tk_job t) o) _ _ _ _ _) as [r z1|e z1| | |]; try contradiction; try discriminate Er.
        destruct (ic_drop _); [|discriminate Er]. unfold bind, lift in Er.
        destruct (drop_spec (P := ijob_params (tk_job t) o) (proj1 J1') (z_sw z1) H2) as (w' & Hd & _). rewrite Hd in Er. discriminate Er.
      * apply H1.
    + intros b Hb Hob. destruct Hm as (M1 & _). destruct (M1 b Hb Hob) as [_ Hz]. destruct Hs as ((_ & _ & _ & _ & _ & _ & E7 & _) & _).
      rewrite E7 in Hz. cbn in Hz. lia.
Qed.

(** The output as it is read: a Complete output where it is, in the memory of the process; the
    others as a file. *)
Definition seen (k : kind) (m : mem) (ptr : N) : mem := match k with Complete => m | _ => mem_from m ptr end.
Definition seen_at (k : kind) (ptr : N) : N := match k with Complete => ptr | _ => 0 end.

(** A thread whose last session was with any serializer [k] has in its block, in the memory of the process,
    what [attempts] (ClientSpec.v) requires: the whole image of every value whose serialize_value
    returned, whatever panicked before or after it and whatever other threads do. *)
Theorem C77_output {P : Params} : forall (st : imachine) i (t : ithread) r s phs k rs,
  reachable ijob_ok st -> g_tasks st i = Some t -> tk_prog t = Done (Ok r s) ->
  ic_phases (i_client (tk_job t)) = phs ++ [PhSer k rs] -> ic_drop (i_client (tk_job t)) = false ->
  exists r0 outs b, r = r0 ++ [outs] /\
    attempts (P := with_consts P (i_consts (tk_job t))) k (i_env (tk_job t)) (tk_mem t)
      (seen k (g_mem st) (h_ptr (hz_h s))) (seen_at k (h_ptr (hz_h s))) b rs outs (h_pos (hz_h s)) /\
    owns (g_live st) i (h_ptr (hz_h s)) (h_pos (hz_h s)).
Proof.
  intros st i t r s phs k rs HR Ht Hp Hk Hd. destruct (ifinished st i t HR Ht) as (o & L & p0 & Ho & Hm & Hj & Hs).
  rewrite Hp in Hs. pose proof Hj as (J1 & J2 & _). cbn [with_prog tk_job tk_mem tk_reads tk_al] in J1, J2.
  pose proof (iclient_ok_orc (with_consts P (i_consts (tk_job t))) o _ _ _ _ _ J1) as J1'. fold (ijob_params (tk_job t) o) in J1'.
  assert (HA : alloc_ok (P := ijob_params (tk_job t) o)) by (intros n size; rewrite J2 in Ho; exact (Ho n size)).
  cbn [alone] in Hs. unfold same_outcomeq in Hs.
  destruct (run_iclient (P := ijob_params (tk_job t) o) _ _ _ _ _) as [r' z|e' z| | |] eqn:Er; try contradiction.
  destruct Hs as [<- Hs]. unfold iend_state in Hs. rewrite Hd in Hs. destruct Hs as (Hs & _).
  destruct (run_iclient_last (P := ijob_params (tk_job t) o) (proj1 J1') HA _ _ _ _ _ _ _ _ _ _ J1' Hk Hd Er) as (r0 & outs & w & -> & W1 & W2).
  destruct J1' as (C & HE & _ & Hph). rewrite Hk in Hph. apply Forall_app in Hph. destruct Hph as [_ Hph].
  inversion Hph as [|? ? Hrs _]; subst. cbn [phase_ok] in Hrs.
  pose proof (session_done (P := ijob_params (tk_job t) o) k _ _ _ rs w C HA HE W1 (root_ok_in _ _ _ _ _ Hrs)) as H.
  rewrite W2 in H. cbv zeta in H. destruct H as (H1 & H2 & H3 & _).
  destruct Hs as (E1 & E2 & E3 & E4 & E5 & E6 & E7 & E8).
  pose proof (ok_pos_le (P := ijob_params (tk_job t) o) _ H2) as Hpos.
  exists r0, outs, (s_pos (sw_s w)). split; [reflexivity|]. rewrite E1, E3. split.
  - apply (attempts_params (ijob_params (tk_job t) o) (with_consts P (i_consts (tk_job t)))); try reflexivity.
    change (seen_at k (s_ptr (sw_s (z_sw z)))) with (read_base k (z_sw z)). apply H1.
    intros n Hn. destruct (E8 ltac:(lia)) as [A1 _]. rewrite <- E4. destruct Hm as (_ & _ & M3). rewrite <- M3 by (rewrite E7; lia). rewrite A1.
    destruct k; reflexivity.
  - destruct (N.eq_dec (s_pos (sw_s (z_sw z))) 0) as [Z|Z]; [left; exact Z|right].
    exists (mkBlk (lc_base L) (lc_size L) (lc_al L) (Some i)). destruct Hm as (_ & M2 & _).
    destruct (E8 ltac:(lia)) as [A1 _].
    split; [apply M2; lia|]. split; [reflexivity|]. cbn. rewrite A1, E7. lia.
Qed.

(** A thread that is not finished can go on, whatever the others did. *)
Theorem C77_not_stuck {P : Params} : forall (st : imachine) i (t : ithread),
  reachable ijob_ok st -> g_tasks st i = Some t ->
  (exists oc, tk_prog t = Done oc) \/ exists m' live' p', tstep st i (tk_reads t) (tk_prog t) m' live' p'.
Proof.
  intros st i t HR Ht. pose proof (C77_no_UB st i t HR Ht) as D. unfold defined in D.
  destruct (tk_prog t) as [oc|size al k|addr old al new k|addr size al k|src dst n k|dst n data k|a n k|a n k];
    [left; eauto|right|right|right|right|right|right|right]; do 3 eexists.
  - apply TRefused; apply D.
  - apply TReRefused; apply D.
  - apply TDealloc; [exact D|]. intros x _. reflexivity.
  - apply TCopy; [apply D|apply D|]. intros x. reflexivity.
  - apply TStore; [exact D|]. intros x. reflexivity.
  - apply TLoad. exact D.
  - apply TRead. exact D.
Qed.

(** Values of the supported types, serialized by the crate's own implementations, are a special
    case: the implementation then makes one call, for the value itself. *)
Theorem C77_supported {P : Params} : forall E fuel m bs t a v,
  cfg_ok -> wf_env E -> value_ok E fuel m bs (t, a, v) -> 0 < size_of E t ->
  root_ok E m fuel bs (layout_of E t, a, [SField 0 t v]) /\
  (forall k z, serialize_value_with k (slice_at m (layout_of E t) a 1) (run_steps k E m fuel a [SField 0 t v]) z
     = serialize_value k E m fuel t a z).
Proof.
  intros E fuel m bs t a v C HE ((V1 & V2 & V3) & Hd & ps & Hp & Hi) Hsz. split.
  2:{ intros k z. assert (Hs : forall z, run_steps k E m fuel a [SField 0 t v] z = ser_data k E m fuel t a z).
      { intros z0. cbn [run_steps run_step]. rewrite N.add_0_r. unfold bind, ret. destruct (ser_data k E m fuel t a z0) as [[]| | | |]; reflexivity. }
      unfold serialize_value, serialize_value_with. destruct k; unfold bind;
        (destruct (push_raw (slice_at m (layout_of E t) a 1) z) as [p z1| | | |]; [|reflexivity|reflexivity|reflexivity|reflexivity]);
        try (destruct (set_map (mkMap (sl_addr (slice_at m (layout_of E t) a 1)) p) z1) as [u z2| | | |]; [|reflexivity|reflexivity|reflexivity|reflexivity]); rewrite Hs; reflexivity. }
  pose proof (wf_good C E HE t V1) as Hg.
  split; [split; [exact Hg|]; split; [exact Hsz|]; split; [exact V2|]|].
  - constructor; [|intros s' i' []|constructor].
    apply OK_field; auto.
    + rewrite N.add_0_r. exact V3.
    + unfold size_of. lia.
    + apply N.divide_0_r.
    + apply N.divide_refl.
  - unfold root_places in Hp. destruct (N.eqb_spec (size_of E t) 0) as [Z|Z]; [lia|].
    destruct (places E m fuel t a) as [qs|] eqn:Q; [|discriminate]. cbn [cat2] in Hp. injection Hp as <-. split.
    + right. exists (a, size_of E t). split; [apply Hi; left; reflexivity|]. cbn. unfold size_of. lia.
    + constructor; [|constructor]. cbn [step_lent]. exists qs. rewrite N.add_0_r. split; [exact Q|]. intros x Hx. apply Hi. right. exact Hx.
Qed.

(** ** A concrete execution

    Two threads reading the same value, of 88 bytes at 4096, with hand-written implementations.
    The first serializes it with CompleteSerializer three times: with an implementation that
    panics in the middle of processing a box; with one that pushes, overwrites, shrinks and
    reserves; and a part of it.  The second does the same with PtrOffsetSerializer, clears the
    storage, serializes a part with PureCopySerializer, and drops the storage.  Their
    instructions alternate. *)
From Verif Require Import MemFacts PropStorage PropSerialize Demo WitnessSerialize.

Definition demo_three : list (layout * N * list step) :=
  [ (mkLayout 88 8, 4096, demo_panics); (mkLayout 88 8, 4096, PropClient.demo_steps);
    (mkLayout 16 8, 4136, [SPushPlain 0 (mkLayout 1 1) 8224 2]) ].
Definition ijob_a := mkIjob consts_a no_env 10 (mkIclient 0 [PhOps [HPushBytes 2 8224]; PhSer Complete demo_three] false).
Definition ijob_b := mkIjob consts_a no_env 10
  (mkIclient 64 [PhSer PtrOffset demo_three; PhOps [HClear]; PhSer PureCopy [(mkLayout 16 8, 4136, [SPushPlain 0 (mkLayout 1 1) 8224 2])]] true).
Definition ithread_of (j : ijob) : ithread := mkTask j demo_mem demo_reads 16 (ijob_prog (P := demo) j).
Definition idemo_start : imachine := mkG demo_mem [] (fun _ => None).
Definition idemo_two : imachine :=
  mkG demo_mem [] (set_task (set_task (fun _ => None) 0%nat (Some (ithread_of ijob_a))) 1%nat (Some (ithread_of ijob_b))).

Lemma demo_three_ok : Forall (root_ok (P := demo) no_env demo_mem 10 demo_reads) demo_three.
Proof.
  pose proof C57_hypotheses as (_ & _ & _ & _ & H). unfold demo_roots in H.
  inversion H as [|? ? H1 H']; subst. inversion H' as [|? ? H2 H'']; subst. inversion H'' as [|? ? _ H3]; subst. inversion H3 as [|? ? H4 _]; subst.
  assert (Hw : forall a n, within_b demo_reads a n = true -> within demo_reads a n) by (intros; apply within_b_spec; assumption).
  assert (Hs : forall r, root_in (P := demo) no_env demo_mem 10 r ->
    (let '(l, a, ss) := r in within demo_reads a (l_size l) /\ steps_lent (P := demo) no_env demo_mem 10 demo_reads a ss) ->
    root_ok (P := demo) no_env demo_mem 10 demo_reads r) by (intros r A B; split; assumption).
  apply Forall_cons; [|apply Forall_cons; [|apply Forall_cons; [|apply Forall_nil]]]; apply Hs; try assumption;
    (split; [apply Hw; vm_compute; reflexivity|]); unfold steps_lent, demo_panics, PropClient.demo_steps;
    repeat apply Forall_cons; try apply Forall_nil; cbn [step_lent]; try exact Logic.I;
    try (split; [apply Hw; vm_compute; reflexivity|tauto]); try (apply Hw; vm_compute; reflexivity);
    (eexists; split; [vm_compute; reflexivity|]; unfold demo_reads; intros x Hx; repeat (destruct Hx as [<-|Hx]; [cbn; tauto|]); contradiction).
Qed.

Lemma ijob_a_ok : ijob_ok (P := demo) (ithread_of ijob_a).
Proof.
  split; [|split; reflexivity]. cbn [ithread_of tk_job tk_mem tk_reads ijob_a i_consts i_env i_fuel i_client ic_cap ic_phases].
  change (with_consts demo consts_a) with demo.
  split; [exact demo_cfg|]. split; [exact no_env_wf|]. split; [apply ltc; vm_compute; reflexivity|].
  apply Forall_cons; [|apply Forall_cons; [exact demo_three_ok|constructor]].
  split; [repeat constructor; cbn; vm_compute; discriminate|]. intros x Hx; cbn in Hx; destruct Hx as [<-|[]]; cbn; tauto.
Qed.
Lemma ijob_b_ok : ijob_ok (P := demo) (ithread_of ijob_b).
Proof.
  split; [|split; reflexivity]. cbn [ithread_of tk_job tk_mem tk_reads ijob_b i_consts i_env i_fuel i_client ic_cap ic_phases].
  change (with_consts demo consts_a) with demo.
  split; [exact demo_cfg|]. split; [exact no_env_wf|]. split; [apply ltc; vm_compute; reflexivity|].
  pose proof demo_three_ok as H3.
  apply Forall_cons; [exact H3|]. apply Forall_cons; [|apply Forall_cons; [|constructor]].
  - split; [repeat constructor|intros x []].
  - unfold demo_three in H3. inversion H3 as [|? ? _ H4]; subst. inversion H4 as [|? ? _ H5]; subst. exact H5.
Qed.

Lemma idemo_two_reachable : reachable (P := demo) (ijob_ok (P := demo)) idemo_two.
Proof.
  assert (H0 : reachable (P := demo) (ijob_ok (P := demo)) idemo_start).
  { apply R_start. split; [reflexivity|intros b []]. }
  assert (H1 : mstep (P := demo) (ijob_ok (P := demo)) idemo_start (mkG demo_mem [] (set_task (fun _ => None) 0%nat (Some (ithread_of ijob_a))))).
  { apply (MSpawn (P := demo) _ idemo_start 0%nat (ithread_of ijob_a)); [reflexivity|intros b []| |reflexivity|exact ijob_a_ok].
    intros r x _ _ (b & i & [] & _). }
  eapply R_step; [eapply R_step; [exact H0|exact H1]|].
  apply (MSpawn (P := demo) _ (mkG demo_mem [] (set_task (fun _ => None) 0%nat (Some (ithread_of ijob_a)))) 1%nat (ithread_of ijob_b));
    [reflexivity|intros b []| |reflexivity|exact ijob_b_ok].
  intros r x _ _ (b & i & [] & _).
Qed.

(** Both threads finished.  The second has given its block back.  The first's block, moved several
    times, holds the values that were serialized: the second value's box points into the block,
    where 99 was written instead of 77; the first value panicked. *)
Lemma C77_witness : exists st s,
  reachable (P := demo) (ijob_ok (P := demo)) st /\
  (exists t, g_tasks st 0%nat = Some t /\ tk_job t = ijob_a /\ tk_mem t = demo_mem /\
     tk_prog t = Done (Ok [[(8, None); (112, Some 112); (240, Some 240)]] s)) /\
  (exists t s', g_tasks st 1%nat = Some t /\ tk_job t = ijob_b /\
     tk_prog t = Done (Ok [[(0, None); (104, Some 104); (232, Some 232)]; [(0, Some 0)]] s')) /\
  g_live st = [mkBlk 13172736 1024 16 (Some 0%nat)] /\ h_ptr (hz_h s) = 13172736 /\ h_pos (hz_h s) = 264 /\
  read_word (P := demo) (g_mem st) (13172736 + 112 + 8) = Some (13172736 + 200) /\
  read_word (P := demo) (g_mem st) (13172736 + 200) = Some 99 /\ read_word (P := demo) (g_mem st) 8192 = Some 77 /\
  exists b, attempts (P := demo) Complete no_env demo_mem (g_mem st) 13172736 b demo_three [(8, None); (112, Some 112); (240, Some 240)] 264.
Proof.
  assert (H : match run_sched (P := demo) demo_reads (PropMachine.demo_steps 29 16 0) idemo_two with
    | Some st =>
        match g_tasks st 0%nat, g_tasks st 1%nat with
        | Some t0, Some t1 =>
            match tk_prog t0, tk_prog t1 with
            | Done (Ok r0 s), Done (Ok r1 _) =>
                (r0, r1, g_live st, h_ptr (hz_h s), h_pos (hz_h s), read_word (P := demo) (g_mem st) (13172736 + 112 + 8),
                 read_word (P := demo) (g_mem st) (13172736 + 200), read_word (P := demo) (g_mem st) 8192)
                = ([[(8, None); (112, Some 112); (240, Some 240)]], [[(0, None); (104, Some 104); (232, Some 232)]; [(0, Some 0)]],
                   [mkBlk 13172736 1024 16 (Some 0%nat)], 13172736, 264, Some (13172736 + 200), Some 99, Some 77)
            | _, _ => False
            end
        | _, _ => False
        end
    | None => False
    end) by (vm_compute; reflexivity).
  destruct (run_sched (P := demo) demo_reads (PropMachine.demo_steps 29 16 0) idemo_two) as [st|] eqn:Er; [|contradiction].
  assert (HR : reachable (P := demo) (ijob_ok (P := demo)) st).
  { apply (run_sched_reachable (P := demo) (ijob_ok (P := demo)) demo_reads (PropMachine.demo_steps 29 16 0) idemo_two st idemo_two_reachable); [|exact Er].
    intros j t r Hj Hr. cbn [idemo_two g_tasks] in Hj. unfold set_task in Hj.
    destruct (Nat.eqb j 1); [injection Hj as <-; exact Hr|]. destruct (Nat.eqb j 0); [injection Hj as <-; exact Hr|discriminate]. }
  destruct (g_tasks st 0%nat) as [t0|] eqn:E0; [|contradiction]. destruct (g_tasks st 1%nat) as [t1|] eqn:E1; [|contradiction].
  destruct (tk_prog t0) as [[r0 s| | | |]| | | | | | |] eqn:P0; try contradiction.
  destruct (tk_prog t1) as [[r1 s1| | | |]| | | | | | |] eqn:P1; try contradiction.
  injection H as H1 H2 H6 H7 H8 H9 H10 H11.
  destruct (run_sched_keeps (P := demo) demo_reads (PropMachine.demo_steps 29 16 0) idemo_two st 0%nat (ithread_of ijob_a) Er eq_refl) as (t0' & T1 & H3 & H5 & _).
  destruct (run_sched_keeps (P := demo) demo_reads (PropMachine.demo_steps 29 16 0) idemo_two st 1%nat (ithread_of ijob_b) Er eq_refl) as (t1' & T2 & H4 & _).
  rewrite E0 in T1. injection T1 as <-. rewrite E1 in T2. injection T2 as <-. cbn [ithread_of tk_job tk_mem] in H3, H4, H5.
  exists st, s. subst r0 r1. split; [exact HR|]. split; [exists t0; auto|]. split; [exists t1, s1; auto|].
  do 6 (split; [assumption|]).
  pose proof (C77_output (P := demo) st 0%nat t0 _ s [PhOps [HPushBytes 2 8224]] Complete demo_three HR E0 P0) as HO.
  rewrite H3 in HO. specialize (HO eq_refl eq_refl). destruct HO as (r0 & outs & b & Q1 & Q2 & _).
  assert (Hq : outs = [(8, None); (112, Some 112); (240, Some 240)]).
  { destruct r0 as [|x [|y r0]]; cbn in Q1; inversion Q1; reflexivity. }
  subst outs. exists b. rewrite H5, H7, H8 in Q2. exact Q2.
Qed.
