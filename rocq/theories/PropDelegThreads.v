(** * PropDelegThreads: C94 — programs whose implementations hand values on to each other, in any number of threads.

    As PropMixedThreads.v, for the programs of Deleg.v: each thread makes its storage, calls it, and serializes values of any types of
    its program with serializers made from it, one session after the other, panics being caught. *)
From Verif Require Import Base Types Storage ArithFacts TypeFacts StorageFacts StorageHist StorageProps Spec Serializer Serialize SerFacts SerValue SerMain SerRoot SerProps
  PropTree Client ClientSpec ClientFacts PropClient PropResume Derive DeriveSpec Mixed MixedFacts PropMixed MixedValid PropMixedValue PropMixedSession
  Prog ProgSer ProgClient ProgMixed ProgDeleg Alone AloneSer Confined Machine MachineFacts Jobs ClientJobs MachineRun PropMachine PropClients MixedJobs
  Deleg DelegFacts DelegValid PropDeleg DelegJobs.
From Coq Require Import Arith ZifyBool ZifyNat ZifyN.
Local Open Scope N_scope.

Notation dthread := (task djob hz (list (list (N * option N)))).
Notation dmachine := (gstate djob hz (list (list (N * option N)))).

(** No thread is ever about to do something undefined, and no two threads race. *)
Theorem C94_no_UB {P : Params} {L : Lexer} : forall (st : dmachine) i (t : dthread),
  reachable djob_ok st -> g_tasks st i = Some t -> defined st i t.
Proof. intros st i t HR Ht. exact (invariant_defined djob_ok djob_safe st (reachable_invariant djob_ok djob_safe st HR) i t Ht). Qed.

Theorem C94_no_race {P : Params} {L : Lexer} : forall (st : dmachine), reachable djob_ok st -> ~ data_race st.
Proof. intros st HR. exact (invariant_no_race djob_ok djob_safe st (reachable_invariant djob_ok djob_safe st HR)). Qed.

(** At every moment the next access of a thread is to its own block or (only to read) to the
    ranges it was lent, and these are as they were when the thread was started. *)
Theorem C94_touches {P : Params} {L : Lexer} : forall (st : dmachine) i (t : dthread) x writes,
  reachable djob_ok st -> g_tasks st i = Some t -> accesses (tk_prog t) x writes ->
  (exists b, In b (g_live st) /\ b_own b = Some i /\ in_blk x b) \/
  (writes = false /\ exists r, In r (tk_reads t) /\ in_range x (fst r) (snd r)).
Proof.
  intros st i t x w HR Ht Ha.
  pose proof (C94_no_UB st i t HR Ht) as Hu. unfold defined, accesses in *.
  assert (Hown : forall a n, owns (g_live st) i a n -> in_range x a n -> exists b, In b (g_live st) /\ b_own b = Some i /\ in_blk x b).
  { intros a n [->|(b & B1 & B2 & B3 & B4)] Hx; [unfold in_range in Hx; lia|]. exists b. unfold in_blk, in_range in *. repeat split; auto; lia. }
  assert (Hrd : forall a n, within (tk_reads t) a n -> in_range x a n -> exists r, In r (tk_reads t) /\ in_range x (fst r) (snd r)).
  { intros a n [->|(r & R1 & R2 & R3)] Hx; [unfold in_range in Hx; lia|]. exists r. unfold in_range in *. repeat split; auto; lia. }
  destruct (tk_prog t) as [oc|size al k|addr old al new k|addr size al k|src dst n k|dst n data k|a n k|a n k] eqn:Ep; try contradiction.
  - destruct Ha as [Ha ->]. left. exists (mkBlk addr old al (Some i)). split; [apply Hu|split; [reflexivity|exact Ha]].
  - destruct Ha as [Ha ->]. left. exists (mkBlk addr size al (Some i)). split; [apply Hu|split; [reflexivity|exact Ha]].
  - destruct Hu as (U1 & U2 & _). destruct Ha as [[Ha ->]|[Ha ->]]; [right; split; [reflexivity|eauto]|left; eauto].
  - destruct Ha as [Ha ->]. left. eauto.
  - destruct Ha as [Ha ->]. right. split; [reflexivity|eauto].
  - destruct Ha as [Ha ->]. left. eauto.
Qed.

Theorem C94_inputs_unchanged {P : Params} {L : Lexer} : forall (st : dmachine) i (t : dthread) r x,
  reachable djob_ok st -> g_tasks st i = Some t -> In r (tk_reads t) -> in_range x (fst r) (snd r) ->
  g_mem st x = tk_mem t x.
Proof.
  intros st i t r x HR Ht Hr Hx. destruct (reachable_invariant djob_ok djob_safe st HR) as (I1 & _).
  destruct (I1 i t Ht) as (p0 & ans & L0 & _ & _ & _ & H & _). eauto.
Qed.

Lemma dfinished {P : Params} {L : Lexer} : forall (st : dmachine) i (t : dthread),
  reachable djob_ok st -> g_tasks st i = Some t ->
  exists o L0 p0, orc_ok (tk_al t) o /\ mirrors st i L0 /\ djob_ok (with_prog t p0) /\
    same_outcomeq (dend_state (P := djob_params (tk_job t) o) (d_client (tk_job t))) (same_ser (P := djob_params (tk_job t) o))
      (alone (P := with_orc P o) (tk_mem t) (tk_prog t) L0)
      (run_dclient (P := djob_params (tk_job t) o) (tk_mem t) (d_prog (tk_job t)) (d_fuel (tk_job t)) (d_client (tk_job t)) z_new).
Proof.
  intros st i t HR Ht. destruct (reachable_invariant djob_ok djob_safe st HR) as (I1 & _).
  destruct (on_track_facts djob_ok djob_safe st i t (I1 i t Ht)) as (p0 & ans & L0 & F1 & F2 & F3 & F4 & F5 & F6 & F7 & F8).
  exists (recorded ans), L0, p0. pose proof (recorded_ok (tk_al t) ans F3) as Ho. split; [exact Ho|]. split; [exact F5|]. split; [exact F1|].
  rewrite <- F7. exact (djob_alone (with_prog t p0) (recorded ans) F1 Ho).
Qed.

(** How a thread ends, whatever the panics of its implementations: it returns (and owns no block
    if it drops its storage), or its storage could not be made and it owns no block, or the
    process aborted because the allocator had no memory. *)
Theorem C94_ends {P : Params} {L : Lexer} : forall (st : dmachine) i (t : dthread) oc,
  reachable djob_ok st -> g_tasks st i = Some t -> tk_prog t = Done oc ->
  match oc with
  | Ok r s => mc_drop (d_client (tk_job t)) = true -> forall b, In b (g_live st) -> b_own b <> Some i
  | Panic e s => e = PWithCapacity /\ cs_MAXC (d_consts (tk_job t)) < mc_cap (d_client (tk_job t)) /\
      forall b, In b (g_live st) -> b_own b <> Some i
  | Abort => True
  | UB | OutOfFuel => False
  end.
Proof.
  intros st i t oc HR Ht Hp. destruct (dfinished st i t HR Ht) as (o & L0 & p0 & Ho & Hm & Hj & Hs).
  rewrite Hp in Hs. pose proof Hj as (J1 & J2 & _). cbn [with_prog tk_job tk_mem tk_reads tk_al] in J1, J2.
  pose proof (dclient_ok_orc (with_consts P (d_consts (tk_job t))) o _ _ _ _ _ J1) as J1'. fold (djob_params (tk_job t) o) in J1'.
  assert (HA : alloc_ok (P := djob_params (tk_job t) o)) by (intros n size; rewrite J2 in Ho; exact (Ho n size)).
  pose proof (run_dclient_ends (P := djob_params (tk_job t) o) (proj1 J1') HA _ _ _ _ _ J1') as He.
  unfold same_outcomeq in Hs.
  destruct oc as [r s|e s| | |]; cbn [alone] in Hs;
    destruct (run_dclient (P := djob_params (tk_job t) o) _ _ _ _ _) as [r' z|e' z| | |] eqn:Er; try contradiction; auto.
  - destruct Hs as [<- Hs]. intros Hd. unfold dend_state in Hs. rewrite Hd in Hs.
    destruct Hs as (Z & _). destruct Hm as (M1 & _). intros b Hb Hob. destruct (M1 b Hb Hob). lia.
  - destruct Hs as [<- Hs]. destruct He as (-> & He & ->). split; [reflexivity|]. split; [exact He|].
    intros b Hb Hob. destruct Hm as (M1 & _). destruct (M1 b Hb Hob) as [_ Hz]. destruct Hs as ((_ & _ & _ & _ & _ & _ & E7 & _) & _).
    rewrite E7 in Hz. cbn in Hz. lia.
Qed.


(** A thread whose last session was with any serializer [k] has in its block, in the memory of the process, the
    whole image of every value whose serialize_value returned ([attempts]), as made by the calls of all its parts, whichever
    implementations these have ([calls]). *)
Theorem C94_output {P : Params} {L : Lexer} : forall (st : dmachine) i (t : dthread) r s phs k ys,
  let pg := at_memory (d_prog (tk_job t)) in
  let E := pr_env pg in
  reachable djob_ok st -> g_tasks st i = Some t -> tk_prog t = Done (Ok r s) ->
  mc_phases (d_client (tk_job t)) = phs ++ [MSer k (map place_of ys)] -> mc_drop (d_client (tk_job t)) = false ->
  Forall (session_input (P := with_consts P (d_consts (tk_job t))) E (tk_mem t) (d_fuel (tk_job t))) ys ->
  exists r0 outs b rs, r = r0 ++ [outs] /\
    Forall2 (dx_calls_of (P := with_consts P (d_consts (tk_job t))) pg (tk_mem t) (d_fuel (tk_job t))) ys rs /\
    Forall (root_in (P := with_consts P (d_consts (tk_job t))) E (tk_mem t) 0) rs /\
    attempts (P := with_consts P (d_consts (tk_job t))) k E (tk_mem t)
      (seen k (g_mem st) (h_ptr (hz_h s))) (seen_at k (h_ptr (hz_h s))) b rs outs (h_pos (hz_h s)) /\
    owns (g_live st) i (h_ptr (hz_h s)) (h_pos (hz_h s)).
Proof.
  intros st i t r s phs k ys pg E HR Ht Hp Hk Hd Hys. destruct (dfinished st i t HR Ht) as (o & L0 & p0 & Ho & Hm & Hj & Hs).
  rewrite Hp in Hs. pose proof Hj as (J1 & J2 & _). cbn [with_prog tk_job tk_mem tk_reads tk_al] in J1, J2.
  pose proof (dclient_ok_orc (with_consts P (d_consts (tk_job t))) o _ _ _ _ _ J1) as J1'. fold (djob_params (tk_job t) o) in J1'.
  assert (HA : alloc_ok (P := djob_params (tk_job t) o)) by (intros n size; rewrite J2 in Ho; exact (Ho n size)).
  cbn [alone] in Hs. unfold same_outcomeq in Hs.
  destruct (run_dclient (P := djob_params (tk_job t) o) _ _ _ _ _) as [r' z|e' z| | |] eqn:Er; try contradiction.
  destruct Hs as [<- Hs]. unfold dend_state in Hs. rewrite Hd in Hs. destruct Hs as (Hs & _).
  destruct (run_dclient_last (P := djob_params (tk_job t) o) (proj1 J1') HA _ _ _ _ _ _ _ _ _ _ J1' Hk Hd Er) as (r0 & outs & w & -> & W1 & W2).
  destruct J1' as (C & LO & HE & PO & WB & _ & _).
  assert (Hys' : Forall (session_input (P := djob_params (tk_job t) o) E (tk_mem t) (d_fuel (tk_job t))) ys).
  { eapply Forall_impl; [|exact Hys]. intros x. apply (input_orc (with_consts P (d_consts (tk_job t))) o). }
  destruct J1 as (C1 & _ & HE1 & PO1 & WB1 & _ & _).
  destruct (dx_is_session (P := with_consts P (d_consts (tk_job t))) pg k (tk_mem t) (d_fuel (tk_job t)) ys C1 LO HE1 PO1 WB1 Hys) as (rs & R1 & R2 & _).
  destruct (dx_is_session (P := djob_params (tk_job t) o) pg k (tk_mem t) (d_fuel (tk_job t)) ys C LO HE PO WB Hys') as (rs' & R1' & R2' & R3').
  assert (Hrs : rs' = rs).
  { clear - R1 R1'. revert rs' R1'. induction R1 as [|[[u a] v] [[l a1] ss] ys rs Hc R1 IH]; intros rs' R1'; inversion R1' as [|x [[l2 a2] ss2] ys' rs2 Hc' R2']; subst; [reflexivity|].
    rewrite (IH _ R2'). destruct Hc as (-> & -> & Hc). destruct Hc' as (-> & -> & Hc').
    change (calls (P := djob_params (tk_job t) o)) with (calls (P := with_consts P (d_consts (tk_job t)))) in Hc'. rewrite Hc in Hc'. injection Hc' as <-. reflexivity. }
  subst rs'. rewrite R3' in W2.
  pose proof (session_done (P := djob_params (tk_job t) o) k (pr_env pg) (tk_mem t) 0 rs w C HA HE W1 R2') as H.
  rewrite W2 in H. cbv zeta in H. destruct H as (H1 & H2 & H3 & _).
  destruct Hs as (E1 & E2 & E3 & E4 & E5 & E6 & E7 & E8).
  pose proof (ok_pos_le (P := djob_params (tk_job t) o) _ H2) as Hpos.
  exists r0, outs, (s_pos (sw_s w)), rs. split; [reflexivity|]. split; [exact R1|]. split; [exact R2|].
  rewrite E1, E3. split.
  - apply (attempts_params (djob_params (tk_job t) o) (with_consts P (d_consts (tk_job t)))); try reflexivity.
    change (seen_at k (s_ptr (sw_s (z_sw z)))) with (read_base k (z_sw z)).
    apply H1.
    intros n Hn. destruct (E8 ltac:(lia)) as [A1 _]. rewrite <- E4. destruct Hm as (_ & _ & M3). rewrite <- M3 by (rewrite E7; lia). rewrite A1.
    destruct k; reflexivity.
  - destruct (N.eq_dec (s_pos (sw_s (z_sw z))) 0) as [Z|Z]; [left; exact Z|right].
    exists (mkBlk (lc_base L0) (lc_size L0) (lc_al L0) (Some i)). destruct Hm as (_ & M2 & _).
    destruct (E8 ltac:(lia)) as [A1 _].
    split; [apply M2; lia|]. split; [reflexivity|]. cbn. rewrite A1, E7. lia.
Qed.
Lemma dx_values_of_attempts {P : Params} {L : Lexer} : forall pg bh bp k m f Mo B b xs rs outs e,
  let E := pr_env pg in
  cfg_ok -> lexer_ok -> wf_env E -> program_ok pg -> delegates_well pg m -> all_attain pg bh bp k m -> tracking k = true ->
  Forall (session_input E m f) xs -> Forall2 (dx_calls_of pg m f) xs rs -> Forall (root_in E m 0) rs ->
  attempts k E m Mo B b rs outs e ->
  Forall2 (fun x o => forall p, snd o = Some p -> p + size_of E (fst (fst x)) <= e /\
    exists v', turns pg bh bp (fst (fst x)) (snd x) v' /\ repr E any_header Mo (fst (fst x)) (B + p) v') xs outs.
Proof.
  intros pg bh bp k m f Mo B b xs rs outs e E C LO HE PO DW HT HTr Hxs R1 R2 A. revert xs Hxs R1 R2.
  induction A as [b|b l a ss rs outs e HR HM A IH|b l a ss rs outs e b' HP Hb A IH]; intros xs Hxs R1 R2; inversion R1 as [|[[t a0] v] r xs' rs' Hc R1']; subst; [constructor| |];
    inversion Hxs as [|x xs0 Hx Hxs']; subst; inversion R2 as [|r' rs' Hroot R2']; subst;
    destruct Hc as (-> & -> & Hc); destruct Hx as ((Hw & Ha & Hr) & Hs & Hf); (constructor; [|apply IH; assumption]).
  - intros p Hp. cbn [snd] in Hp. injection Hp as <-. cbn [fst snd]. split.
    + pose proof Hroot as (G1 & _ & _ & G4).
      assert (Hge : push_start b (layout_of E t) + size_of E t <= steps_end E (push_end b (layout_of E t) 1) ss).
      { rewrite <- (steps_allocs_end C E m 0 _ _ _ _ G4) by apply push_end_VA.
        pose proof (push_end_ge C b (layout_of E t) 1). pose proof (end_pos_ge C (push_end b (layout_of E t) 1) (flat_map (step_allocs E) ss)).
        unfold size_of. lia. }
      pose proof (attempts_le C _ _ _ _ _ _ _ _ _ _ R2' A). unfold E in *. lia.
    + destruct (proj1 (valid (written_out pg m f) bh bp k m 0 C HE LO (out_ok pg m f PO) (out_wb pg m C HE LO PO DW f)
        (all_out pg bh bp k m C HE LO PO DW HTr HT f) HTr Mo B) t a0 v Hr Hw Ha) as [G _].
      destruct (G ss _ _ (calls_make pg m LO PO f f ltac:(lia) t a0 ss Hc) HR) as (v' & V1 & V2). exists v'. split; [|exact V2].
      exact (proj1 (turns_out pg bh bp m f) t v v' V1).
  - intros p Hp. discriminate Hp.
Qed.

(** If its last session was with a pointer-writing serializer, every value whose serialize_value returned can be
    read, whole, from the thread's block (a Complete output where it is, in the memory of the process), its parts turned as
    their implementations mean to ([turns]); whatever panicked before or after it and whatever other threads do. *)
Theorem C94_values {P : Params} {L : Lexer} : forall (st : dmachine) i (t : dthread) r s phs k ys by_hand by_proxy,
  let pg := at_memory (d_prog (tk_job t)) in
  reachable djob_ok st -> g_tasks st i = Some t -> tk_prog t = Done (Ok r s) ->
  mc_phases (d_client (tk_job t)) = phs ++ [MSer k (map place_of ys)] -> mc_drop (d_client (tk_job t)) = false ->
  Forall (session_input (P := with_consts P (d_consts (tk_job t))) (pr_env pg) (tk_mem t) (d_fuel (tk_job t))) ys ->
  all_attain (P := with_consts P (d_consts (tk_job t))) pg by_hand by_proxy k (tk_mem t) -> tracking k = true ->
  exists r0 outs, r = r0 ++ [outs] /\
    Forall2 (fun x o => forall p, snd o = Some p ->
      p + size_of (P := with_consts P (d_consts (tk_job t))) (pr_env pg) (fst (fst x)) <= h_pos (hz_h s) /\
      exists v', turns (P := with_consts P (d_consts (tk_job t))) pg by_hand by_proxy (fst (fst x)) (snd x) v' /\
        repr (P := with_consts P (d_consts (tk_job t))) (pr_env pg) any_header
          (seen k (g_mem st) (h_ptr (hz_h s))) (fst (fst x)) (seen_at k (h_ptr (hz_h s)) + p) v') ys outs.
Proof.
  intros st i t r s phs k ys bh bp pg HR Ht Hp Hk Hd Hys HT HTr.
  destruct (C94_output st i t r s phs k ys HR Ht Hp Hk Hd Hys) as (r0 & outs & b & rs & O1 & O2 & O3 & O4 & _).
  exists r0, outs. split; [exact O1|].
  destruct (dfinished st i t HR Ht) as (o & L0 & p0 & _ & _ & ((C & LO & HE & PO & WB & _) & _) & _).
  cbn [with_prog tk_job tk_mem] in C, HE, PO, WB.
  exact (dx_values_of_attempts (P := with_consts P (d_consts (tk_job t))) pg bh bp k (tk_mem t) (d_fuel (tk_job t)) _ _ _ ys rs outs _ C LO HE PO WB HT HTr Hys O2 O3 O4).
Qed.

(** A thread that is not finished can go on, whatever the others did. *)
Theorem C94_not_stuck {P : Params} {L : Lexer} : forall (st : dmachine) i (t : dthread),
  reachable djob_ok st -> g_tasks st i = Some t ->
  (exists oc, tk_prog t = Done oc) \/ exists m' live' p', tstep st i (tk_reads t) (tk_prog t) m' live' p'.
Proof.
  intros st i t HR Ht. pose proof (C94_no_UB st i t HR Ht) as D. unfold defined in D.
  destruct (tk_prog t) as [oc|size al k|addr old al new k|addr size al k|src dst n k|dst n data k|a n k|a n k];
    [left; eauto|right|right|right|right|right|right|right]; do 3 eexists.
  - apply TRefused; apply D.
  - apply TReRefused; apply D.
  - apply TDealloc; [exact D|]. intros x _. reflexivity.
  - apply TCopy; [apply D|apply D|]. intros x. reflexivity.
  - apply TStore; [exact D|]. intros x. reflexivity.
  - apply TLoad. exact D.
  - apply TRead. exact D.
Qed.

(** ** A concrete execution

    The program of C92: a Wrap, implemented by hand, hands its Outer on, whose implementation is derived, one of
    its fields going through a proxy and another being a Hand, implemented by hand.  Two threads read the same values: the
    first serializes a Box<Wrap> and a Wrap with CompleteSerializer; the second both with PtrOffsetSerializer, then clears
    the storage, serializes the Outer with PureCopySerializer and drops the storage.  Their instructions alternate. *)
From Coq Require Import String.
From Verif Require Import MemFacts PropStorage PropSerialize Demo WitnessSerialize WitnessDerive.
#[local] Existing Instance ascii_lexer.
(** A word read through a reference. *)
Definition load64 (a : N) (k : N -> reader (list step)) : reader (list step) :=
  RLoad a 8 (fun c => match read_int (P := demo) (mem_of c) 0 8 with Some n => k n | None => RDone [] end).
Lemma load64_all m a k : read_all m (load64 a k) = match read_int (P := demo) m a 8 with Some n => read_all m (k n) | None => [] end.
Proof. unfold load64. cbn [read_all]. rewrite (read_cells (P := demo) m a 8 8) by lia. destruct (read_int (P := demo) m a 8); reflexivity. Qed.
Lemma load64_lent m bs a k n : read_int (P := demo) m a 8 = Some n -> within bs a 8 -> reader_lent m bs (k n) -> reader_lent m bs (load64 a k).
Proof. intros H1 H2 H3. unfold load64. cbn [reader_lent]. split; [exact H2|]. rewrite (read_cells (P := demo) m a 8 8) by lia. rewrite H1. exact H3. Qed.

Definition hand_reader (a : N) : reader (list step) :=
  load64 a (fun p => RDone [SPush 0 u64_layout p 1 [SOver 0 u64_layout (bytes_src (w64 99))]]).
Definition proxy_reader (a : N) : reader (list step) := load64 a (fun p => RDone [SPushPlain 0 u64_layout p 1]).
Definition wrap_reader (a : N) : reader (list step) :=
  load64 a (fun n => load64 (a + 8) (fun p => load64 (a + 16) (fun q => load64 p (fun x => load64 q (fun y =>
    RDone [SField 0 (TNamed 0) (outer_val n x y); SOver 24 u64_layout (bytes_src (w64 7))]))))).
Definition deleg_mp : mprogram := {|
  mp_env := deleg_env;
  mp_derived := fun id => match id with 0%nat => Some outer_decl | _ => None end;
  mp_hand := fun id => match id with 1%nat => Some hand_reader | 2%nat => Some wrap_reader | _ => None end;
  mp_with := fun _ _ => proxy_reader |}.
Lemma hand_same m a : read_all m (hand_reader a) = hand_impl m a.
Proof. unfold hand_reader, hand_impl. rewrite load64_all. unfold read_word. change (@pW demo) with 8. destruct (@read_int demo m a 8); reflexivity. Qed.
Lemma proxy_same m a : read_all m (proxy_reader a) = proxy_impl m a.
Proof. unfold proxy_reader, proxy_impl. rewrite load64_all. unfold read_word. change (@pW demo) with 8. destruct (@read_int demo m a 8); reflexivity. Qed.
Lemma wrap_same m a : read_all m (wrap_reader a) = wrap_impl m a.
Proof.
  unfold wrap_reader, wrap_impl, read_outer. rewrite load64_all. unfold read_word. change (@pW demo) with 8.
  destruct (@read_int demo m a 8) as [n|]; [|reflexivity]. rewrite load64_all. destruct (@read_int demo m (a + 8) 8) as [p|]; [|reflexivity].
  rewrite load64_all. destruct (@read_int demo m (a + 16) 8) as [q|]; [|reflexivity].
  rewrite load64_all. destruct (@read_int demo m p 8) as [x|]; [|reflexivity]. rewrite load64_all. destruct (@read_int demo m q 8) as [y|]; reflexivity.
Qed.
(** The same program. *)
Lemma same_impl id : match impl_for deleg_prog id, impl_for (at_memory deleg_mp) id with
  | IHand h, IHand h' => forall m a, h' m a = h m a
  | IDerived i, IDerived i' => i' = i
  | INone, INone => True
  | _, _ => False
  end.
Proof. destruct id as [|[|[|id]]]; unfold impl_for; cbn; [reflexivity|intros m a; apply hand_same|intros m a; apply wrap_same|exact Logic.I]. Qed.
Lemma same_proxied w t : proxied (at_memory deleg_mp) w t -> proxied deleg_prog w t.
Proof.
  intros (id & i & l & fs & dfs & n & f & off & H1 & H2). exists id, i, l, fs, dfs, n, f, off. split; [|exact H2].
  pose proof (same_impl id) as HI. rewrite H1 in HI. destruct (impl_for deleg_prog id); try contradiction. subst. reflexivity.
Qed.
Lemma deleg_mp_ok : program_ok (at_memory deleg_mp).
Proof.
  destruct C92_hypotheses as (_ & _ & PO & _). intros id d H. pose proof (PO id d H) as X. pose proof (same_impl id) as HI.
  destruct (impl_for deleg_prog id), (impl_for (at_memory deleg_mp) id); try contradiction; subst; auto.
Qed.
Lemma deleg_mp_well : delegates_well (P := demo) (at_memory deleg_mp) deleg_mem.
Proof.
  destruct C92_hypotheses as (_ & _ & _ & (W1 & W2) & _). split.
  - intros id h H. pose proof (same_impl id) as HI. rewrite H in HI. destruct (impl_for deleg_prog id) eqn:EI; try contradiction.
    intros a v Hr Ha. rewrite HI. exact (W1 id _ EI a v Hr Ha).
  - intros w t Hx a v Hr Ha. change (pr_with (at_memory deleg_mp) w t deleg_mem a) with (read_all deleg_mem (proxy_reader a)). rewrite proxy_same.
    exact (W2 w t (same_proxied w t Hx) a v Hr Ha).
Qed.
Notation dm_turns := (turns (P := demo) (at_memory deleg_mp) to_7_99 (fun _ _ => eq)).
Notation dp_turns := (turns (P := demo) deleg_prog to_7_99 (fun _ _ => eq)).
Lemma same_turns : forall t v v', dm_turns t v v' -> dp_turns t v v'.
Proof.
  apply (turns_ind2 (P := demo) (at_memory deleg_mp) to_7_99 (fun _ _ => eq) (fun t v v' _ => dp_turns t v v')
    (fun t vs vs' _ => turns_all (P := demo) deleg_prog to_7_99 (fun _ _ => eq) t vs vs')
    (fun fs cs vs vs' _ => turns_fields (P := demo) deleg_prog to_7_99 (fun _ _ => eq) fs cs vs vs')); intros;
    try (econstructor; eassumption).
  - pose proof (same_impl id) as HI. rewrite e in HI. destruct (impl_for deleg_prog id) eqn:EI; try contradiction. eapply U_hand; eassumption.
  - pose proof (same_impl id) as HI. rewrite e in HI. destruct (impl_for deleg_prog id) eqn:EI; try contradiction. subst. eapply U_derived; eassumption.
  - pose proof (same_impl id) as HI. rewrite e in HI. destruct (impl_for deleg_prog id) eqn:EI; try contradiction. subst. eapply U_derived_enum; eassumption.
Qed.
Scheme effect_min := Minimality for effect Sort Prop
  with effects_min := Minimality for effects Sort Prop.
Lemma same_effects Mo B : forall p a size ss, effects (P := demo) (at_memory deleg_mp) to_7_99 (fun _ _ => eq) Complete deleg_mem Mo B p a size ss ->
  effects (P := demo) deleg_prog to_7_99 (fun _ _ => eq) Complete deleg_mem Mo B p a size ss.
Proof.
  apply (effects_min demo (at_memory deleg_mp) to_7_99 (fun _ _ => eq) Complete deleg_mem Mo B
    (fun p a s => effect (P := demo) deleg_prog to_7_99 (fun _ _ => eq) Complete deleg_mem Mo B p a s)
    (fun p a size ss => effects (P := demo) deleg_prog to_7_99 (fun _ _ => eq) Complete deleg_mem Mo B p a size ss)); intros;
    try (econstructor; eassumption).
  eapply X_field; [apply same_turns; eassumption|assumption].
Qed.
Lemma deleg_mp_attains : all_attain (P := demo) (at_memory deleg_mp) to_7_99 (fun _ _ => eq) Complete deleg_mem.
Proof.
  destruct C92_hypotheses as (_ & _ & _ & _ & _ & (W1 & W2) & _). split.
  - intros id h H. pose proof (same_impl id) as HI. rewrite H in HI. destruct (impl_for deleg_prog id) eqn:EI; try contradiction.
    intros a v Mo B p Hr Ha HF. rewrite HI in HF. exact (W1 id _ EI a v Mo B p Hr Ha (same_effects _ _ _ _ _ _ HF)).
  - intros w t Hx a v Mo B p Hr Ha HF. change (pr_with (at_memory deleg_mp) w t deleg_mem a) with (read_all deleg_mem (proxy_reader a)) in HF. rewrite proxy_same in HF.
    exact (W2 w t (same_proxied w t Hx) a v Mo B p Hr Ha (same_effects _ _ _ _ _ _ HF)).
Qed.

(** All they read is lent to them. *)
Definition d_reads : list (N * N) := [(4096, 8); (8192, 32); (12288, 16)].
Lemma d_within a n : within_b d_reads a n = true -> within d_reads a n.
Proof. apply within_b_spec. Qed.
Ltac ind := apply d_within; vm_compute; reflexivity.
Ltac ldl := eapply load64_lent; [vm_compute; reflexivity|ind|].
Lemma hand_lent f : dx_lent (P := demo) deleg_mp deleg_mem d_reads (S f) (TNamed 1) 8208.
Proof.
  cbn [dx_lent deleg_mp mp_hand]. split; [ldl; exact Logic.I|]. rewrite hand_same.
  assert (Hp : hand_impl deleg_mem 8208 = [SPush 0 u64_layout 12296 1 [SOver 0 u64_layout (bytes_src (w64 99))]])
    by (unfold hand_impl; assert (Hr : read_word (P := demo) deleg_mem 8208 = Some 12296) by rd; rewrite Hr; reflexivity).
  rewrite Hp. constructor; [|constructor]. cbn [dstep_lent]. split; [ind|auto].
Qed.
Lemma outer_lent f : dx_lent (P := demo) deleg_mp deleg_mem d_reads (S (S f)) (TNamed 0) 8192.
Proof.
  cbn [dx_lent deleg_mp mp_hand mp_derived mp_env deleg_env mixed_env t_outer]. unfold dderived_lent.
  assert (G : exists w, generated outer_decl None = Some [(CSerialize, 0%nat); (CWith w, 1%nat); (CSerialize, 2%nat)]) by (eexists; vm_compute; reflexivity).
  destruct G as (w & ->). cbn [dcalls_lent nth_error]. split; [exact Logic.I|]. split.
  - change (dimpl_lent deleg_mem d_reads (dx_lent (P := demo) deleg_mp deleg_mem d_reads (S f)) (proxy_reader 8200) 8200). split; [ldl; exact Logic.I|].
    rewrite proxy_same.
    assert (Hp : proxy_impl deleg_mem 8200 = [SPushPlain 0 u64_layout 12288 1])
      by (unfold proxy_impl; assert (Hr : read_word (P := demo) deleg_mem 8200 = Some 12288) by rd; rewrite Hr; reflexivity).
    rewrite Hp. constructor; [ind|constructor].
  - split; [exact (hand_lent f)|exact Logic.I].
Qed.
Lemma wrap_lent f : dx_lent (P := demo) deleg_mp deleg_mem d_reads (S (S (S f))) (TNamed 2) 8192.
Proof.
  cbn [dx_lent deleg_mp mp_hand]. change (dimpl_lent deleg_mem d_reads (dx_lent (P := demo) deleg_mp deleg_mem d_reads (S (S f))) (wrap_reader 8192) 8192).
  split; [do 5 ldl; exact Logic.I|]. rewrite wrap_same.
  assert (Hp : wrap_impl deleg_mem 8192 = [SField 0 (TNamed 0) (outer_val 11 21 31); SOver 24 u64_layout (bytes_src (w64 7))]).
  { unfold wrap_impl. assert (Hr : read_outer deleg_mem 8192 = Some (outer_val 11 21 31)) by (vm_compute; reflexivity). rewrite Hr. reflexivity. }
  rewrite Hp. constructor; [exact (outer_lent f)|constructor; [exact Logic.I|constructor]].
Qed.
Lemma box_lent f : dx_lent (P := demo) deleg_mp deleg_mem d_reads (S (S (S (S f)))) (TBox (TNamed 2)) 4096.
Proof.
  assert (X : forall f', dx_lent (P := demo) deleg_mp deleg_mem d_reads f' (TNamed 2) 8192 -> dx_lent (P := demo) deleg_mp deleg_mem d_reads (S f') (TBox (TNamed 2)) 4096).
  { intros f' H. cbn [dx_lent]. intros _. exists 8192. split; [rd|]. split; [ind|exact H]. }
  exact (X _ (wrap_lent f)).
Qed.

Definition d_inputs : list (ty * N * val) := deleg_inputs ++ [(TNamed 0, 8192, outer_val 11 21 31)].
Lemma outer_valid : @valid_input demo deleg_env any_header deleg_mem (TNamed 0) 8192 (outer_val 11 21 31) /\
  @valid_input demo deleg_env any_header deleg_mem (TNamed 2) 8192 (VStruct [outer_val 11 21 31; VPrim 5]).
Proof.
  destruct C92_hypotheses as (_ & _ & _ & _ & _ & _ & (_ & _ & Hv) & _).
  inversion Hv as [|t a p v H1 H2 H3 H4| | | | | |]; subst. assert (p = 8192) as -> by (assert (Hr : read_word (P := demo) deleg_mem 4096 = Some 8192) by rd; rewrite Hr in H1; injection H1 as <-; reflexivity).
  destruct (wrap_repr _ _ _ H4) as (v0 & e & He & H5). injection He as <- <-.
  split; (split; [eapply W_named; reflexivity|split; [le|assumption]]).
Qed.
Lemma d_inputs_ok : Forall (session_input (P := demo) deleg_env deleg_mem 10) d_inputs.
Proof.
  destruct C92_hypotheses as (_ & _ & _ & _ & _ & _ & Hv & _). destruct outer_valid as [O1 O2].
  unfold d_inputs, deleg_inputs. repeat apply Forall_cons; [| | |apply Forall_nil]; unfold session_input; (split; [assumption|split; [vm_compute; reflexivity|cbn; lia]]).
Qed.
Lemma d_lent_ok : Forall (dinput_ok (P := demo) deleg_mp deleg_mem d_reads 10) (map place_of d_inputs).
Proof.
  pose proof d_inputs_ok as H. unfold d_inputs, deleg_inputs in *. cbn [map place_of fst app] in *.
  inversion H as [|? ? I1 H1]; subst. inversion H1 as [|? ? I2 H2]; subst. inversion H2 as [|? ? I3 _]; subst.
  repeat apply Forall_cons; [| | |apply Forall_nil]; unfold dinput_ok.
  - split; [eexists; exact I1|]. split; [ind|exact (box_lent 6)].
  - split; [eexists; exact I2|]. split; [ind|exact (wrap_lent 7)].
  - split; [eexists; exact I3|]. split; [ind|exact (outer_lent 8)].
Qed.

Definition djob_a := mkDjob consts_a deleg_mp 10 (mkMclient 0 [MSer Complete (map place_of deleg_inputs)] false).
Definition djob_b := mkDjob consts_a deleg_mp 10
  (mkMclient 64 [MSer PtrOffset (map place_of deleg_inputs); MOps [HClear]; MSer PureCopy [(TNamed 0, 8192)]] true).
Definition dthread_of (j : djob) : dthread := mkTask j deleg_mem d_reads 16 (djob_prog (P := demo) j).
Definition ddemo_start : dmachine := mkG deleg_mem [] (fun _ => None).
Definition ddemo_two : dmachine :=
  mkG deleg_mem [] (set_task (set_task (fun _ => None) 0%nat (Some (dthread_of djob_a))) 1%nat (Some (dthread_of djob_b))).
Lemma djob_fit : @cfg_ok demo /\ @lexer_ok ascii_lexer /\ @wf_env demo deleg_env /\ program_ok (at_memory deleg_mp) /\ delegates_well (P := demo) (at_memory deleg_mp) deleg_mem.
Proof. ands; [exact demo_cfg|exact ascii_lexer_ok|exact deleg_wf|exact deleg_mp_ok|exact deleg_mp_well]. Qed.
Lemma djob_a_ok : djob_ok (P := demo) (dthread_of djob_a).
Proof.
  split; [|split; reflexivity]. cbn [dthread_of tk_job tk_mem tk_reads djob_a d_consts d_prog d_fuel d_client].
  change (with_consts demo consts_a) with demo. destruct djob_fit as (F1 & F2 & F3 & F4 & F5). unfold dclient_ok. ands; auto; [apply ltc; vm_compute; reflexivity|].
  pose proof d_lent_ok as H. rewrite Forall_forall in H.
  constructor; [|constructor]. constructor; [|constructor; [|constructor]]; apply H; cbn; auto.
Qed.
Lemma djob_b_ok : djob_ok (P := demo) (dthread_of djob_b).
Proof.
  split; [|split; reflexivity]. cbn [dthread_of tk_job tk_mem tk_reads djob_b d_consts d_prog d_fuel d_client].
  change (with_consts demo consts_a) with demo. destruct djob_fit as (F1 & F2 & F3 & F4 & F5). unfold dclient_ok. ands; auto; [apply ltc; vm_compute; reflexivity|].
  pose proof d_lent_ok as H. rewrite Forall_forall in H. cbn [mc_phases].
  constructor; [|constructor; [|constructor; [|constructor]]].
  - constructor; [|constructor; [|constructor]]; apply H; cbn; auto.
  - split; [repeat constructor|intros x []].
  - constructor; [|constructor]. apply H. cbn. auto.
Qed.
Lemma ddemo_two_reachable : reachable (P := demo) (djob_ok (P := demo)) ddemo_two.
Proof.
  assert (H0 : reachable (P := demo) (djob_ok (P := demo)) ddemo_start).
  { apply R_start. split; [reflexivity|intros b []]. }
  assert (H1 : mstep (P := demo) (djob_ok (P := demo)) ddemo_start (mkG deleg_mem [] (set_task (fun _ => None) 0%nat (Some (dthread_of djob_a))))).
  { apply (MSpawn (P := demo) _ ddemo_start 0%nat (dthread_of djob_a)); [reflexivity|intros b []| |reflexivity|exact djob_a_ok].
    intros r x _ _ (b & i & [] & _). }
  eapply R_step; [eapply R_step; [exact H0|exact H1]|].
  apply (MSpawn (P := demo) _ (mkG deleg_mem [] (set_task (fun _ => None) 0%nat (Some (dthread_of djob_a)))) 1%nat (dthread_of djob_b));
    [reflexivity|intros b []| |reflexivity|exact djob_b_ok].
  intros r x _ _ (b & i & [] & _).
Qed.
(** Both threads finished.  The second has given its block back.  In the first's block, moved several times, are both values: the
    boxes point into the block, 99 is in those of the Hands, 7 in the Wraps. *)
Theorem C94_witness : exists st s,
  reachable (P := demo) (djob_ok (P := demo)) st /\
  (exists t, g_tasks st 0%nat = Some t /\ tk_job t = djob_a /\ tk_mem t = deleg_mem /\
     tk_prog t = Done (Ok [[(0, Some 0); (56, Some 56)]] s)) /\
  (exists t s', g_tasks st 1%nat = Some t /\ tk_job t = djob_b /\
     tk_prog t = Done (Ok [[(0, Some 0); (56, Some 56)]; [(0, Some 0)]] s')) /\
  g_live st = [mkBlk 2555904 128 16 (Some 0%nat)] /\ h_ptr (hz_h s) = 2555904 /\ h_pos (hz_h s) = 104 /\
  map (fun i => read_word (P := demo) (g_mem st) (2555904 + 8 * i)) [0; 1; 2; 3; 4; 5; 6; 7; 8; 9; 10; 11; 12] =
    (let b := 2555904 in map Some [b + 8; 11; b + 40; b + 48; 7; 21; 99; 11; b + 88; b + 96; 7; 21; 99]) /\
  repr (P := demo) deleg_env any_header (g_mem st) (TBox (TNamed 2)) (2555904 + 0) (VBox (VStruct [outer_val 11 21 99; VPrim 7])).
Proof.
  assert (H : match run_sched (P := demo) d_reads (PropMachine.demo_steps 35 5 0) ddemo_two with
    | Some st =>
        match g_tasks st 0%nat, g_tasks st 1%nat with
        | Some t0, Some t1 =>
            match tk_prog t0, tk_prog t1 with
            | Done (Ok r0 s), Done (Ok r1 _) =>
                (r0, r1, g_live st, h_ptr (hz_h s), h_pos (hz_h s),
                 map (fun i => read_word (P := demo) (g_mem st) (2555904 + 8 * i)) [0; 1; 2; 3; 4; 5; 6; 7; 8; 9; 10; 11; 12])
                = ([[(0, Some 0); (56, Some 56)]], [[(0, Some 0); (56, Some 56)]; [(0, Some 0)]],
                   [mkBlk 2555904 128 16 (Some 0%nat)], 2555904, 104,
                   (let b := 2555904 in map Some [b + 8; 11; b + 40; b + 48; 7; 21; 99; 11; b + 88; b + 96; 7; 21; 99]))
            | _, _ => False
            end
        | _, _ => False
        end
    | None => False
    end) by (vm_compute; reflexivity).
  destruct (run_sched (P := demo) d_reads (PropMachine.demo_steps 35 5 0) ddemo_two) as [st|] eqn:Er; [|contradiction].
  assert (HR : reachable (P := demo) (djob_ok (P := demo)) st).
  { apply (run_sched_reachable (P := demo) (djob_ok (P := demo)) d_reads (PropMachine.demo_steps 35 5 0) ddemo_two st ddemo_two_reachable); [|exact Er].
    intros j t r Hj Hr. cbn [ddemo_two g_tasks] in Hj. unfold set_task in Hj.
    destruct (Nat.eqb j 1); [injection Hj as <-; exact Hr|]. destruct (Nat.eqb j 0); [injection Hj as <-; exact Hr|discriminate]. }
  destruct (g_tasks st 0%nat) as [t0|] eqn:E0; [|contradiction]. destruct (g_tasks st 1%nat) as [t1|] eqn:E1; [|contradiction].
  destruct (tk_prog t0) as [[r0 s| | | |]| | | | | | |] eqn:P0; try contradiction.
  destruct (tk_prog t1) as [[r1 s1| | | |]| | | | | | |] eqn:P1; try contradiction.
  apply pair_equal_spec in H. destruct H as [H H9]. apply pair_equal_spec in H. destruct H as [H H8]. apply pair_equal_spec in H. destruct H as [H H7].
  apply pair_equal_spec in H. destruct H as [H H6]. apply pair_equal_spec in H. destruct H as [H1 H2].
  destruct (run_sched_keeps (P := demo) d_reads (PropMachine.demo_steps 35 5 0) ddemo_two st 0%nat (dthread_of djob_a) Er eq_refl) as (t0' & T1 & H3 & H5 & _).
  destruct (run_sched_keeps (P := demo) d_reads (PropMachine.demo_steps 35 5 0) ddemo_two st 1%nat (dthread_of djob_b) Er eq_refl) as (t1' & T2 & H4 & _).
  rewrite E0 in T1. injection T1 as <-. rewrite E1 in T2. injection T2 as <-. cbn [dthread_of tk_job tk_mem] in H3, H4, H5.
  exists st, s. subst r0 r1. split; [exact HR|]. split; [exists t0; auto|]. split; [exists t1, s1; auto|].
  do 4 (split; [assumption|]).
  pose proof (C94_values (P := demo) st 0%nat t0 _ s [] Complete deleg_inputs to_7_99 (fun _ _ => eq) HR E0 P0) as HO.
  rewrite H3, H5 in HO. specialize (HO eq_refl eq_refl).
  change (with_consts demo (d_consts djob_a)) with demo in HO. cbn [djob_a d_prog d_fuel] in HO.
  destruct HO as (r0 & outs & Q1 & Q2); [|exact deleg_mp_attains|reflexivity|].
  { pose proof d_inputs_ok as HI. unfold d_inputs in HI. apply Forall_app in HI. exact (proj1 HI). }
  assert (Hq : outs = [(0, Some 0); (56, Some 56)]).
  { destruct r0 as [|x [|y r0]]; cbn in Q1; inversion Q1; reflexivity. }
  subst outs. rewrite H7 in Q2. inversion Q2 as [|x o xs os HQ _]; subst. destruct (HQ 0 eq_refl) as (_ & v' & V1 & V2). cbn [fst snd] in V1, V2.
  destruct C92_hypotheses as (_ & _ & _ & _ & _ & _ & _ & _ & HU).
  rewrite (HU v' (same_turns _ _ _ V1)) in V2. exact V2.
Qed.
