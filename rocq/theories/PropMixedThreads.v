(** * PropMixedThreads: C85 — programs mixing derived, built-in and hand-written implementations, in any number of threads.

    As PropClients.v, for threads that serialize values of any types of a program (Mixed.v): each thread
    makes its storage, calls it, and serializes values with serializers made from it, one session after
    the other, panics being caught. *)
From Verif Require Import Base Types Storage ArithFacts TypeFacts StorageFacts StorageHist StorageProps Spec Serializer Serialize SerFacts SerValue SerMain SerRoot SerProps
  PropTree Client ClientSpec ClientFacts PropClient PropResume Derive DeriveSpec Mixed MixedFacts PropMixed MixedValid PropMixedValue PropMixedSession
  Prog ProgSer ProgClient ProgMixed Alone AloneSer Confined Machine MachineFacts Jobs ClientJobs MachineRun PropMachine PropClients MixedJobs.
From Coq Require Import Arith ZifyBool ZifyNat ZifyN.
Local Open Scope N_scope.

Notation mthread := (task mjob hz (list (list (N * option N)))).
Notation mmachine := (gstate mjob hz (list (list (N * option N)))).

(** No thread is ever about to do something undefined, and no two threads race. *)
Theorem C85_no_UB {P : Params} {L : Lexer} : forall (st : mmachine) i (t : mthread),
  reachable mjob_ok st -> g_tasks st i = Some t -> defined st i t.
Proof. intros st i t HR Ht. exact (invariant_defined mjob_ok mjob_safe st (reachable_invariant mjob_ok mjob_safe st HR) i t Ht). Qed.

Theorem C85_no_race {P : Params} {L : Lexer} : forall (st : mmachine), reachable mjob_ok st -> ~ data_race st.
Proof. intros st HR. exact (invariant_no_race mjob_ok mjob_safe st (reachable_invariant mjob_ok mjob_safe st HR)). Qed.

(** At every moment the next access of a thread is to its own block or (only to read) to the
    ranges it was lent, and these are as they were when the thread was started. *)
Theorem C85_touches {P : Params} {L : Lexer} : forall (st : mmachine) i (t : mthread) x writes,
  reachable mjob_ok st -> g_tasks st i = Some t -> accesses (tk_prog t) x writes ->
  (exists b, In b (g_live st) /\ b_own b = Some i /\ in_blk x b) \/
  (writes = false /\ exists r, In r (tk_reads t) /\ in_range x (fst r) (snd r)).
Proof.
  intros st i t x w HR Ht Ha.
  pose proof (C85_no_UB st i t HR Ht) as Hu. unfold defined, accesses in *.
  assert (Hown : forall a n, owns (g_live st) i a n -> in_range x a n -> exists b, In b (g_live st) /\ b_own b = Some i /\ in_blk x b).
  { intros a n [->|(b & B1 & B2 & B3 & B4)] Hx; [unfold in_range in Hx; lia|]. exists b. unfold in_blk, in_range in *. repeat split; auto; lia. }
  assert (Hrd : forall a n, within (tk_reads t) a n -> in_range x a n -> exists r, In r (tk_reads t) /\ in_range x (fst r) (snd r)).
  { intros a n [->|(r & R1 & R2 & R3)] Hx; [unfold in_range in Hx; lia|]. exists r. unfold in_range in *. repeat split; auto; lia. }
  destruct (tk_prog t) as [oc|size al k|addr old al new k|addr size al k|src dst n k|dst n data k|a n k|a n k] eqn:Ep; try contradiction.
  - destruct Ha as [Ha ->]. left. exists (mkBlk addr old al (Some i)). split; [apply Hu|split; [reflexivity|exact Ha]].
  - destruct Ha as [Ha ->]. left. exists (mkBlk addr size al (Some i)). split; [apply Hu|split; [reflexivity|exact Ha]].
  - destruct Hu as (U1 & U2 & _). destruct Ha as [[Ha ->]|[Ha ->]]; [right; split; [reflexivity|eauto]|left; eauto].
  - destruct Ha as [Ha ->]. left. eauto.
  - destruct Ha as [Ha ->]. right. split; [reflexivity|eauto].
  - destruct Ha as [Ha ->]. left. eauto.
Qed.

Theorem C85_inputs_unchanged {P : Params} {L : Lexer} : forall (st : mmachine) i (t : mthread) r x,
  reachable mjob_ok st -> g_tasks st i = Some t -> In r (tk_reads t) -> in_range x (fst r) (snd r) ->
  g_mem st x = tk_mem t x.
Proof.
  intros st i t r x HR Ht Hr Hx. destruct (reachable_invariant mjob_ok mjob_safe st HR) as (I1 & _).
  destruct (I1 i t Ht) as (p0 & ans & L0 & _ & _ & _ & H & _). eauto.
Qed.

Lemma mfinished {P : Params} {L : Lexer} : forall (st : mmachine) i (t : mthread),
  reachable mjob_ok st -> g_tasks st i = Some t ->
  exists o L0 p0, orc_ok (tk_al t) o /\ mirrors st i L0 /\ mjob_ok (with_prog t p0) /\
    same_outcomeq (mend_state (P := mjob_params (tk_job t) o) (j_client (tk_job t))) (same_ser (P := mjob_params (tk_job t) o))
      (alone (P := with_orc P o) (tk_mem t) (tk_prog t) L0)
      (run_mclient (P := mjob_params (tk_job t) o) (tk_mem t) (j_prog (tk_job t)) (j_sf (tk_job t)) (j_fuel (tk_job t)) (j_client (tk_job t)) z_new).
Proof.
  intros st i t HR Ht. destruct (reachable_invariant mjob_ok mjob_safe st HR) as (I1 & _).
  destruct (on_track_facts mjob_ok mjob_safe st i t (I1 i t Ht)) as (p0 & ans & L0 & F1 & F2 & F3 & F4 & F5 & F6 & F7 & F8).
  exists (recorded ans), L0, p0. pose proof (recorded_ok (tk_al t) ans F3) as Ho. split; [exact Ho|]. split; [exact F5|]. split; [exact F1|].
  rewrite <- F7. exact (mjob_alone (with_prog t p0) (recorded ans) F1 Ho).
Qed.

(** How a thread ends, whatever the panics of its implementations: it returns (and owns no block
    if it drops its storage), or its storage could not be made and it owns no block, or the
    process aborted because the allocator had no memory. *)
Theorem C85_ends {P : Params} {L : Lexer} : forall (st : mmachine) i (t : mthread) oc,
  reachable mjob_ok st -> g_tasks st i = Some t -> tk_prog t = Done oc ->
  match oc with
  | Ok r s => mc_drop (j_client (tk_job t)) = true -> forall b, In b (g_live st) -> b_own b <> Some i
  | Panic e s => e = PWithCapacity /\ cs_MAXC (j_consts (tk_job t)) < mc_cap (j_client (tk_job t)) /\
      forall b, In b (g_live st) -> b_own b <> Some i
  | Abort => True
  | UB | OutOfFuel => False
  end.
Proof.
  intros st i t oc HR Ht Hp. destruct (mfinished st i t HR Ht) as (o & L0 & p0 & Ho & Hm & Hj & Hs).
  rewrite Hp in Hs. pose proof Hj as (J1 & J2 & _). cbn [with_prog tk_job tk_mem tk_reads tk_al] in J1, J2.
  pose proof (mclient_ok_orc (with_consts P (j_consts (tk_job t))) o _ _ _ _ _ _ J1) as J1'. fold (mjob_params (tk_job t) o) in J1'.
  assert (HA : alloc_ok (P := mjob_params (tk_job t) o)) by (intros n size; rewrite J2 in Ho; exact (Ho n size)).
  pose proof (run_mclient_ends (P := mjob_params (tk_job t) o) (proj1 J1') HA _ _ _ _ _ _ J1') as He.
  unfold same_outcomeq in Hs.
  destruct oc as [r s|e s| | |]; cbn [alone] in Hs;
    destruct (run_mclient (P := mjob_params (tk_job t) o) _ _ _ _ _) as [r' z|e' z| | |] eqn:Er; try contradiction; auto.
  - destruct Hs as [<- Hs]. intros Hd. unfold mend_state in Hs. rewrite Hd in Hs.
    destruct Hs as (Z & _). destruct Hm as (M1 & _). intros b Hb Hob. destruct (M1 b Hb Hob). lia.
  - destruct Hs as [<- Hs]. destruct He as (-> & He & ->). split; [reflexivity|]. split; [exact He|].
    intros b Hb Hob. destruct Hm as (M1 & _). destruct (M1 b Hb Hob) as [_ Hz]. destruct Hs as ((_ & _ & _ & _ & _ & _ & E7 & _) & _).
    rewrite E7 in Hz. cbn in Hz. lia.
Qed.

(** A thread whose last session was with any serializer [k] has in its block, in the memory of the process, the
    whole image of every value whose serialize_value returned ([attempts]), as made by the calls [makes] says the value makes. *)
Theorem C85_output {P : Params} {L : Lexer} : forall (st : mmachine) i (t : mthread) r s phs k ys,
  let pg := at_memory (j_prog (tk_job t)) in
  let E := pr_env pg in
  reachable mjob_ok st -> g_tasks st i = Some t -> tk_prog t = Done (Ok r s) ->
  mc_phases (j_client (tk_job t)) = phs ++ [MSer k (map place_of ys)] -> mc_drop (j_client (tk_job t)) = false ->
  Forall (session_input (P := with_consts P (j_consts (tk_job t))) E (tk_mem t) (j_fuel (tk_job t))) ys ->
  exists r0 outs b rs, r = r0 ++ [outs] /\
    Forall2 (calls_of (P := with_consts P (j_consts (tk_job t))) pg (tk_mem t)) ys rs /\
    Forall (root_in (P := with_consts P (j_consts (tk_job t))) E (tk_mem t) (j_sf (tk_job t))) rs /\
    attempts (P := with_consts P (j_consts (tk_job t))) k E (tk_mem t)
      (seen k (g_mem st) (h_ptr (hz_h s))) (seen_at k (h_ptr (hz_h s))) b rs outs (h_pos (hz_h s)) /\
    owns (g_live st) i (h_ptr (hz_h s)) (h_pos (hz_h s)).
Proof.
  intros st i t r s phs k ys pg E HR Ht Hp Hk Hd Hys. destruct (mfinished st i t HR Ht) as (o & L0 & p0 & Ho & Hm & Hj & Hs).
  rewrite Hp in Hs. pose proof Hj as (J1 & J2 & _). cbn [with_prog tk_job tk_mem tk_reads tk_al] in J1, J2.
  pose proof (mclient_ok_orc (with_consts P (j_consts (tk_job t))) o _ _ _ _ _ _ J1) as J1'. fold (mjob_params (tk_job t) o) in J1'.
  assert (HA : alloc_ok (P := mjob_params (tk_job t) o)) by (intros n size; rewrite J2 in Ho; exact (Ho n size)).
  cbn [alone] in Hs. unfold same_outcomeq in Hs.
  destruct (run_mclient (P := mjob_params (tk_job t) o) _ _ _ _ _) as [r' z|e' z| | |] eqn:Er; try contradiction.
  destruct Hs as [<- Hs]. unfold mend_state in Hs. rewrite Hd in Hs. destruct Hs as (Hs & _).
  destruct (run_mclient_last (P := mjob_params (tk_job t) o) (proj1 J1') HA _ _ _ _ _ _ _ _ _ _ _ J1' Hk Hd Er) as (r0 & outs & w & -> & W1 & W2).
  destruct J1' as (C & LO & HE & PO & WB & _ & _).
  destruct J1 as (C1 & _ & HE1 & PO1 & WB1 & _ & _).
  destruct (mixed_is_session (P := with_consts P (j_consts (tk_job t))) pg k (tk_mem t) (j_sf (tk_job t)) (j_fuel (tk_job t)) ys C1 LO HE1 PO1 WB1 Hys)
    as (rs & R1 & R2 & _).
  assert (Hys' : Forall (session_input (P := mjob_params (tk_job t) o) E (tk_mem t) (j_fuel (tk_job t))) ys).
  { eapply Forall_impl; [|exact Hys]. intros x. apply (input_orc (with_consts P (j_consts (tk_job t))) o). }
  destruct (mixed_is_session (P := mjob_params (tk_job t) o) pg k (tk_mem t) (j_sf (tk_job t)) (j_fuel (tk_job t)) ys C LO HE PO WB Hys')
    as (rs' & R1' & R2' & R3').
  assert (Hrs : rs' = rs).
  { clear - R1 R1' LO PO. revert rs' R1'. induction R1 as [|[[u a] v] [[l a1] ss] ys rs Hc R1 IH]; intros rs' R1'; inversion R1' as [|x [[l2 a2] ss2] ys' rs2 Hc' R2']; subst; [reflexivity|].
    rewrite (IH _ R2'). destruct Hc as (-> & -> & Hc). destruct Hc' as (-> & -> & Hc').
    apply (makes_params (with_consts P (j_consts (tk_job t))) (mjob_params (tk_job t) o) eq_refl eq_refl) in Hc.
    pose proof (proj1 (makes_unique (P := mjob_params (tk_job t) o) pg (tk_mem t) LO PO) u a _ Hc _ Hc') as <-. reflexivity. }
  subst rs'. rewrite R3' in W2.
  pose proof (session_done (P := mjob_params (tk_job t) o) k (pr_env pg) (tk_mem t) (j_sf (tk_job t)) rs w C HA HE W1 R2') as H.
  rewrite W2 in H. cbv zeta in H. destruct H as (H1 & H2 & H3 & _).
  destruct Hs as (E1 & E2 & E3 & E4 & E5 & E6 & E7 & E8).
  pose proof (ok_pos_le (P := mjob_params (tk_job t) o) _ H2) as Hpos.
  exists r0, outs, (s_pos (sw_s w)), rs. split; [reflexivity|]. split; [exact R1|]. split; [exact R2|]. rewrite E1, E3. split.
  - apply (attempts_params (mjob_params (tk_job t) o) (with_consts P (j_consts (tk_job t)))); try reflexivity.
    change (seen_at k (s_ptr (sw_s (z_sw z)))) with (read_base k (z_sw z)). apply H1.
    intros n Hn. destruct (E8 ltac:(lia)) as [A1 _]. rewrite <- E4. destruct Hm as (_ & _ & M3). rewrite <- M3 by (rewrite E7; lia). rewrite A1.
    destruct k; reflexivity.
  - destruct (N.eq_dec (s_pos (sw_s (z_sw z))) 0) as [Z|Z]; [left; exact Z|right].
    exists (mkBlk (lc_base L0) (lc_size L0) (lc_al L0) (Some i)). destruct Hm as (_ & M2 & _).
    destruct (E8 ltac:(lia)) as [A1 _].
    split; [apply M2; lia|]. split; [reflexivity|]. cbn. rewrite A1, E7. lia.
Qed.

(** If its last session was with a pointer-writing serializer, every value whose serialize_value returned can be
    read, whole, from the thread's block (a Complete output where it is, in the memory of the process), the parts
    implemented by hand turned into what they are meant to be ([values_in]); whatever panicked before or after it and
    whatever other threads do. *)
Theorem C85_values {P : Params} {L : Lexer} : forall (st : mmachine) i (t : mthread) r s phs k ys by_hand by_proxy,
  let pg := at_memory (j_prog (tk_job t)) in
  reachable mjob_ok st -> g_tasks st i = Some t -> tk_prog t = Done (Ok r s) ->
  mc_phases (j_client (tk_job t)) = phs ++ [MSer k (map place_of ys)] -> mc_drop (j_client (tk_job t)) = false ->
  Forall (session_input (P := with_consts P (j_consts (tk_job t))) (pr_env pg) (tk_mem t) (j_fuel (tk_job t))) ys ->
  all_achieve (P := with_consts P (j_consts (tk_job t))) pg by_hand by_proxy k (tk_mem t) -> tracking k = true ->
  exists r0 outs b, r = r0 ++ [outs] /\
    values_in (P := with_consts P (j_consts (tk_job t))) pg by_hand by_proxy (tk_mem t)
      (seen k (g_mem st) (h_ptr (hz_h s))) (seen_at k (h_ptr (hz_h s))) b ys outs (h_pos (hz_h s)).
Proof.
  intros st i t r s phs k ys bh bp pg HR Ht Hp Hk Hd Hys HT HTr.
  destruct (C85_output st i t r s phs k ys HR Ht Hp Hk Hd Hys) as (r0 & outs & b & rs & O1 & O2 & O3 & O4 & _).
  exists r0, outs, b. split; [exact O1|].
  destruct (mfinished st i t HR Ht) as (o & L0 & p0 & _ & _ & ((C & LO & HE & PO & WB & _) & _) & _).
  cbn [with_prog tk_job tk_mem] in C, HE, PO, WB.
  exact (values_of_attempts (P := with_consts P (j_consts (tk_job t))) pg bh bp k (tk_mem t) (j_sf (tk_job t)) (j_fuel (tk_job t)) _ _ _ ys rs outs _ C LO HE PO WB HT HTr Hys O2 O3 O4).
Qed.

(** A thread that is not finished can go on, whatever the others did. *)
Theorem C85_not_stuck {P : Params} {L : Lexer} : forall (st : mmachine) i (t : mthread),
  reachable mjob_ok st -> g_tasks st i = Some t ->
  (exists oc, tk_prog t = Done oc) \/ exists m' live' p', tstep st i (tk_reads t) (tk_prog t) m' live' p'.
Proof.
  intros st i t HR Ht. pose proof (C85_no_UB st i t HR Ht) as D. unfold defined in D.
  destruct (tk_prog t) as [oc|size al k|addr old al new k|addr size al k|src dst n k|dst n data k|a n k|a n k];
    [left; eauto|right|right|right|right|right|right|right]; do 3 eexists.
  - apply TRefused; apply D.
  - apply TReRefused; apply D.
  - apply TDealloc; [exact D|]. intros x _. reflexivity.
  - apply TCopy; [apply D|apply D|]. intros x. reflexivity.
  - apply TStore; [exact D|]. intros x. reflexivity.
  - apply TLoad. exact D.
  - apply TRead. exact D.
Qed.

(** ** A concrete execution

    The program of C83 (an Outer is derived, one of its fields goes through a proxy, another is a Hand, implemented by
    hand, whose impl panics if the number in its box is 13).  Two threads read the same values: the first
    serializes an Outer, a Hand whose impl panics, a Vec of Outers the second of which makes it panic, and
    another Hand, with CompleteSerializer; the second the Vec and the Outer with PtrOffsetSerializer, then
    clears the storage, serializes the Outer with PureCopySerializer and drops the storage.  Their
    instructions alternate. *)
From Coq Require Import String.
From Verif Require Import MemFacts PropStorage PropSerialize Demo WitnessSerialize WitnessDerive.
#[local] Existing Instance ascii_lexer.
Definition unlucky_reader (a : N) : reader (list step) :=
  RLoad a 8 (fun c => match read_word (P := demo) (mem_of c) 0 with
    | Some p => RLoad p 8 (fun c' => RDone (SPush 0 u64_layout p 1 [SOver 0 u64_layout (bytes_src (w64 99))] ::
        match read_int (P := demo) (mem_of c') 0 8 with Some n => if n =? 13 then [SPanic] else [] | None => [] end))
    | None => RDone []
    end).
Definition proxy_reader (a : N) : reader (list step) :=
  RLoad a 8 (fun c => RDone (match read_word (P := demo) (mem_of c) 0 with Some p => [SPushPlain 0 u64_layout p 1] | None => [] end)).
Definition unlucky_mp : mprogram := {|
  mp_env := mixed_env;
  mp_derived := fun id => match id with 0%nat => Some outer_decl | _ => None end;
  mp_hand := fun id => match id with 1%nat => Some unlucky_reader | _ => None end;
  mp_with := fun _ _ => proxy_reader |}.
Lemma unlucky_same m a : read_all m (unlucky_reader a) = unlucky_impl m a.
Proof.
  unfold unlucky_reader, unlucky_impl. cbn [read_all]. unfold read_word. change (@pW demo) with 8. rewrite (read_cells (P := demo) m a 8 8) by lia.
  destruct (@read_int demo m a 8) as [p|]; [|reflexivity]. cbn [read_all]. rewrite (read_cells (P := demo) m p 8 8) by lia. reflexivity.
Qed.
Lemma proxy_same m a : read_all m (proxy_reader a) = proxy_impl m a.
Proof.
  unfold proxy_reader, proxy_impl. cbn [read_all]. unfold read_word. change (@pW demo) with 8. rewrite (read_cells (P := demo) m a 8 8) by lia. reflexivity.
Qed.

Definition m_reads : list (N * N) := [(4096, 24); (8192, 48); (12288, 32)].
Definition mjob_a := mkMjob consts_a unlucky_mp 0 10 (mkMclient 0 [MSer Complete (map place_of unlucky_inputs)] false).
Definition mjob_b := mkMjob consts_a unlucky_mp 0 10
  (mkMclient 64 [MSer PtrOffset [(TVec CPL (TNamed 0), 4096); (TNamed 0, 8192)]; MOps [HClear]; MSer PureCopy [(TNamed 0, 8192)]] true).
Definition mthread_of (j : mjob) : mthread := mkTask j unlucky_mem m_reads 16 (mjob_prog (P := demo) j).
Definition mdemo_start : mmachine := mkG unlucky_mem [] (fun _ => None).
Definition mdemo_two : mmachine :=
  mkG unlucky_mem [] (set_task (set_task (fun _ => None) 0%nat (Some (mthread_of mjob_a))) 1%nat (Some (mthread_of mjob_b))).

Lemma unlucky_program_ok : program_ok (at_memory unlucky_mp).
Proof. destruct C83_hypotheses as (PO & _). intros [|[|id]] d H; [exact (PO 0%nat d H)|exact Logic.I|discriminate]. Qed.
Lemma unlucky_behaved : well_behaved (P := demo) (at_memory unlucky_mp) unlucky_mem 0.
Proof.
  destruct C83_hypotheses as (_ & (W1 & W2) & _). split.
  - intros [|[|id]] h H; unfold impl_for in H; cbn in H; try discriminate.
    assert (Hh : h = fun m a => read_all m (unlucky_reader a)) by (injection H as <-; reflexivity). clear H. subst h.
    intros a v Hr Ha. cbv beta. rewrite unlucky_same. exact (W1 1%nat _ eq_refl a v Hr Ha).
  - intros w t Hx a v Hr Ha. change (pr_with (at_memory unlucky_mp) w t unlucky_mem a) with (read_all unlucky_mem (proxy_reader a)). rewrite proxy_same.
    refine (W2 w t _ a v Hr Ha). destruct Hx as (id & i & l & fs & dfs & n & f & off & H1 & H2). exists id, i, l, fs, dfs, n, f, off. split; [|exact H2].
    destruct id as [|[|id]]; [exact H1|discriminate H1|discriminate H1].
Qed.
Lemma unlucky_achieves : all_achieve (P := demo) (at_memory unlucky_mp) to_99 (fun _ _ => eq) Complete unlucky_mem.
Proof.
  destruct C83_hypotheses as (_ & _ & (W1 & W2) & _). split.
  - intros [|[|id]] h H; unfold impl_for in H; cbn in H; try discriminate.
    assert (Hh : h = fun m a => read_all m (unlucky_reader a)) by (injection H as <-; reflexivity). clear H. subst h.
    intros a v Mo B p cur Hr Ha HR. cbv beta in HR. rewrite unlucky_same in HR. exact (W1 1%nat _ eq_refl a v Mo B p cur Hr Ha HR).
  - intros w t Hx a v Mo B p cur Hr Ha HR. change (pr_with (at_memory unlucky_mp) w t unlucky_mem a) with (read_all unlucky_mem (proxy_reader a)) in HR. rewrite proxy_same in HR.
    refine (W2 w t _ a v Mo B p cur Hr Ha HR). destruct Hx as (id & i & l & fs & dfs & n & f & off & H1 & H2). exists id, i, l, fs, dfs, n, f, off. split; [|exact H2].
    destruct id as [|[|id]]; [exact H1|discriminate H1|discriminate H1].
Qed.

(** All they read is lent to them. *)
Lemma m_within a n : within_b m_reads a n = true -> within m_reads a n.
Proof. apply within_b_spec. Qed.
Lemma hand_lent a p : read_word (P := demo) unlucky_mem a = Some p -> within m_reads a 8 -> within m_reads p 8 ->
  impl_lent (P := demo) unlucky_mp unlucky_mem m_reads 0 (unlucky_reader a) a.
Proof.
  intros Hp H1 H2. split.
  - unfold unlucky_reader. cbn [reader_lent]. split; [exact H1|].
    assert (Hc : read_word (P := demo) (mem_of (cells unlucky_mem a 8)) 0 = Some p).
    { rewrite <- Hp. unfold read_word. change (@pW demo) with 8. apply (read_cells (P := demo)). lia. }
    rewrite Hc. cbn [reader_lent]. auto.
  - rewrite unlucky_same. unfold unlucky_impl. rewrite Hp.
    apply Forall_cons; [cbn [step_lent u64_layout l_size]; split; [exact H2|auto]|].
    destruct (read_int (P := demo) unlucky_mem p 8) as [n|]; [|constructor]. destruct (n =? 13); constructor; [exact Logic.I|constructor].
Qed.
Lemma proxy_lent a p : read_word (P := demo) unlucky_mem a = Some p -> within m_reads a 8 -> within m_reads p 8 ->
  impl_lent (P := demo) unlucky_mp unlucky_mem m_reads 0 (proxy_reader a) a.
Proof.
  intros Hp H1 H2. split; [split; [exact H1|exact Logic.I]|].
  rewrite proxy_same. unfold proxy_impl. rewrite Hp. constructor; [exact H2|constructor].
Qed.
Lemma outer_lent f a p q : read_word (P := demo) unlucky_mem (a + 8) = Some p -> read_word (P := demo) unlucky_mem (a + 16) = Some q ->
  within m_reads a 24 -> within m_reads p 8 -> within m_reads q 8 ->
  mx_lent (P := demo) unlucky_mp unlucky_mem m_reads 0 (S (S f)) (TNamed 0) a.
Proof.
  intros Hp Hq H1 H2 H3. cbn [mx_lent unlucky_mp mp_hand mp_derived mp_env mixed_env t_outer]. unfold derived_lent.
  assert (G : exists w, generated outer_decl None = Some [(CSerialize, 0%nat); (CWith w, 1%nat); (CSerialize, 2%nat)]) by (eexists; vm_compute; reflexivity).
  destruct G as (w & ->). cbn [calls_lent nth_error]. ands.
  - exact Logic.I.
  - change (impl_lent (P := demo) unlucky_mp unlucky_mem m_reads 0 (proxy_reader (a + 8)) (a + 8)).
    apply (proxy_lent _ p); auto. eapply within_sub; [| |exact H1]; lia.
  - apply (hand_lent _ q); auto. eapply within_sub; [| |exact H1]; lia.
  - exact Logic.I.
Qed.
Lemma hand_value f a p : read_word (P := demo) unlucky_mem a = Some p -> within m_reads a 8 -> within m_reads p 8 ->
  mx_lent (P := demo) unlucky_mp unlucky_mem m_reads 0 (S f) (TNamed 1) a.
Proof. intros Hp H1 H2. cbn [mx_lent unlucky_mp mp_hand]. exact (hand_lent a p Hp H1 H2). Qed.
Lemma vec_lent f vl t a len p : read_word (P := demo) unlucky_mem (a + len_off (P := demo) vl) = Some len -> read_word (P := demo) unlucky_mem (a + ptr_off (P := demo) vl) = Some p ->
  within m_reads p (size_of (P := demo) mixed_env t * len) ->
  elems_lent (N.to_nat len) p (size_of (P := demo) mixed_env t) (mx_lent (P := demo) unlucky_mp unlucky_mem m_reads 0 f t) ->
  mx_lent (P := demo) unlucky_mp unlucky_mem m_reads 0 (S f) (TVec vl t) a.
Proof. intros H1 H2 H3 H4. cbn [mx_lent unlucky_mp mp_env]. intros _. exists len, p. auto. Qed.
Ltac inm := apply m_within; vm_compute; reflexivity.

Lemma unlucky_inputs_ok : Forall (minput_ok (P := demo) unlucky_mp unlucky_mem m_reads 0 10) (map place_of unlucky_inputs).
Proof.
  destruct C83_hypotheses as (_ & _ & _ & HI). unfold unlucky_inputs in *.
  inversion HI as [|? ? I1 HI1]; subst. inversion HI1 as [|? ? I2 HI2]; subst. inversion HI2 as [|? ? I3 HI3]; subst. inversion HI3 as [|? ? I4 _]; subst.
  cbn [map place_of fst]. unfold minput_ok. repeat apply Forall_cons; [..|apply Forall_nil].
  - split; [exists outer_1; exact I1|]. split; [inm|]. apply (outer_lent 8 8192 12288 12296); [rd|rd|inm|inm|inm].
  - split; [eexists; exact I2|]. split; [inm|]. apply (hand_value 9 8232 12312); [rd|inm|inm].
  - split; [eexists; exact I3|]. split; [inm|]. apply (vec_lent 9 CPL (TNamed 0) 4096 2 8192); [rd|rd|inm|].
    change (N.to_nat 2) with 2%nat. cbn [elems_lent]. change (8192 + size_of (P := demo) mixed_env (TNamed 0)) with 8216. ands.
    + apply (outer_lent 7 8192 12288 12296); [rd|rd|inm|inm|inm].
    + apply (outer_lent 7 8216 12304 12312); [rd|rd|inm|inm|inm].
    + exact Logic.I.
  - split; [eexists; exact I4|]. split; [inm|]. apply (hand_value 9 8208 12296); [rd|inm|inm].
Qed.
Lemma mjob_fit : @cfg_ok demo /\ @lexer_ok ascii_lexer /\ @wf_env demo mixed_env /\ program_ok (at_memory unlucky_mp) /\ well_behaved (P := demo) (at_memory unlucky_mp) unlucky_mem 0.
Proof. ands; [exact demo_cfg|exact ascii_lexer_ok|exact mixed_env_wf|exact unlucky_program_ok|exact unlucky_behaved]. Qed.
Lemma mjob_a_ok : mjob_ok (P := demo) (mthread_of mjob_a).
Proof.
  split; [|split; reflexivity]. cbn [mthread_of tk_job tk_mem tk_reads mjob_a j_consts j_prog j_sf j_fuel j_client].
  change (with_consts demo consts_a) with demo. destruct mjob_fit as (F1 & F2 & F3 & F4 & F5). unfold mclient_ok. ands; auto; [apply ltc; vm_compute; reflexivity|].
  constructor; [exact unlucky_inputs_ok|constructor].
Qed.
Lemma mjob_b_ok : mjob_ok (P := demo) (mthread_of mjob_b).
Proof.
  split; [|split; reflexivity]. cbn [mthread_of tk_job tk_mem tk_reads mjob_b j_consts j_prog j_sf j_fuel j_client].
  change (with_consts demo consts_a) with demo. destruct mjob_fit as (F1 & F2 & F3 & F4 & F5). unfold mclient_ok. ands; auto; [apply ltc; vm_compute; reflexivity|].
  pose proof unlucky_inputs_ok as H. rewrite Forall_forall in H. cbn [mc_phases].
  constructor; [|constructor; [|constructor; [|constructor]]].
  - constructor; [|constructor; [|constructor]]; apply H; cbn; auto.
  - split; [repeat constructor|intros x []].
  - constructor; [|constructor]. apply H. cbn. auto.
Qed.
Lemma mdemo_two_reachable : reachable (P := demo) (mjob_ok (P := demo)) mdemo_two.
Proof.
  assert (H0 : reachable (P := demo) (mjob_ok (P := demo)) mdemo_start).
  { apply R_start. split; [reflexivity|intros b []]. }
  assert (H1 : mstep (P := demo) (mjob_ok (P := demo)) mdemo_start (mkG unlucky_mem [] (set_task (fun _ => None) 0%nat (Some (mthread_of mjob_a))))).
  { apply (MSpawn (P := demo) _ mdemo_start 0%nat (mthread_of mjob_a)); [reflexivity|intros b []| |reflexivity|exact mjob_a_ok].
    intros r x _ _ (b & i & [] & _). }
  eapply R_step; [eapply R_step; [exact H0|exact H1]|].
  apply (MSpawn (P := demo) _ (mkG unlucky_mem [] (set_task (fun _ => None) 0%nat (Some (mthread_of mjob_a)))) 1%nat (mthread_of mjob_b));
    [reflexivity|intros b []| |reflexivity|exact mjob_b_ok].
  intros r x _ _ (b & i & [] & _).
Qed.
(** Both threads finished.  The second has given its block back.  In the first's block, moved several times, are the
    values of the two calls that returned: their boxes point into the block, 99 is in those of the Hands. *)
Theorem C85_witness : exists st s,
  reachable (P := demo) (mjob_ok (P := demo)) st /\
  (exists t, g_tasks st 0%nat = Some t /\ tk_job t = mjob_a /\ tk_mem t = unlucky_mem /\
     tk_prog t = Done (Ok [[(0, Some 0); (40, None); (56, None); (160, Some 160)]] s)) /\
  (exists t s', g_tasks st 1%nat = Some t /\ tk_job t = mjob_b /\
     tk_prog t = Done (Ok [[(0, None); (104, Some 104)]; [(0, Some 0)]] s')) /\
  g_live st = [mkBlk 3473408 256 16 (Some 0%nat)] /\ h_ptr (hz_h s) = 3473408 /\ h_pos (hz_h s) = 176 /\
  map (fun i => read_word (P := demo) (g_mem st) (3473408 + i)) [0; 8; 16; 24; 32; 160; 168] =
    map Some [11; 3473408 + 24; 3473408 + 32; 21; 99; 3473408 + 168; 99] /\
  exists b, values_in (P := demo) (at_memory unlucky_mp) to_99 (fun _ _ => eq) unlucky_mem (g_mem st) 3473408 b unlucky_inputs
    [(0, Some 0); (40, None); (56, None); (160, Some 160)] 176.
Proof.
  assert (H : match run_sched (P := demo) m_reads (PropMachine.demo_steps 37 19 0) mdemo_two with
    | Some st =>
        match g_tasks st 0%nat, g_tasks st 1%nat with
        | Some t0, Some t1 =>
            match tk_prog t0, tk_prog t1 with
            | Done (Ok r0 s), Done (Ok r1 _) =>
                (r0, r1, g_live st, h_ptr (hz_h s), h_pos (hz_h s), map (fun i => read_word (P := demo) (g_mem st) (3473408 + i)) [0; 8; 16; 24; 32; 160; 168])
                = ([[(0, Some 0); (40, None); (56, None); (160, Some 160)]], [[(0, None); (104, Some 104)]; [(0, Some 0)]],
                   [mkBlk 3473408 256 16 (Some 0%nat)], 3473408, 176, map Some [11; 3473408 + 24; 3473408 + 32; 21; 99; 3473408 + 168; 99])
            | _, _ => False
            end
        | _, _ => False
        end
    | None => False
    end) by (vm_compute; reflexivity).
  destruct (run_sched (P := demo) m_reads (PropMachine.demo_steps 37 19 0) mdemo_two) as [st|] eqn:Er; [|contradiction].
  assert (HR : reachable (P := demo) (mjob_ok (P := demo)) st).
  { apply (run_sched_reachable (P := demo) (mjob_ok (P := demo)) m_reads (PropMachine.demo_steps 37 19 0) mdemo_two st mdemo_two_reachable); [|exact Er].
    intros j t r Hj Hr. cbn [mdemo_two g_tasks] in Hj. unfold set_task in Hj.
    destruct (Nat.eqb j 1); [injection Hj as <-; exact Hr|]. destruct (Nat.eqb j 0); [injection Hj as <-; exact Hr|discriminate]. }
  destruct (g_tasks st 0%nat) as [t0|] eqn:E0; [|contradiction]. destruct (g_tasks st 1%nat) as [t1|] eqn:E1; [|contradiction].
  destruct (tk_prog t0) as [[r0 s| | | |]| | | | | | |] eqn:P0; try contradiction.
  destruct (tk_prog t1) as [[r1 s1| | | |]| | | | | | |] eqn:P1; try contradiction.
  apply pair_equal_spec in H. destruct H as [H H9]. apply pair_equal_spec in H. destruct H as [H H8]. apply pair_equal_spec in H. destruct H as [H H7].
  apply pair_equal_spec in H. destruct H as [H H6]. apply pair_equal_spec in H. destruct H as [H1 H2].
  destruct (run_sched_keeps (P := demo) m_reads (PropMachine.demo_steps 37 19 0) mdemo_two st 0%nat (mthread_of mjob_a) Er eq_refl) as (t0' & T1 & H3 & H5 & _).
  destruct (run_sched_keeps (P := demo) m_reads (PropMachine.demo_steps 37 19 0) mdemo_two st 1%nat (mthread_of mjob_b) Er eq_refl) as (t1' & T2 & H4 & _).
  rewrite E0 in T1. injection T1 as <-. rewrite E1 in T2. injection T2 as <-. cbn [mthread_of tk_job tk_mem] in H3, H4, H5.
  exists st, s. subst r0 r1. split; [exact HR|]. split; [exists t0; auto|]. split; [exists t1, s1; auto|].
  do 4 (split; [assumption|]).
  pose proof (C85_values (P := demo) st 0%nat t0 _ s [] Complete unlucky_inputs to_99 (fun _ _ => eq) HR E0 P0) as HO.
  rewrite H3, H5 in HO. specialize (HO eq_refl eq_refl).
  change (with_consts demo (j_consts mjob_a)) with demo in HO. cbn [mjob_a j_prog j_fuel] in HO.
  destruct HO as (r0 & outs & b & Q1 & Q2); [apply C83_hypotheses|exact unlucky_achieves|reflexivity|].
  assert (Hq : outs = [(0, Some 0); (40, None); (56, None); (160, Some 160)]).
  { destruct r0 as [|x [|y r0]]; cbn in Q1; inversion Q1; reflexivity. }
  subst outs. exists b. rewrite H7, H8 in Q2. exact Q2.
Qed.
