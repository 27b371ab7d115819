(** * PropMachine: C69, C70 — serializers at work in one process.

    Every statement is about all reachable states of the machine of Machine.v: any number of
    threads, any schedule, any behaviour of the allocator and of the rest of the process, storage
    constants differing from thread to thread.  What each thread does: a [job] (Jobs.v). *)
From Verif Require Import Base Types Storage StorageFacts StorageHist StorageProps Spec Serializer Serialize SerFacts SerValue SerMain SerRoot SerProps
  PropTree Prog ProgSer Alone AloneSer Confined Machine MachineFacts Jobs MachineRun.
From Coq Require Import Arith ZifyBool ZifyNat ZifyN.
Local Open Scope N_scope.

Notation thread := (task job hz (option (list N))).
Notation machine := (gstate job hz (option (list N))).

(** ** C69: nothing is touched but the input and the own buffer *)

(** At every moment the next access of a thread is to its own block or (only to read) to the
    ranges it was started with. *)
Theorem C69_touches {P : Params} : forall (st : machine) i (t : thread) x writes,
  reachable job_ok st -> g_tasks st i = Some t -> accesses (tk_prog t) x writes ->
  (exists b, In b (g_live st) /\ b_own b = Some i /\ in_blk x b) \/
  (writes = false /\ exists r, In r (tk_reads t) /\ in_range x (fst r) (snd r)).
Proof.
  intros st i t x w HR Ht Ha. pose proof (reachable_invariant job_ok job_safe st HR) as HI.
  pose proof (invariant_defined job_ok job_safe st HI i t Ht) as Hu. clear HI. unfold defined, accesses in *.
  assert (Hown : forall a n, owns (g_live st) i a n -> in_range x a n -> exists b, In b (g_live st) /\ b_own b = Some i /\ in_blk x b).
  { intros a n [->|(b & B1 & B2 & B3 & B4)] Hx; [unfold in_range in Hx; lia|]. exists b. unfold in_blk, in_range in *. repeat split; auto; lia. }
  assert (Hrd : forall a n, within (tk_reads t) a n -> in_range x a n -> exists r, In r (tk_reads t) /\ in_range x (fst r) (snd r)).
  { intros a n [->|(r & R1 & R2 & R3)] Hx; [unfold in_range in Hx; lia|]. exists r. unfold in_range in *. repeat split; auto; lia. }
  destruct (tk_prog t) as [oc|size al k|addr old al new k|addr size al k|src dst n k|dst n data k|a n k|a n k] eqn:Ep; try contradiction.
  - destruct Ha as [Ha ->]. left. exists (mkBlk addr old al (Some i)). split; [apply Hu|split; [reflexivity|exact Ha]].
  - destruct Ha as [Ha ->]. left. exists (mkBlk addr size al (Some i)). split; [apply Hu|split; [reflexivity|exact Ha]].
  - destruct Hu as (U1 & U2 & _). destruct Ha as [[Ha ->]|[Ha ->]]; [right; split; [reflexivity|eauto]|left; eauto].
  - destruct Ha as [Ha ->]. left. eauto.
  - destruct Ha as [Ha ->]. right. split; [reflexivity|eauto].
  - destruct Ha as [Ha ->]. left. eauto.
Qed.

(** To serialize values it is enough to be lent the values and what they own: such a thread may
    be started with just these ranges. *)
Theorem C69_lent {P : Params} : forall c E fuel m k (xs : list item) cap drop,
  cfg_ok (P := with_consts P c) -> wf_env (P := with_consts P c) E -> cap < umod ->
  Forall (fun '(t, a, v) => valid_input (P := with_consts P c) E any_header m t a v /\ (vdepth v < fuel)%nat) xs ->
  exists bs,
    (forall r, In r bs -> exists t a v ps, In (t, a, v) xs /\ root_places (P := P) E m fuel t a = Some ps /\ In r ps) /\
    job_ok (mkTask (mkJob c E fuel (mkClient cap [] (Some (k, map it_in xs)) drop)) m bs (cs_SA c)
              (job_prog (mkJob c E fuel (mkClient cap [] (Some (k, map it_in xs)) drop)))).
Proof.
  intros c E fuel m k xs cap drop C HE Hc Hxs.
  assert (HW : 0 < pW (Params := with_consts P c)) by (destruct C as [[Hw|Hw] _]; lia).
  assert (H : exists bs, (forall r, In r bs -> exists t a v ps, In (t, a, v) xs /\ root_places (P := P) E m fuel t a = Some ps /\ In r ps) /\
    Forall (value_ok (P := with_consts P c) E fuel m bs) xs).
  { clear Hc. induction Hxs as [|[[t a] v] xs [(V1 & V2 & V3) V4] Hxs (bs & B1 & B2)].
    - exists []. split; [intros r []|constructor].
    - assert (Hp : exists ps, root_places (P := with_consts P c) E m fuel t a = Some ps).
      { unfold root_places. destruct (_ =? 0); [eauto|].
        destruct (repr_places (P := with_consts P c) E HE HW any_header m fuel t a v V3 V1 V4) as (ps & -> & _). cbn. eauto. }
      destruct Hp as (ps & Hp). exists (ps ++ bs). split.
      + intros r Hr. apply in_app_iff in Hr. destruct Hr as [Hr|Hr].
        * exists t, a, v, ps. split; [left; reflexivity|]. split; [exact Hp|exact Hr].
        * destruct (B1 r Hr) as (t' & a' & v' & ps' & K1 & K2). exists t', a', v', ps'. split; [right; exact K1|exact K2].
      + constructor.
        * split; [split; auto|]. split; [exact V4|]. exists ps. split; [exact Hp|]. apply incl_appl, incl_refl.
        * eapply Forall_impl; [|exact B2]. intros [[t' a'] v'] (A1 & A2 & ps' & A3 & A4). split; [exact A1|]. split; [exact A2|].
          exists ps'. split; [exact A3|]. apply incl_appr. exact A4. }
  destruct H as (bs & B1 & B2). exists bs. split; [exact B1|]. split; [|split; reflexivity]. cbn.
  split; [exact C|]. split; [exact HE|]. split; [exact Hc|]. split; [constructor|]. split; [intros x []|]. exists xs. auto.
Qed.

(** ** C70: any number of serializers at once *)

(** No thread is ever about to do something undefined: every call of the allocator keeps to
    its contract, every access is to memory the thread owns or was lent, copies do not overlap. *)
Theorem C70_no_UB {P : Params} : forall (st : machine) i (t : thread),
  reachable job_ok st -> g_tasks st i = Some t -> defined st i t.
Proof. intros st i t HR Ht. exact (invariant_defined job_ok job_safe st (reachable_invariant job_ok job_safe st HR) i t Ht). Qed.

(** Two threads never are about to access the same byte, one of them writing. *)
Theorem C70_no_race {P : Params} : forall (st : machine), reachable job_ok st -> ~ data_race st.
Proof. intros st HR. exact (invariant_no_race job_ok job_safe st (reachable_invariant job_ok job_safe st HR)). Qed.

(** The blocks of threads share no memory with any other block nor with any input. *)
Theorem C70_separate {P : Params} : forall (st : machine) b b' i x,
  reachable job_ok st -> In b (g_live st) -> b_own b = Some i -> in_blk x b ->
  (In b' (g_live st) -> in_blk x b' -> b' = b) /\ ~ read_by_task st x.
Proof.
  intros st b b' i x HR Hb Ho Hx. destruct (reachable_invariant job_ok job_safe st HR) as (_ & _ & I3 & I4). split.
  - intros Hb' Hx'. symmetry. eapply I3; eauto.
  - apply I4. exists b, i. auto.
Qed.

(** The input of a thread stays as it was when the thread was started. *)
Theorem C70_inputs_unchanged {P : Params} : forall (st : machine) i (t : thread) r x,
  reachable job_ok st -> g_tasks st i = Some t -> In r (tk_reads t) -> in_range x (fst r) (snd r) ->
  g_mem st x = tk_mem t x.
Proof.
  intros st i t r x HR Ht Hr Hx. destruct (reachable_invariant job_ok job_safe st HR) as (I1 & _).
  destruct (I1 i t Ht) as (p0 & ans & L & _ & _ & _ & H & _). eauto.
Qed.

(** A finished thread: the result, and the block with its contents, are what the model of a
    single thread gives with some allocator. *)
Definition result_of {P : Params} (j : job) (o : nat -> N -> N) (m : mem) : outcome zs (option (list N)) :=
  run_client (P := job_params (P := P) j o) m (j_env j) (j_fuel j) (j_client j) z_new.

(** The blocks of thread [i] are those of the storage [w], with the contents of [w]. *)
Definition holds {P : Params} (st : machine) (i : nat) (al : N) (w : sw) : Prop :=
  (forall b, In b (g_live st) -> b_own b = Some i -> b = mkBlk (s_ptr (sw_s w)) (s_cap (sw_s w)) al (Some i)) /\
  (0 < s_cap (sw_s w) -> In (mkBlk (s_ptr (sw_s w)) (s_cap (sw_s w)) al (Some i)) (g_live st)) /\
  (s_cap (sw_s w) = 0 -> forall b, In b (g_live st) -> b_own b <> Some i) /\
  (forall n, n < s_cap (sw_s w) -> g_mem st (s_ptr (sw_s w) + n) = s_buf (sw_s w) n).

Lemma finished {P : Params} : forall (st : machine) i (t : thread),
  reachable job_ok st -> g_tasks st i = Some t ->
  exists o L p0, orc_ok (tk_al t) o /\ mirrors st i L /\ job_ok (with_prog t p0) /\
    same_outcomeq (end_state (P := job_params (tk_job t) o) (j_client (tk_job t))) (same_ser (P := job_params (tk_job t) o))
      (alone (P := with_orc P o) (tk_mem t) (tk_prog t) L) (result_of (tk_job t) o (tk_mem t)).
Proof.
  intros st i t HR Ht. destruct (reachable_invariant job_ok job_safe st HR) as (I1 & _).
  destruct (on_track_facts job_ok job_safe st i t (I1 i t Ht)) as (p0 & ans & L & F1 & F2 & F3 & F4 & F5 & F6 & F7 & F8).
  exists (recorded ans), L, p0. pose proof (recorded_ok (tk_al t) ans F3) as Ho. split; [exact Ho|]. split; [exact F5|]. split; [exact F1|].
  rewrite <- F7. exact (job_alone (with_prog t p0) (recorded ans) F1 Ho).
Qed.

Lemma mirrors_holds {P : Params} (st : machine) i L h w (Q : Params) :
  mirrors st i L -> same_storage (P := Q) h L w -> holds st i (SA (Params := Q)) w.
Proof.
  intros (M1 & M2 & M3) (E1 & E2 & E3 & E4 & E5 & E6 & E7 & E8). rewrite E7 in *. split; [|split; [|split]].
  - intros b Hb Ho. destruct (M1 b Hb Ho) as [-> Hs]. destruct (E8 Hs) as [-> ->]. reflexivity.
  - intros Hs. destruct (E8 Hs) as [A1 A2]. rewrite <- A1, <- A2. apply M2. exact Hs.
  - intros Z b Hb Ho. destruct (M1 b Hb Ho) as [_ Hs]. lia.
  - intros n Hn. destruct (E8 ltac:(lia)) as [A1 _]. rewrite <- A1, M3 by exact Hn. apply E4.
Qed.

(** A thread ends as the model of a single thread ends, with some allocator that keeps to the
    contract: the same result, and, unless the storage was dropped, its block in memory is the
    model's, byte for byte; if the storage was dropped, or could not be made, no block is left. *)
Theorem C70_as_alone {P : Params} : forall (st : machine) i (t : thread) oc,
  reachable job_ok st -> g_tasks st i = Some t -> tk_prog t = Done oc ->
  exists o, orc_ok (tk_al t) o /\
    match oc with
    | Ok r _ => exists z, result_of (tk_job t) o (tk_mem t) = Ok r z /\
        if dropped (j_client (tk_job t)) r then forall b, In b (g_live st) -> b_own b <> Some i
        else holds st i (tk_al t) (z_sw z)
    | Panic e _ => e = PWithCapacity /\ result_of (tk_job t) o (tk_mem t) = Panic e z_new /\
        forall b, In b (g_live st) -> b_own b <> Some i
    | Abort => result_of (tk_job t) o (tk_mem t) = Abort
    | UB | OutOfFuel => False
    end.
Proof.
  intros st i t oc HR Ht Hp. destruct (finished st i t HR Ht) as (o & L & p0 & Ho & Hm & Hj & Hs).
  exists o. split; [exact Ho|]. rewrite Hp in Hs. pose proof Hj as (J1 & J2 & _). cbn [with_prog tk_job tk_mem tk_reads tk_al] in J1, J2.
  pose proof (run_client_ends (P := job_params (tk_job t) o) (j_env (tk_job t)) (j_fuel (tk_job t)) (tk_mem t) (tk_reads t) (j_client (tk_job t))) as He.
  assert (HA : alloc_ok (P := job_params (tk_job t) o)) by (intros n size; rewrite J2 in Ho; exact (Ho n size)).
  specialize (He HA (client_ok_orc (with_consts P (j_consts (tk_job t))) o _ _ _ _ _ J1)).
  unfold result_of in *. unfold same_outcomeq in Hs.
  destruct oc as [r s|e s| | |]; cbn [alone] in Hs;
    destruct (run_client (P := job_params (tk_job t) o) _ _ _ _ _) as [r' z|e' z| | |]; try contradiction; auto.
  - destruct Hs as [<- Hs]. exists z. split; [reflexivity|]. unfold end_state in Hs. destruct (dropped _ _).
    + destruct Hs as (Z & _). destruct Hm as (M1 & _). intros b Hb Hob. destruct (M1 b Hb Hob). lia.
    + destruct Hs as (Hs & _). rewrite J2. exact (mirrors_holds st i L _ _ (job_params (tk_job t) o) Hm Hs).
  - destruct Hs as [<- Hs]. destruct He as (-> & ->). split; [reflexivity|]. split; [reflexivity|].
    intros b Hb Hob. destruct Hm as (M1 & _). destruct (M1 b Hb Hob) as [_ Hz]. destruct Hs as ((_ & _ & _ & _ & _ & _ & E7 & _) & _).
    rewrite E7 in Hz. cbn in Hz. lia.
Qed.

(** A thread that has serialized values with CompleteSerializer has in its block, in memory, the
    values it was given: a reader in the same process sees them at the positions returned. *)
Theorem C70_output {P : Params} : forall (st : machine) i (t : thread) ps s xs,
  reachable job_ok st -> g_tasks st i = Some t -> tk_prog t = Done (Ok (Some ps) s) ->
  cl_ser (j_client (tk_job t)) = Some (Complete, map it_in xs) -> cl_drop (j_client (tk_job t)) = false ->
  Forall (fun '(ty, a, v) => repr (j_env (tk_job t)) any_header (tk_mem t) ty a v /\ (vdepth v < j_fuel (tk_job t))%nat) xs ->
  Forall2 (fun '(ty, a, v) p =>
      repr (j_env (tk_job t)) any_header (g_mem st) ty (h_ptr (hz_h s) + p) v /\
      owns (g_live st) i (h_ptr (hz_h s) + p) (size_of (j_env (tk_job t)) ty))
    xs ps.
Proof.
  intros st i t ps s xs HR Ht Hp Hk Hd Hxs. destruct (finished st i t HR Ht) as (o & L & p0 & Ho & Hm & Hj & Hs).
  rewrite Hp in Hs. pose proof Hj as (J1 & J2 & _). cbn [with_prog tk_job tk_mem tk_reads tk_al] in J1, J2.
  set (Q := job_params (tk_job t) o) in *.
  assert (HA : alloc_ok (P := Q)) by (intros n size; rewrite J2 in Ho; exact (Ho n size)).
  pose proof (client_ok_orc (with_consts P (j_consts (tk_job t))) o _ _ _ _ _ J1) as J1'. fold (job_params (tk_job t) o) in J1'. fold Q in J1'.
  unfold result_of in Hs. fold Q in Hs. cbn [alone] in Hs. unfold same_outcomeq in Hs.
  destruct (run_client (P := Q) _ _ _ _ _) as [r' z|e' z| | |] eqn:Er; try contradiction.
  destruct Hs as [<- Hs]. unfold end_state, dropped in Hs. rewrite Hd in Hs. cbn [orb] in Hs. destruct Hs as (Hs & _).
  destruct (run_client_serialized (P := Q) _ _ _ _ _ _ _ _ _ HA J1' Hk Er Hd) as (w1 & W1 & W2).
  destruct J1' as (C & HE & _ & _ & _ & J). rewrite Hk in J. destruct J as (xs' & X1 & X2).
  assert (A2 : Forall (fun '(t0, a, v) => input_ok (P := Q) (j_env (tk_job t)) (tk_mem t) any_header (j_fuel (tk_job t)) t0 a v) xs).
  { clear - X1 X2 Hxs. revert xs X1 Hxs. induction X2 as [|x' xs' H1 _ IH]; intros [|x xs] X1 Hxs; try discriminate; [constructor|].
    cbn in X1. injection X1 as E1 X1. inversion Hxs as [|? ? K1 K2]; subst. constructor; [|apply IH; assumption].
    destruct x as [[t1 a1] v1], x' as [[t2 a2] v2]. cbn in E1. injection E1 as -> ->. destruct H1 as ((V1 & V2 & V3) & _).
    destruct K1 as [K1 K1']. split; [exact (repr_params P Q _ _ _ eq_refl eq_refl _ _ _ K1)|]. split; [exact V1|]. split; [exact K1'|exact V2]. }
  pose proof (serialize_all_spec (P := Q) C HA (j_env (tk_job t)) HE Complete (tk_mem t) any_header any_header (transfers_any (P := Q) Complete) (j_fuel (tk_job t)) xs w1 W1 A2) as F.
  rewrite W2 in F. destruct F as (F1 & F2 & _ & F4 & _ & _ & _ & F8).
  destruct Hs as (E1 & E2 & E3 & E4 & E5 & E6 & E7 & E8). rewrite E1.
  pose proof (ok_pos_le (P := Q) _ F4) as Hpos.
  assert (Hsub : sub_mem (out_mem (s_ptr (sw_s (z_sw z))) (z_sw z)) (g_mem st)).
  { intros x b Hx. unfold out_mem in Hx. destruct (_ && _) eqn:G in Hx; [|discriminate]. rewrite <- Hx.
    assert (Hlt : x - s_ptr (sw_s (z_sw z)) < s_cap (sw_s (z_sw z))) by (lia).
    destruct (E8 ltac:(lia)) as [A1 _]. rewrite <- E4. destruct Hm as (_ & _ & M3). rewrite <- M3 by (rewrite E7; exact Hlt).
    f_equal. rewrite A1. lia. }
  assert (Hin : Forall2 (fun '(ty, a, v) p => 0 < size_of (P := Q) (j_env (tk_job t)) ty -> p + size_of (P := Q) (j_env (tk_job t)) ty <= s_pos (sw_s (z_sw z))) xs ps).
  { assert (Hw : Forall (fun tv => wf_ty (P := Q) (j_env (tk_job t)) (fst tv)) (map it_tv xs)).
    { apply Forall_map. eapply Forall_impl; [|exact A2]. intros [[t1 a1] v1] K. apply K. }
    pose proof (root_positions_in (P := Q) C (j_env (tk_job t)) HE (map it_tv xs) (s_pos (sw_s w1)) Hw) as HI.
    rewrite F2, F1. revert HI. generalize (end_pos (P := Q) (s_pos (sw_s w1)) (all_allocations (P := Q) (j_env (tk_job t)) (map it_tv xs))).
    generalize (root_positions (P := Q) (j_env (tk_job t)) (s_pos (sw_s w1)) (map it_tv xs)). clear. induction xs as [|[[t1 a1] v1] xs IH]; intros l e HI.
    - inversion HI; subst. constructor.
    - cbn in HI. inversion HI as [|? ? ? ? K1 K2]; subst. constructor; [apply K1|]. apply IH; exact K2. }
  clear Hp Er Hxs Hk W2 X1 X2 F1 F2 A2.
  induction F8 as [|[[t1 a1] v1] p xs ps Hx Hrest IH]; constructor; [|apply IH].
  - destruct Hx as [Hx _]. specialize (Hx eq_refl). inversion Hin as [|? ? ? ? K1 K2]; subst. split.
    + apply (repr_params Q P _ _ _ eq_refl eq_refl). eapply (repr_mono (P := Q)); [exact Hsub|exact Hx].
    + change (size_of (P := Q)) with (size_of (P := P)) in K1.
      destruct (N.eq_dec (size_of (j_env (tk_job t)) t1) 0) as [Z|Z]; [left; exact Z|right].
      assert (Hle : p + size_of (j_env (tk_job t)) t1 <= s_pos (sw_s (z_sw z))) by (apply K1; apply N.neq_0_lt_0; exact Z).
      exists (mkBlk (lc_base L) (lc_size L) (lc_al L) (Some i)). destruct Hm as (_ & M2 & _).
      assert (Hc : 0 < s_cap (sw_s (z_sw z))) by (lia). destruct (E8 Hc) as [A1 _].
      split; [apply M2; lia|]. split; [reflexivity|]. cbn. rewrite A1, E7. lia.
  - inversion Hin as [|? ? ? ? K1 K2]; subst. exact K2.
Qed.

(** A thread that is not finished can go on, whatever the others did. *)
Theorem C70_not_stuck {P : Params} : forall (st : machine) i (t : thread),
  reachable job_ok st -> g_tasks st i = Some t ->
  (exists oc, tk_prog t = Done oc) \/ exists m' live' p', tstep st i (tk_reads t) (tk_prog t) m' live' p'.
Proof.
  intros st i t HR Ht. pose proof (C70_no_UB st i t HR Ht) as D. unfold defined in D.
  destruct (tk_prog t) as [oc|size al k|addr old al new k|addr size al k|src dst n k|dst n data k|a n k|a n k];
    [left; eauto|right|right|right|right|right|right|right]; do 3 eexists.
  - apply TRefused; apply D.
  - apply TReRefused; apply D.
  - apply TDealloc; [exact D|]. intros x _. reflexivity.
  - apply TCopy; [apply D|apply D|]. intros x. reflexivity.
  - apply TStore; [exact D|]. intros x. reflexivity.
  - apply TLoad. exact D.
  - apply TRead. exact D.
Qed.

(** A thread makes finitely many steps: no schedule keeps one thread busy for ever. *)
Theorem C70_terminates {P : Params} {J S A} :
  well_founded (fun p' p : prog S A => exists (st : gstate J S A) i bs m' live', tstep st i bs p m' live' p').
Proof.
  intros p. induction p as [oc|size al k IH|addr old al new k IH|addr size al k IH|src dst n k IH|dst n data k IH|a n k IH|a n k IH];
    constructor; intros p' (st & i & bs & m' & live' & H); inversion H; subst; auto.
Qed.

(** ** A concrete execution

    Two threads on a 64-bit machine, reading the same input: one serializes the demo struct, the
    number in it and the Box in it with CompleteSerializer into a storage that has to grow and
    moves; the other, with a differently aligned storage, pushes two bytes, shrinks the storage,
    serializes the number and the Box with PtrOffsetSerializer, and drops the storage.  Their
    instructions alternate. *)
From Verif Require Import ArithFacts MemFacts PropStorage PropSerialize Demo WitnessSerialize PropEncode.

Definition consts_a := mkConsts 16 16 8 4096.
Definition consts_b := mkConsts 64 32 8 1024.
Definition demo_reads : list (N * N) := [(4096, 88); (4096, 4); (4104, 8); (8192, 8); (8208, 4); (8224, 2)].
Definition job_a := mkJob consts_a no_env 10 (mkClient 88 [] (Some (Complete, map it_in PropEncode.demo_items)) false).
Definition job_b := mkJob consts_b no_env 7
  (mkClient 0 [HPushBytes 2 8224; HShrink] (Some (PtrOffset, map it_in (tl PropEncode.demo_items))) true).
Definition thread_of (j : job) : thread := mkTask j demo_mem demo_reads (cs_SA (j_consts j)) (job_prog (P := demo) j).
Definition demo_start : machine := mkG demo_mem [] (fun _ => None).
Definition demo_two : machine :=
  mkG demo_mem [] (set_task (set_task (fun _ => None) 0%nat (Some (thread_of job_a))) 1%nat (Some (thread_of job_b))).

Lemma consts_b_cfg : @cfg_ok (with_consts demo consts_b).
Proof.
  split; [right; reflexivity|]. unfold consts_ok, legal_layout.
  ands; first [conc | (exists 5; reflexivity) | (exists 6; reflexivity)].
Qed.
Lemma good_b l : @good_layout demo l -> @good_layout (with_consts demo consts_b) l.
Proof.
  unfold good_layout. change (@imax (with_consts demo consts_b)) with (@imax demo).
  intros H. ands; try apply H. cbn. etransitivity; [apply H|]. vm_compute; discriminate.
Qed.

Lemma job_a_ok : job_ok (P := demo) (thread_of job_a).
Proof.
  split; [|split; reflexivity]. cbn [thread_of tk_job tk_mem tk_reads job_a j_consts j_env j_fuel j_client cl_cap cl_ops cl_ser].
  change (with_consts demo consts_a) with demo.
  split; [exact demo_cfg|]. split; [exact no_env_wf|]. split; [apply ltc; vm_compute; reflexivity|]. split; [constructor|].
  split; [intros x []|]. exists PropEncode.demo_items. split; [reflexivity|].
  pose proof C54_hypotheses as HV. apply Forall_forall. intros [[t a] v] Hin. destruct (HV t a v Hin) as [V1 V2]. split; [exact V1|]. split; [exact V2|].
  destruct Hin as [K|[K|[K|[]]]]; inversion K; subst; (eexists; split; [vm_compute; reflexivity|]);
    unfold demo_reads; intros x Hx; repeat (destruct Hx as [<-|Hx]; [cbn; tauto|]); contradiction.
Qed.
Lemma job_b_ok : job_ok (P := demo) (thread_of job_b).
Proof.
  split; [|split; reflexivity]. cbn [thread_of tk_job tk_mem tk_reads job_b j_consts j_env j_fuel j_client cl_cap cl_ops cl_ser].
  split; [exact consts_b_cfg|]. split; [intros id d H; discriminate|]. split; [apply ltc; vm_compute; reflexivity|].
  split; [repeat constructor; cbn; vm_compute; discriminate|].
  split; [intros x Hx; cbn in Hx; destruct Hx as [<-|[]]; cbn; tauto|]. exists (tl PropEncode.demo_items). split; [reflexivity|].
  apply Forall_forall. intros [[t a] v] [K|[K|[]]]; inversion K; subst; (split; [|split; [cbn; lia|]]).
  - split; [apply W_prim; apply good_b; gl|]. split; [vm_compute; discriminate|apply R_prim; rd].
  - eexists. split; [vm_compute; reflexivity|]. intros x Hx; repeat (destruct Hx as [<-|Hx]; [cbn; tauto|]); contradiction.
  - split; [apply W_box; [apply W_prim; apply good_b; gl|le]|]. split; [vm_compute; discriminate|].
    eapply R_box; [rd|unfold valid_ref; ands; num|exact Logic.I|apply R_prim; rd].
  - eexists. split; [vm_compute; reflexivity|]. intros x Hx; repeat (destruct Hx as [<-|Hx]; [cbn; tauto|]); contradiction.
Qed.

Lemma demo_two_reachable : reachable (P := demo) (job_ok (P := demo)) demo_two.
Proof.
  assert (H0 : reachable (P := demo) (job_ok (P := demo)) demo_start).
  { apply R_start. split; [reflexivity|intros b []]. }
  assert (H1 : mstep (P := demo) (job_ok (P := demo)) demo_start (mkG demo_mem [] (set_task (fun _ => None) 0%nat (Some (thread_of job_a))))).
  { apply (MSpawn (P := demo) _ demo_start 0%nat (thread_of job_a)); [reflexivity|intros b []| |reflexivity|exact job_a_ok].
    intros r x _ _ (b & i & [] & _). }
  eapply R_step; [eapply R_step; [exact H0|exact H1]|].
  apply (MSpawn (P := demo) _ (mkG demo_mem [] (set_task (fun _ => None) 0%nat (Some (thread_of job_a)))) 1%nat (thread_of job_b));
    [reflexivity|intros b []| |reflexivity|exact job_b_ok].
  intros r x _ _ (b & i & [] & _).
Qed.

Definition demo_steps (n0 n1 n2 : nat) : list (nat * N) :=
  flat_map (fun k => [(0%nat, 65536 * (2 * N.of_nat k + 1)); (1%nat, 65536 * (2 * N.of_nat k + 2))]) (seq 0 n0)
  ++ map (fun k => (0%nat, 65536 * (200 + N.of_nat k))) (seq 0 n1) ++ map (fun k => (1%nat, 65536 * (300 + N.of_nat k))) (seq 0 n2).

(** Both threads finished; the second has given its block back; the first's block, moved twice,
    holds the demo struct (whose first field is 42, and whose Box points into the block). *)
Lemma C70_witness : exists st s,
  reachable (P := demo) (job_ok (P := demo)) st /\
  (exists t, g_tasks st 0%nat = Some t /\ tk_job t = job_a /\ tk_mem t = demo_mem /\ tk_prog t = Done (Ok (Some [0; 112; 120]) s)) /\
  (exists t s', g_tasks st 1%nat = Some t /\ tk_job t = job_b /\ tk_prog t = Done (Ok (Some [8; 16]) s')) /\
  g_tasks st 2%nat = None /\
  g_live st = [mkBlk 14155776 256 16 (Some 0%nat)] /\ h_ptr (hz_h s) = 14155776 /\
  read_int (P := demo) (g_mem st) 14155776 4 = Some 42 /\
  read_word (P := demo) (g_mem st) (14155776 + 8) = Some (14155776 + 88) /\
  repr (P := demo) no_env any_header (g_mem st) t_demo (14155776 + 0) demo_val.
Proof.
  assert (H : match run_sched (P := demo) demo_reads (demo_steps 8 25 0) demo_two with
    | Some st =>
        match g_tasks st 0%nat, g_tasks st 1%nat, g_tasks st 2%nat with
        | Some t0, Some t1, None =>
            match tk_prog t0, tk_prog t1 with
            | Done (Ok r0 s), Done (Ok r1 _) =>
                (r0, r1, g_live st, h_ptr (hz_h s), read_int (P := demo) (g_mem st) 14155776 4, read_word (P := demo) (g_mem st) (14155776 + 8))
                = (Some [0; 112; 120], Some [8; 16], [mkBlk 14155776 256 16 (Some 0%nat)], 14155776, Some 42, Some (14155776 + 88))
            | _, _ => False
            end
        | _, _, _ => False
        end
    | None => False
    end) by (vm_compute; reflexivity).
  destruct (run_sched (P := demo) demo_reads (demo_steps 8 25 0) demo_two) as [st|] eqn:Er; [|contradiction].
  assert (HR : reachable (P := demo) (job_ok (P := demo)) st).
  { apply (run_sched_reachable (P := demo) (job_ok (P := demo)) demo_reads (demo_steps 8 25 0) demo_two st demo_two_reachable); [|exact Er].
    intros j t r Hj Hr. cbn [demo_two g_tasks] in Hj. unfold set_task in Hj.
    destruct (Nat.eqb j 1); [injection Hj as <-; exact Hr|]. destruct (Nat.eqb j 0); [injection Hj as <-; exact Hr|discriminate]. }
  destruct (g_tasks st 0%nat) as [t0|] eqn:E0; [|contradiction]. destruct (g_tasks st 1%nat) as [t1|] eqn:E1; [|contradiction].
  destruct (g_tasks st 2%nat) as [t2|] eqn:E2; [contradiction|].
  destruct (tk_prog t0) as [[r0 s| | | |]| | | | | | |] eqn:P0; try contradiction.
  destruct (tk_prog t1) as [[r1 s1| | | |]| | | | | | |] eqn:P1; try contradiction.
  injection H as H1 H2 H6 H7 H8 H9.
  destruct (run_sched_keeps (P := demo) demo_reads (demo_steps 8 25 0) demo_two st 0%nat (thread_of job_a) Er eq_refl) as (t0' & T1 & H3 & H5 & _).
  destruct (run_sched_keeps (P := demo) demo_reads (demo_steps 8 25 0) demo_two st 1%nat (thread_of job_b) Er eq_refl) as (t1' & T2 & H4 & _).
  rewrite E0 in T1. injection T1 as <-. rewrite E1 in T2. injection T2 as <-. cbn [thread_of tk_job tk_mem] in H3, H4, H5.
  exists st, s. split; [exact HR|]. split; [exists t0; subst r0; auto|]. split; [exists t1, s1; subst r1; auto|].
  split; [exact E2|]. split; [exact H6|]. split; [exact H7|]. split; [exact H8|]. split; [exact H9|].
  subst r0.
  pose proof (C70_output (P := demo) st 0%nat t0 [0; 112; 120] s PropEncode.demo_items HR E0 P0) as HO.
  rewrite H3, H5, H7 in HO. specialize (HO eq_refl eq_refl).
  assert (HV : Forall (fun '(ty, a, v) => repr (P := demo) no_env any_header demo_mem ty a v /\ (vdepth v < 10)%nat) PropEncode.demo_items).
  { pose proof C54_hypotheses as HV. apply Forall_forall. intros [[t a] v] Hin. destruct (HV t a v Hin) as [(_ & _ & V1) V2]. auto. }
  specialize (HO HV). inversion HO as [|? ? ? ? K1 K2]; subst. exact (proj1 K1).
Qed.
