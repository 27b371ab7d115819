(** * ClientJobs: threads that run hand-written implementations.

    The programs of ProgClient.v run alone are the model of Client.v; they read what they are
    lent only; a valid client is not undefined.  MachineFacts.v then makes them safe together. *)
From Verif Require Import Base Types Storage ArithFacts StorageFacts StorageHist StorageProps Spec Serializer Serialize SerFacts SerValue SerMain SerRoot SerProps PropTree
  Client ClientSpec ClientFacts PropClient PropResume Prog ProgSer ProgClient Alone AloneSer Confined Machine MachineFacts Jobs.
From Coq Require Import Arith ZifyBool ZifyNat ZifyN.
Local Open Scope N_scope.

(** What a call of an implementation on the value at [a] reads is in the ranges [bs]: the slices
    it pushes, and all that fields own. *)
Fixpoint step_lent {P : Params} (E : tenv) (m : mem) (fuel : nat) (bs : list (N * N)) (a : N) (s : step) : Prop :=
  match s with
  | SPush off l tp n body =>
      within bs tp (l_size l * n) /\
      (fix go (ss : list step) : Prop :=
         match ss with [] => True | s :: ss' => step_lent E m fuel bs tp s /\ go ss' end) body
  | SPushPlain _ l tp n | SRaw l tp n => within bs tp (l_size l * n)
  | SField off t v => exists ps, places E m fuel t (a + off) = Some ps /\ incl ps bs
  | SOver _ _ _ | SStore _ | SPanic => True
  end.
Definition steps_lent {P : Params} E m fuel bs a ss : Prop := Forall (step_lent E m fuel bs a) ss.

Lemma steps_lent_go {P : Params} E m fuel bs a ss :
  (fix go (ss : list step) : Prop :=
     match ss with [] => True | s :: ss' => step_lent E m fuel bs a s /\ go ss' end) ss -> steps_lent E m fuel bs a ss.
Proof. induction ss as [|s ss IH]; intros H; constructor; [apply H|apply IH, H]. Qed.

(** A value with a proper implementation, whose memory is in the ranges [bs]. *)
Definition root_ok {P : Params} E m fuel bs (r : layout * N * list step) : Prop :=
  root_in E m fuel r /\
  let '(l, a, ss) := r in within bs a (l_size l) /\ steps_lent E m fuel bs a ss.

Definition phase_ok {P : Params} E m fuel bs (ph : phase) : Prop :=
  match ph with
  | PhOps os => Forall (hop_ok m) os /\ incl (flat_map hop_reads os) bs
  | PhSer k rs => Forall (root_ok E m fuel bs) rs
  end.

(** The client may be run when the memory is [m], reading only [bs]. *)
Definition iclient_ok {P : Params} (E : tenv) (fuel : nat) (m : mem) (bs : list (N * N)) (cl : iclient) : Prop :=
  cfg_ok /\ wf_env E /\ ic_cap cl < umod /\ Forall (phase_ok E m fuel bs) (ic_phases cl).

(** A job: the constants of the storage, the types, and the client. *)
Record ijob := mkIjob { i_consts : consts; i_env : tenv; i_fuel : nat; i_client : iclient }.
Definition ijob_prog {P : Params} (j : ijob) : prog hz (list (list (N * option N))) :=
  h_iclient (P := with_consts P (i_consts j)) (i_env j) (i_fuel j) (i_client j) hz_new.
Definition ijob_ok {P : Params} (t : task ijob hz (list (list (N * option N)))) : Prop :=
  iclient_ok (P := with_consts P (i_consts (tk_job t))) (i_env (tk_job t)) (i_fuel (tk_job t)) (tk_mem t) (tk_reads t)
    (i_client (tk_job t)) /\
  tk_al t = cs_SA (i_consts (tk_job t)) /\ tk_prog t = ijob_prog (tk_job t).

(** ** The program is the model *)
Section Same.
Context {P : Params}.
Variable m : mem.

Lemma sim_sop o : sim m same_storage (h_run_sop o) (run_op o).
Proof.
  destruct o; cbn [h_run_sop run_op]; unfold some_pos, no_pos;
    (apply sim_bind; [|intros ?; apply sim_ret]).
  - apply (sim_push m l (SLocal data)). - apply (sim_push_slice m l len (SLocal data)). - apply (sim_push_bytes m len (SLocal data)).
  - apply sim_push_empty_slice. - apply sim_push_empty_slice.
  - apply sim_reserve. - apply sim_align_for. - apply sim_align_after. - apply sim_align_after_any.
  - apply sim_set_pos. - apply sim_shrink.
Qed.
Lemma sim_store_call o : sim m same_ser (h_store_call o) (store_call o).
Proof.
  intros s L t HR. unfold h_store_call, store_call. rewrite alone_pthen.
  pose proof (sim_lift m _ _ (sim_sop o) s L t HR) as H. unfold lift in H.
  destruct (alone m (hlift (h_run_sop o) s) L) as [a [s' L']|e [s' L']| | |], (run_op o (z_sw t)) as [b t'|e' t'| | |]; try contradiction; auto;
    cbn [same_outcomeq alone] in *; destruct H as [_ H]; auto.
Qed.

Section Impl.
Variable k : kind.
Variable E : tenv.
Variable fuel : nat.

Lemma sim_run_step : forall s a, sim m same_ser (h_run_step k E fuel a s) (run_step k E m fuel a s).
Proof.
  fix IH 1. intros s a. destruct s as [off l tp n body|off l tp n|l tp n|off l data|off t v|o|]; cbn [h_run_step run_step].
  - apply sim_bind; [apply sim_from_ref_offset|intros ad]. apply sim_bind; [|intros _; apply sim_ret].
    apply sim_push_and_process_slice. induction body as [|s body IHb]; [apply sim_ret|].
    apply sim_bind; [apply IH|intros _; exact IHb].
  - apply sim_bind; [apply sim_from_ref_offset|intros ad]. apply sim_bind; [apply sim_ser_push_slice|intros _; apply sim_ret].
  - apply sim_bind; [apply sim_push_raw_slice|intros _; apply sim_ret].
  - apply sim_overwrite_with. apply sim_bind; [apply sim_from_ref_offset|intros ad; apply sim_overwrite].
  - apply sim_ser_data.
  - apply sim_store_call.
  - apply sim_panics.
Qed.
Lemma sim_run_steps ss : forall a, sim m same_ser (h_run_steps k E fuel a ss) (run_steps k E m fuel a ss).
Proof.
  induction ss as [|s ss IH]; intros a; cbn [h_run_steps run_steps]; [apply sim_ret|].
  apply sim_bind; [apply sim_run_step|intros _; apply IH].
Qed.
Lemma sim_ser_pos : sim m same_ser h_ser_pos ser_pos.
Proof. intros s L t HR. cbn. split; [apply HR|exact HR]. Qed.
Lemma sim_ccatch {A} (h : HM hz A) (c : M zs A) : sim m same_ser h c -> sim m same_ser (Prog.catch h) (Client.catch c).
Proof. apply sim_catch. Qed.
Lemma sim_attempt_all rs : sim m same_ser (h_attempt_all k E fuel rs) (attempt_all k E m fuel rs).
Proof.
  induction rs as [|[[l a] ss] rs IH]; cbn [h_attempt_all attempt_all]; [apply sim_ret|].
  apply sim_bind; [apply sim_ser_pos|intros b]. apply sim_bind; [apply sim_ccatch, sim_serialize_value_with, sim_run_steps|intros r].
  apply sim_bind; [exact IH|intros outs; apply sim_ret].
Qed.
Lemma sim_session rs : sim m same_ser (h_session k E fuel rs) (session k E m fuel rs).
Proof.
  unfold h_session, session. apply sim_bind; [apply sim_attempt_all|intros outs].
  apply sim_bind; [apply sim_finalize|intros _; apply sim_ret].
Qed.
End Impl.

Lemma sim_run_phases E fuel phs : sim m same_ser (h_run_phases E fuel phs) (run_phases m E fuel phs).
Proof.
  induction phs as [|[os|k rs] phs IH]; cbn [h_run_phases run_phases]; [apply sim_ret| |].
  - apply sim_bind; [apply sim_lift, sim_run_ops|intros _; exact IH].
  - unfold h_from_storage. apply sim_bind; [apply sim_bind; [apply sim_set_map|intros _; apply sim_set_ptrs]|intros _].
    apply sim_bind; [apply sim_session|intros outs]. apply sim_bind; [exact IH|intros rest; apply sim_ret].
Qed.

(** The states at the end are the same, but for the contents of a storage that was dropped. *)
Definition iend_state (cl : iclient) (r : list (list (N * option N))) (s : hz) (L : loc) (z : zs) : Prop :=
  if ic_drop cl then gone (hz_h s) L (z_sw z) else same_ser s L z.

Lemma sim_iclient E fuel cl :
  simq m (fun s L z => same_ser s L z /\ s_cap (sw_s (z_sw z)) = 0) (iend_state cl) same_ser (h_iclient E fuel cl) (run_iclient m E fuel cl).
Proof.
  unfold h_iclient, run_iclient.
  apply simq_bind with (Mid := fun _ => same_ser).
  { intros s L t ((H1 & H2 & H3) & H0). unfold hlift, lift. rewrite alone_pthen.
    pose proof (sim_with_capacity m (ic_cap cl) (hz_h s) L (z_sw t) (conj H1 H0)) as H. unfold same_outcomeq in *.
    destruct (alone m (h_with_capacity (ic_cap cl) (hz_h s)) L) as [a [s' L']|e [s' L']| | |], (with_capacity (ic_cap cl) (z_sw t)) as [b t'|e' t'| | |]; try contradiction; auto;
      cbn [alone] in *; destruct H as [-> H]; (split; [reflexivity|]); split; auto. }
  intros _. apply simq_bind with (Mid := fun _ => same_ser); [apply sim_run_phases|intros r].
  apply simq_bind with (Mid := fun _ => iend_state cl r).
  - unfold iend_state. destruct (ic_drop cl).
    + intros s L t (H1 & H2 & H3). unfold hlift, lift. rewrite alone_pthen. pose proof (sim_drop m (hz_h s) L (z_sw t) H1) as H. unfold same_outcomeq in *.
      destruct (alone m (h_drop (hz_h s)) L) as [a [s' L']|e [s' L']| | |], (drop_store (z_sw t)) as [b t'|e' t'| | |]; try contradiction; auto;
        cbn [alone] in *; destruct H as [-> H]; (split; [reflexivity|]); auto. split; auto.
    + apply sim_ret.
  - intros _ s L t HR. cbn. auto.
Qed.
End Same.

(** ** The program reads what it was lent *)
Section Reads.
Context {P : Params}.
Variable m : mem.
Variable bs : list (N * N).
Variable E : tenv.
Hypothesis HE : wf_env E.
Variable fuel : nat.
Notation hconf := (hconf m bs SA).

Lemma hc_sop o : hconf (h_run_sop o).
Proof.
  destruct o; cbn [h_run_sop]; (apply hconf_bind; [|intros ?; apply hconf_pu]);
    try (apply hc_push_slice; intros _; exact Logic.I).
  - apply hc_push_empty_slice. - apply hc_push_empty_slice.
  - apply hc_reserve. - apply hc_align_for. - apply hc_align_after. - apply hc_align.
  - apply hc_set_pos. - apply hc_shrink.
Qed.
Lemma hc_store_call o : hconf (h_store_call o).
Proof. intros s. apply confined_pthen; [apply hc_lift, hc_sop|intros; exact Logic.I|intros; exact Logic.I]. Qed.

Lemma hc_step k : forall s size al a, step_ok E m fuel size al a s -> step_lent E m fuel bs a s -> within bs a size ->
  hconf (h_run_step k E fuel a s).
Proof.
  fix IH 1. intros s size al a Hok Hl Ha. destruct s as [off l tp n body|off l tp n|l tp n|off l data|off t v|o|]; cbn [h_run_step step_lent] in *.
  - destruct Hl as [H1 H2]. apply hconf_bind; [apply hconf_pu|intros ad]. apply hconf_bind; [|intros _; apply hconf_pu].
    apply hc_push_and_process_slice; [intros _; exact H1|].
    assert (Hb : steps_ok E m fuel (l_size l * n) (l_align l) tp body) by (inversion Hok; assumption).
    clear Hok. induction body as [|s body IHb]; [apply hconf_pu|].
    assert (Hs : step_ok E m fuel (l_size l * n) (l_align l) tp s) by (inversion Hb; assumption).
    assert (Hss : steps_ok E m fuel (l_size l * n) (l_align l) tp body) by (inversion Hb; assumption).
    apply hconf_bind; [exact (IH s _ _ _ Hs (proj1 H2) H1)|intros _; apply IHb; [apply H2|exact Hss]].
  - apply hconf_bind; [apply hconf_pu|intros ad]. apply hconf_bind; [apply hc_ser_push_slice; intros _; exact Hl|intros _; apply hconf_pu].
  - apply hconf_bind; [apply hc_push_raw_slice; intros _; exact Hl|intros _; apply hconf_pu].
  - apply hc_overwrite_with. apply hconf_bind; [apply hconf_pu|intros ad; apply hc_overwrite].
  - destruct Hl as (ps & H1 & H2). assert (wf_ty E t /\ off + size_of E t <= size) as [Hw Hsz] by (inversion Hok; auto).
    eapply hc_ser_data; eauto. eapply within_sub; [| |exact Ha]; lia.
  - apply hc_store_call.
  - apply hconf_pu.
Qed.
Lemma hc_steps k ss : forall size al a, steps_ok E m fuel size al a ss -> steps_lent E m fuel bs a ss -> within bs a size ->
  hconf (h_run_steps k E fuel a ss).
Proof.
  induction ss as [|s ss IH]; intros size al a Hok Hl Ha; cbn [h_run_steps]; [apply hconf_pu|].
  inversion Hok; subst. inversion Hl; subst. apply hconf_bind; [eapply hc_step; eauto|intros _; eapply IH; eauto].
Qed.
Lemma hc_serialize_value_with k l a hp : (l_size l <> 0 -> within bs a (l_size l * 1)) -> hconf hp ->
  hconf (h_serialize_value_with k (mkHslice l a 1) hp).
Proof.
  intros Hw Hp. destruct k; cbn [h_serialize_value_with];
    (apply hconf_bind; [apply hc_push_raw_slice, Hw|intros pos]);
    try (apply hconf_bind; [apply hconf_pu|intros _]);
    (apply hconf_bind; [exact Hp|intros _]; apply hconf_pu).
Qed.
Lemma hc_session k rs : Forall (root_ok E m fuel bs) rs -> hconf (h_session k E fuel rs).
Proof.
  intros H. unfold h_session. apply hconf_bind; [|intros outs; apply hconf_bind; [apply hc_finalize|intros _; apply hconf_pu]].
  induction H as [|[[l a] ss] rs ((R1 & R2 & R3 & R4) & R5 & R6) _ IH]; cbn [h_attempt_all]; [apply hconf_pu|].
  apply hconf_bind; [apply hconf_pu|intros b]. apply hconf_bind; [|intros r; apply hconf_bind; [exact IH|intros outs; apply hconf_pu]].
  apply hconf_catch, hc_serialize_value_with.
  - intros _. rewrite N.mul_1_r. exact R5.
  - eapply hc_steps; eauto.
Qed.
Lemma hc_phases phs : Forall (phase_ok E m fuel bs) phs -> hconf (h_run_phases E fuel phs).
Proof.
  induction 1 as [|[os|k rs] phs Hp _ IH]; cbn [h_run_phases phase_ok] in *; [apply hconf_pu| |].
  - apply hconf_bind; [apply hc_lift, hc_ops, Hp|intros _; exact IH].
  - apply hconf_bind; [apply hconf_bind; [apply hconf_pu|intros _; apply hconf_pu]|intros _].
    apply hconf_bind; [apply hc_session, Hp|intros outs]. apply hconf_bind; [exact IH|intros rest; apply hconf_pu].
Qed.
End Reads.

Lemma iclient_confined {P : Params} E fuel m bs cl : iclient_ok E fuel m bs cl -> confined m bs SA (h_iclient E fuel cl hz_new).
Proof.
  intros (C & HE & Hc & Hp). cut (hconf m bs SA (h_iclient E fuel cl)); [intros K; apply K|]. unfold h_iclient.
  apply hconf_bind; [apply hc_lift, hc_with_capacity|intros _]. apply hconf_bind; [apply hc_phases; assumption|intros r].
  apply hconf_bind; [|intros _; apply hconf_pu]. apply hconf_if; intros _; [apply hc_lift, hc_drop|apply hconf_pu].
Qed.

(** ** A valid client is not undefined *)
Section NoUB.
Context {P : Params}.
Hypothesis C : cfg_ok.
Hypothesis HA : alloc_ok.

Lemma root_ok_in E m fuel bs rs : Forall (root_ok E m fuel bs) rs -> Forall (root_in E m fuel) rs.
Proof. apply Forall_impl. intros r [H _]. exact H. Qed.

Lemma ops_phase m os w : Forall (hop_ok m) os -> storage_ok w ->
  match run_ops (map (op_of m) os) w with
  | Ok _ w' => storage_ok w'
  | Abort => alloc_failed
  | _ => False
  end.
Proof.
  intros Ho Hw.
  assert (Hv : Forall op_valid (map (op_of m) os)).
  { apply Forall_map. eapply Forall_impl; [|exact Ho]. intros o [K _]. exact K. }
  assert (Hne : forall l n d, In (OPushSlice l n d) (map (op_of m) os) -> 0 < n \/ l_size l = 0 \/ l_align l = 1).
  { intros l n d Hi. apply in_map_iff in Hi. destruct Hi as (o & Eo & Hi). rewrite Forall_forall in Ho. destruct (Ho o Hi) as [_ K].
    destruct o; cbn in Eo; try discriminate. injection Eo as <- <- <-. exact K. }
  pose proof (run_ops_spec C HA (map (op_of m) os) w Hw Hv) as H.
  destruct (run_ops (map (op_of m) os) w) as [u w1|e w1| | |]; auto; [apply H|].
  destruct H as (os1 & o & os2 & w1 & He & _ & Hep). destruct o as [| l n d | | | | | | | | |]; cbn in Hep; try contradiction.
  destruct (Hne l n d) as [|[|]]; try lia. rewrite He. apply in_or_app. right. left. reflexivity.
Qed.

Lemma phases_end E fuel m bs phs : wf_env E -> Forall (phase_ok E m fuel bs) phs -> forall z, storage_ok (z_sw z) ->
  match run_phases m E fuel phs z with
  | Ok r z' => storage_ok (z_sw z')
  | Abort => alloc_failed
  | _ => False
  end.
Proof.
  intros HE H. induction H as [|[os|k rs] phs Hp _ IH]; intros z Hz; cbn [run_phases phase_ok] in *; [exact Hz| |].
  - unfold bind, lift. pose proof (ops_phase m os (z_sw z) (proj1 Hp) Hz) as H.
    destruct (run_ops (map (op_of m) os) (z_sw z)) as [u w1|e w1| | |]; auto. apply IH. exact H.
  - pose proof (session_done k E m fuel rs (z_sw z) C HA HE Hz (root_ok_in _ _ _ _ _ Hp)) as H.
    assert (Hb : forall A (f : M zs A), bind (set_map map_dummy ;;; set_ptrs ptrs_new) (fun _ => f) z = f (from_storage (z_sw z)))
      by (intros A f; destruct z; reflexivity).
    rewrite Hb. clear Hb. unfold bind at 1. destruct (session k E m fuel rs (from_storage (z_sw z))) as [outs z1|e z1| | |]; auto.
    cbv zeta in H. destruct H as (_ & H & _). unfold bind. specialize (IH z1 H).
    destruct (run_phases m E fuel phs z1) as [r z2|e z2| | |]; auto.
Qed.

Lemma run_iclient_ends E fuel m bs cl : iclient_ok E fuel m bs cl ->
  match run_iclient m E fuel cl z_new with
  | Ok r z => True
  | Panic e z => e = PWithCapacity /\ z = z_new
  | Abort => alloc_failed
  | UB | OutOfFuel => False
  end.
Proof.
  intros (_ & HE & Hc & Hp). unfold run_iclient. unfold bind at 1. unfold lift at 1.
  pose proof (with_capacity_spec C HA (ic_cap cl) Hc) as H1. change (z_sw z_new) with sw_new.
  destruct (with_capacity (ic_cap cl) sw_new) as [u w0|e w0| | |] eqn:E0; try contradiction; auto.
  2:{ destruct H1 as (-> & _ & ->). auto. }
  destruct H1 as (_ & Hok0 & _). unfold bind at 1.
  pose proof (phases_end E fuel m bs (ic_phases cl) HE Hp (mkZ w0 (z_map z_new) (z_ptrs z_new)) Hok0) as H2.
  destruct (run_phases m E fuel (ic_phases cl) _) as [r z1|e z1| | |]; auto; try contradiction.
  destruct (ic_drop cl); [|exact Logic.I]. unfold bind, lift. destruct (drop_spec C (z_sw z1) H2) as (w' & -> & _). exact Logic.I.
Qed.

(** Phases one after the other. *)
Lemma run_phases_app m E fuel phs1 phs2 z : run_phases m E fuel (phs1 ++ phs2) z =
  (r1 <- run_phases m E fuel phs1 ;; r2 <- run_phases m E fuel phs2 ;; ret (r1 ++ r2)) z.
Proof.
  revert z. induction phs1 as [|[os|k rs] phs1 IH]; intros z; cbn [run_phases app].
  - unfold bind, ret. destruct (run_phases m E fuel phs2 z); reflexivity.
  - unfold bind, lift. destruct (run_ops _ _) as [u w| | | |]; auto. rewrite IH. reflexivity.
  - unfold bind. destruct (set_map map_dummy z) as [u z1| | | |]; auto. destruct (set_ptrs ptrs_new z1) as [u' z2| | | |]; auto.
    destruct (session k E m fuel rs z2) as [outs z3| | | |]; auto. rewrite IH. unfold bind, ret.
    destruct (run_phases m E fuel phs1 z3) as [r1 z4| | | |]; auto. destruct (run_phases m E fuel phs2 z4) as [r2 z5| | | |]; auto.
Qed.

(** The last session of a client that keeps its storage. *)
Lemma run_iclient_last E fuel m bs cl phs k rs r z : iclient_ok E fuel m bs cl -> ic_phases cl = phs ++ [PhSer k rs] -> ic_drop cl = false ->
  run_iclient m E fuel cl z_new = Ok r z ->
  exists r0 outs w, r = r0 ++ [outs] /\ storage_ok w /\ session k E m fuel rs (from_storage w) = Ok outs z.
Proof.
  intros (_ & HE & Hc & Hp) Hl Hd. unfold run_iclient. rewrite Hd, Hl in *. unfold bind at 1. unfold lift at 1.
  pose proof (with_capacity_spec C HA (ic_cap cl) Hc) as H1. change (z_sw z_new) with sw_new.
  destruct (with_capacity (ic_cap cl) sw_new) as [u w0|e w0| | |] eqn:E0; try discriminate.
  destruct H1 as (_ & Hok0 & _). unfold bind at 1. rewrite run_phases_app. unfold bind at 1. 
  apply Forall_app in Hp. destruct Hp as [Hp _].
  pose proof (phases_end E fuel m bs phs HE Hp (mkZ w0 (z_map z_new) (z_ptrs z_new)) Hok0) as H2.
  destruct (run_phases m E fuel phs _) as [r0 z1|e z1| | |]; try discriminate.
  cbn [run_phases]. unfold bind at 1.
  assert (Hb : forall A (f : M zs A), bind (set_map map_dummy ;;; set_ptrs ptrs_new) (fun _ => f) z1 = f (from_storage (z_sw z1)))
      by (intros A f; destruct z1; reflexivity).
  rewrite Hb. clear Hb. unfold bind. destruct (session k E m fuel rs (from_storage (z_sw z1))) as [outs z2|e z2| | |] eqn:Es; try discriminate.
  cbn. intros H. injection H as <- <-. exists r0, outs, (z_sw z1). auto.
Qed.
End NoUB.

(** ** What may be done does not depend on the allocator *)
Section OtherAllocator.
Variable P : Params.
Variable o : nat -> N -> N.
Notation PO := (with_orc P o).

Lemma steps_orc E m fuel size al a ss : steps_ok (P := P) E m fuel size al a ss -> steps_ok (P := PO) E m fuel size al a ss.
Proof.
  revert size al a ss.
  apply (steps_ok_mut P E m fuel (fun size al a s _ => step_ok (P := PO) E m fuel size al a s) (fun size al a ss _ => steps_ok (P := PO) E m fuel size al a ss)); intros.
  - apply (OK_push (P := PO)); assumption.
  - apply (OK_plain (P := PO)); assumption.
  - apply (OK_raw (P := PO)); assumption.
  - apply (OK_over (P := PO)); assumption.
  - apply (OK_field (P := PO)); try assumption; [apply wf_orc; assumption|apply repr_orc; assumption].
  - apply (OK_store (P := PO)); assumption.
  - apply (OK_panic (P := PO)).
  - apply (OKS_nil (P := PO)).
  - apply (OKS_cons (P := PO)); assumption.
Qed.
Lemma step_lent_orc E m fuel bs : forall s a, step_lent (P := P) E m fuel bs a s -> step_lent (P := PO) E m fuel bs a s.
Proof.
  fix IH 1. intros s a. destruct s as [off l tp n body|off l tp n|l tp n|off l data|off t v|o'|]; cbn [step_lent]; auto.
  intros [H1 H2]. split; [exact H1|]. clear H1. induction body as [|s body IHb]; [exact Logic.I|].
  split; [apply IH, H2|apply IHb, H2].
Qed.
Lemma iclient_ok_orc E fuel m bs cl : iclient_ok (P := P) E fuel m bs cl -> iclient_ok (P := PO) E fuel m bs cl.
Proof.
  intros (C & HE & Hc & Hp). split; [exact C|]. split; [apply env_orc; exact HE|]. split; [exact Hc|].
  eapply Forall_impl; [|exact Hp]. intros [os|k rs] H; [exact H|]. eapply Forall_impl; [|exact H].
  intros [[l a] ss] ((R1 & R2 & R3 & R4) & R5 & R6).
  split; [|split; [exact R5|eapply Forall_impl; [|exact R6]; intros s; apply step_lent_orc]]. repeat (split; [assumption|]). apply steps_orc. exact R4.
Qed.
End OtherAllocator.

(** ** Safe alone *)
Section JobSafe.
Context {P : Params}.

(** The model's parameters for a job, with the allocator [o]. *)
Definition ijob_params (j : ijob) (o : nat -> N -> N) : Params := with_orc (with_consts P (i_consts j)) o.

Lemma ijob_alone (t : task ijob hz (list (list (N * option N)))) o : ijob_ok t -> orc_ok (tk_al t) o ->
  same_outcomeq (iend_state (P := ijob_params (tk_job t) o) (i_client (tk_job t))) (same_ser (P := ijob_params (tk_job t) o))
    (alone (P := with_orc P o) (tk_mem t) (tk_prog t) loc_new)
    (run_iclient (P := ijob_params (tk_job t) o) (tk_mem t) (i_env (tk_job t)) (i_fuel (tk_job t)) (i_client (tk_job t)) z_new).
Proof.
  intros (H1 & H2 & H3) Ho. rewrite H3.
  exact (sim_iclient (P := ijob_params (tk_job t) o) (tk_mem t) (i_env (tk_job t)) (i_fuel (tk_job t)) (i_client (tk_job t)) hz_new loc_new z_new
          (same_start (ijob_params (tk_job t) o))).
Qed.

Theorem ijob_safe t : ijob_ok t -> safe_alone t.
Proof.
  intros H. pose proof H as (H1 & H2 & H3). split.
  - rewrite H2, H3. exact (iclient_confined (P := with_consts P (i_consts (tk_job t))) _ _ _ _ _ H1).
  - intros o Ho Hu. pose proof (ijob_alone t o H Ho) as Hs. rewrite Hu in Hs.
    pose proof (iclient_ok_orc (with_consts P (i_consts (tk_job t))) o _ _ _ _ _ H1) as H1'.
    pose proof (run_iclient_ends (P := ijob_params (tk_job t) o) (proj1 H1') ltac:(intros n size; rewrite H2 in Ho; exact (Ho n size))
      (i_env (tk_job t)) (i_fuel (tk_job t)) (tk_mem t) (tk_reads t) (i_client (tk_job t)) H1') as He.
    unfold same_outcomeq in Hs. destruct (run_iclient _ _ _ _ _) as [| | | |]; try contradiction.
Qed.
End JobSafe.
