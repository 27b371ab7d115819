(** * MixedJobs: threads that run programs mixing derived, built-in and hand-written implementations.

    The programs of ProgMixed.v run alone are the model of Mixed.v; they read what they are lent
    only; a valid client is not undefined.  MachineFacts.v then makes them safe together. *)
From Verif Require Import Base Types Storage ArithFacts TypeFacts StorageFacts StorageHist StorageProps Spec Serializer Serialize SerFacts SerValue SerMain SerRoot SerProps PropTree
  Client ClientSpec ClientFacts PropClient PropResume Derive DeriveSpec Mixed MixedFacts PropMixed PropMixedSession
  Prog ProgSer ProgClient ProgMixed Alone AloneSer Confined Machine MachineFacts Jobs ClientJobs.
From Coq Require Import Arith ZifyBool ZifyNat ZifyN.
Local Open Scope N_scope.

(** ** What a client may be lent *)
Section Lent.
Context {P : Params} {L : Lexer}.
Variable mp : mprogram.
Variable m : mem.
Variable bs : list (N * N).
Variable sf : nat.
Notation E := (mp_env mp).

(** What a hand-written implementation reads, and what its calls read (ClientJobs.step_lent), is in the ranges [bs]. *)
Fixpoint reader_lent {A} (r : reader A) : Prop :=
  match r with
  | RDone _ => True
  | RLoad a n k => within bs a n /\ reader_lent (k (cells m a n))
  end.
Definition impl_lent (r : reader (list step)) (a : N) : Prop :=
  reader_lent r /\ steps_lent E m sf bs a (read_all m r).

Fixpoint elems_lent (n : nat) (a sz : N) (g : N -> Prop) : Prop :=
  match n with
  | O => True
  | S n' => g a /\ elems_lent n' (a + sz) sz g
  end.
Fixpoint fields_lent (fs : list (N * ty)) (a : N) (g : ty -> N -> Prop) : Prop :=
  match fs with
  | [] => True
  | (off, t) :: fs' => g t (a + off) /\ fields_lent fs' a g
  end.
Fixpoint calls_lent (fs : list (N * ty)) (a : N) (cs : list call) (g : ty -> N -> Prop) : Prop :=
  match cs with
  | [] => True
  | (c, n) :: cs' =>
      match nth_error fs n with
      | Some (off, t) =>
          match c with
          | CSerialize => g t (a + off)
          | CWith w => impl_lent (mp_with mp w t (a + off)) (a + off)
          end /\ calls_lent fs a cs' g
      | None => True
      end
  end.
Definition derived_lent (i : input) (v : option nat) (fs : list (N * ty)) (a : N) (g : ty -> N -> Prop) : Prop :=
  match generated i v with Some cs => calls_lent fs a cs g | None => True end.

(** What serializing the [t] at [a] reads, other than its own bytes, is in the ranges [bs]. *)
Fixpoint mx_lent (fuel : nat) (t : ty) (a : N) : Prop :=
  match fuel with
  | O => False
  | S fuel' =>
      match t with
      | TPrim _ _ => True
      | TBox t' => size_of E t' <> 0 -> exists p, read_word m a = Some p /\ within bs p (size_of E t') /\ mx_lent fuel' t' p
      | TVec vl t' =>
          size_of E t' <> 0 -> exists len p, read_word m (a + len_off vl) = Some len /\ read_word m (a + ptr_off vl) = Some p /\
            (len <> 0 -> within bs p (size_of E t' * len) /\ elems_lent (N.to_nat len) p (size_of E t') (mx_lent fuel' t'))
      | TString vl =>
          exists len p, read_word m (a + len_off vl) = Some len /\ read_word m (a + ptr_off vl) = Some p /\ (len <> 0 -> within bs p len)
      | TArray t' n => elems_lent (N.to_nat n) a (size_of E t') (mx_lent fuel' t')
      | TStruct _ fs => fields_lent fs a (mx_lent fuel')
      | TEnum _ d vss => exists v fs, read_discr m a d = Some v /\ nth_error vss v = Some fs /\ fields_lent fs a (mx_lent fuel')
      | TNamed id =>
          match mp_hand mp id, mp_derived mp id, E id with
          | Some h, _, _ => impl_lent (h a) a
          | None, Some i, Some (TStruct _ fs) => derived_lent i None fs a (mx_lent fuel')
          | None, Some i, Some (TEnum _ d vss) =>
              exists v fs, read_discr m a d = Some v /\ nth_error vss v = Some fs /\ derived_lent i (Some v) fs a (mx_lent fuel')
          | _, _, _ => True
          end
      end
  end.

(** A value that may be given to the serializer: valid, not zero-sized, and lent to the client with all its parts. *)
Definition minput_ok (f : nat) (x : ty * N) : Prop :=
  let '(t, a) := x in
  (exists v, session_input E m f (t, a, v)) /\ within bs a (size_of E t) /\ mx_lent f t a.
Definition mphase_ok (f : nat) (ph : mphase) : Prop :=
  match ph with
  | MOps os => Forall (hop_ok m) os /\ incl (flat_map hop_reads os) bs
  | MSer k xs => Forall (minput_ok f) xs
  end.
(** The client may be run when the memory is [m], reading only [bs]. *)
Definition mclient_ok (f : nat) (cl : mclient) : Prop :=
  cfg_ok /\ lexer_ok /\ wf_env E /\ program_ok (at_memory mp) /\ well_behaved (at_memory mp) m sf /\
  mc_cap cl < umod /\ Forall (mphase_ok f) (mc_phases cl).
End Lent.

(** A job: the constants of the storage, the program, and the client. *)
Record mjob := mkMjob { j_consts : consts; j_prog : mprogram; j_sf : nat; j_fuel : nat; j_client : mclient }.
Definition mjob_prog {P : Params} {L : Lexer} (j : mjob) : prog hz (list (list (N * option N))) :=
  h_mclient (P := with_consts P (j_consts j)) (j_prog j) (j_sf j) (j_fuel j) (j_client j) hz_new.
Definition mjob_ok {P : Params} {L : Lexer} (t : task mjob hz (list (list (N * option N)))) : Prop :=
  mclient_ok (P := with_consts P (j_consts (tk_job t))) (j_prog (tk_job t)) (tk_mem t) (tk_reads t) (j_sf (tk_job t)) (j_fuel (tk_job t))
    (j_client (tk_job t)) /\
  tk_al t = cs_SA (j_consts (tk_job t)) /\ tk_prog t = mjob_prog (tk_job t).

(** ** The program is the model *)
Section Same.
Context {P : Params} {L : Lexer}.
Variable m : mem.
Variable mp : mprogram.
Notation E := (mp_env mp).
Notation pg := (at_memory mp).
Notation sim := (sim m same_ser).

Lemma alone_reader {A} (r : reader A) : forall s L0, alone m (h_reader r s) L0 = Ok (read_all m r) (s, L0).
Proof. induction r as [x|a n k IH]; intros s L0; cbn [h_reader read_all alone]; [reflexivity|apply IH]. Qed.

Section Impl.
Variable k : kind.
Variable sf : nat.

Lemma sim_impl r a : sim (h_impl mp k sf r a) (run_steps k E m sf a (read_all m r)).
Proof.
  intros s L0 z HR. unfold h_impl, hbind. rewrite alone_pthen, alone_reader. apply (sim_run_steps m k E sf _ a s L0 z HR).
Qed.
Lemma sim_exec hr r fs a : (forall t x, sim (hr t x) (r t x)) -> forall cs, sim (h_exec mp k sf hr fs a cs) (exec pg k m sf r fs a cs).
Proof.
  intros H. induction cs as [|[c n] cs IH]; cbn [h_exec exec]; [apply sim_ret|].
  destruct (nth_error fs n) as [[off t]|]; [|apply sim_panics].
  apply sim_bind; [|intros _; exact IH]. destruct c as [|w]; cbn [h_callee_run callee_run]; [apply H|apply sim_impl].
Qed.
Lemma sim_exec_derived hr r i v fs a : (forall t x, sim (hr t x) (r t x)) ->
  sim (h_exec_derived mp k sf hr i v fs a) (exec_derived pg k m sf r i v fs a).
Proof. intros H. unfold h_exec_derived, exec_derived. destruct (generated i v); [apply sim_exec, H|apply sim_panics]. Qed.

Lemma sim_on_variant {A} a d (h : nat -> HM hz A) (c : nat -> M zs A) : (forall v, sim (h v) (c v)) ->
  sim (v <~ h_variant a d ;; h v) (match read_discr m a d with Some v => c v | None => ub end).
Proof.
  intros H s L0 z HR. unfold hbind. rewrite alone_pthen. pose proof (sim_variant m a d s L0 z HR) as Hv.
  destruct (read_discr m a d) as [v|]; rewrite Hv; [|exact Logic.I]. apply (H v s L0 z HR).
Qed.

Lemma sim_mx_data fuel : forall t a, sim (h_mx_data mp k sf fuel t a) (mx_data pg k m sf fuel t a).
Proof.
  induction fuel as [|fuel IH]; intros t a; cbn [h_mx_data mx_data].
  - intros s L0 z HR. exact Logic.I.
  - destruct t as [l ok|t'|vl t'|vl|t' n|l fs|l d vss|id].
    + apply sim_ret.
    + apply sim_ser_box. exact IH.
    + apply sim_ser_vec. exact IH.
    + apply sim_ser_string.
    + apply sim_for_elems. intros x. apply IH.
    + apply sim_for_fields. exact IH.
    + apply (sim_on_variant a d (fun v => match nth_error vss v with Some fs => h_for_fields fs a (h_mx_data mp k sf fuel) | None => hub end)
        (fun v => match nth_error vss v with Some fs => for_fields fs a (mx_data pg k m sf fuel) | None => ub end)).
      intros v. destruct (nth_error vss v) as [fs|]; [apply sim_for_fields; exact IH|apply sim_ub].
    + unfold impl_for. cbn [at_memory pr_hand pr_derived pr_env]. destruct (mp_hand mp id) as [h|]; cbn [option_map]; [apply sim_impl|].
      destruct (mp_derived mp id) as [i|]; [|destruct (E id); apply sim_panics].
      destruct (E id) as [[l ok|t'|vl t'|vl|t' n|l fs|l d vss|id']|]; try apply sim_panics.
      * apply sim_exec_derived. exact IH.
      * apply (sim_on_variant a d (fun v => match nth_error vss v with Some fs => h_exec_derived mp k sf (h_mx_data mp k sf fuel) i (Some v) fs a | None => hub end)
          (fun v => match nth_error vss v with Some fs => exec_derived pg k m sf (mx_data pg k m sf fuel) i (Some v) fs a | None => ub end)).
        intros v. destruct (nth_error vss v) as [fs|]; [apply sim_exec_derived; exact IH|apply sim_ub].
Qed.

Variable f : nat.
Lemma sim_mx_attempt_all xs : sim (h_mx_attempt_all mp k sf f xs) (mx_attempt_all pg k m sf f xs).
Proof.
  induction xs as [|[t a] xs IH]; cbn [h_mx_attempt_all mx_attempt_all]; [apply sim_ret|].
  apply sim_bind; [apply sim_ser_pos|intros b].
  apply sim_bind; [apply sim_ccatch, sim_serialize_value_with, sim_mx_data|intros r].
  apply sim_bind; [exact IH|intros outs; apply sim_ret].
Qed.
Lemma sim_mx_session xs : sim (h_mx_session mp k sf f xs) (mx_session pg k m sf f xs).
Proof.
  unfold h_mx_session, mx_session. apply sim_bind; [apply sim_mx_attempt_all|intros outs].
  apply sim_bind; [apply sim_finalize|intros _; apply sim_ret].
Qed.
End Impl.

Lemma sim_run_mphases sf f phs : sim (h_run_mphases mp sf f phs) (run_mphases m mp sf f phs).
Proof.
  induction phs as [|[os|k xs] phs IH]; cbn [h_run_mphases run_mphases]; [apply sim_ret| |].
  - apply sim_bind; [apply sim_lift, sim_run_ops|intros _; exact IH].
  - unfold h_from_storage. apply sim_bind; [apply sim_bind; [apply sim_set_map|intros _; apply sim_set_ptrs]|intros _].
    apply sim_bind; [apply sim_mx_session|intros outs]. apply sim_bind; [exact IH|intros rest; apply sim_ret].
Qed.

(** The states at the end are the same, but for the contents of a storage that was dropped. *)
Definition mend_state (cl : mclient) (r : list (list (N * option N))) (s : hz) (L0 : loc) (z : zs) : Prop :=
  if mc_drop cl then gone (hz_h s) L0 (z_sw z) else same_ser s L0 z.

Lemma sim_mclient sf f cl :
  simq m (fun s L0 z => same_ser s L0 z /\ s_cap (sw_s (z_sw z)) = 0) (mend_state cl) same_ser (h_mclient mp sf f cl) (run_mclient m mp sf f cl).
Proof.
  unfold h_mclient, run_mclient.
  apply simq_bind with (Mid := fun _ => same_ser).
  { intros s L0 t ((H1 & H2 & H3) & H0). unfold hlift, lift. rewrite alone_pthen.
    pose proof (sim_with_capacity m (mc_cap cl) (hz_h s) L0 (z_sw t) (conj H1 H0)) as H. unfold same_outcomeq in *.
    destruct (alone m (h_with_capacity (mc_cap cl) (hz_h s)) L0) as [a [s' L']|e [s' L']| | |], (with_capacity (mc_cap cl) (z_sw t)) as [b t'|e' t'| | |]; try contradiction; auto;
      cbn [alone] in *; destruct H as [-> H]; (split; [reflexivity|]); split; auto. }
  intros _. apply simq_bind with (Mid := fun _ => same_ser); [apply sim_run_mphases|intros r].
  apply simq_bind with (Mid := fun _ => mend_state cl r).
  - unfold mend_state. destruct (mc_drop cl).
    + intros s L0 t (H1 & H2 & H3). unfold hlift, lift. rewrite alone_pthen. pose proof (sim_drop m (hz_h s) L0 (z_sw t) H1) as H. unfold same_outcomeq in *.
      destruct (alone m (h_drop (hz_h s)) L0) as [a [s' L']|e [s' L']| | |], (drop_store (z_sw t)) as [b t'|e' t'| | |]; try contradiction; auto;
        cbn [alone] in *; destruct H as [-> H]; (split; [reflexivity|]); auto. split; auto.
    + apply sim_ret.
  - intros _ s L0 t HR. cbn. auto.
Qed.
End Same.

(** ** The program reads what it was lent *)
Section Reads.
Context {P : Params} {L : Lexer}.
Variable mp : mprogram.
Variable m : mem.
Variable bs : list (N * N).
Variable sf : nat.
Notation E := (mp_env mp).
Notation pg := (at_memory mp).
Notation hconf := (hconf m bs SA).
Hypothesis HE : wf_env E.

Lemma hc_reader {A B} (r : reader A) (f : A -> HM hz B) : reader_lent m bs r -> hconf (f (read_all m r)) -> hconf (hbind (h_reader r) f).
Proof.
  induction r as [x|a n k IH]; intros Hr Hf s; cbn [h_reader read_all] in *; unfold hbind; cbn [pthen confined].
  - apply Hf.
  - destruct Hr as [H1 H2]. split; [exact H1|]. apply (IH (cells m a n) H2 Hf s).
Qed.
Lemma hc_impl k r size al a : impl_lent mp m bs sf r a -> steps_ok E m sf size al a (read_all m r) -> within bs a size ->
  hconf (h_impl mp k sf r a).
Proof. intros [H1 H2] H3 H4. unfold h_impl. apply hc_reader; [exact H1|]. eapply hc_steps; eauto. Qed.

Lemma hc_elems n : forall a sz hf g, elems_lent n a sz g -> 
  (forall i, (i < n)%nat -> g (a + sz * N.of_nat i) -> hconf (hf (a + sz * N.of_nat i))) -> hconf (h_for_elems n a sz hf).
Proof.
  induction n as [|n IH]; intros a sz hf g Hl Hf; cbn [h_for_elems elems_lent] in *; [apply hconf_pu|].
  destruct Hl as [H1 H2]. apply hconf_bind.
  - specialize (Hf O ltac:(lia)). rewrite N.mul_0_r, N.add_0_r in Hf. auto.
  - intros _. apply (IH _ _ _ g H2). intros i Hi. specialize (Hf (S i) ltac:(lia)).
    replace (a + sz * N.of_nat (S i)) with (a + sz + sz * N.of_nat i) in Hf by lia. exact Hf.
Qed.
Lemma hc_fields fs : forall a hf g, fields_lent fs a g ->
  (forall o t, In (o, t) fs -> g t (a + o) -> hconf (hf t (a + o))) -> hconf (h_for_fields fs a hf).
Proof.
  induction fs as [|[o t] fs IH]; intros a hf g Hl Hf; cbn [h_for_fields fields_lent] in *; [apply hconf_pu|].
  destruct Hl as [H1 H2]. apply hconf_bind; [apply Hf; [left; reflexivity|exact H1]|].
  intros _. apply (IH a hf g H2). intros o' t' Hin. apply Hf. right. exact Hin.
Qed.
Lemma hc_exec k hr fs a g cs : calls_lent mp m bs sf fs a cs g ->
  (forall n o t, nth_error fs n = Some (o, t) -> g t (a + o) -> hconf (hr t (a + o))) ->
  (forall n w o t, In (CWith w, n) cs -> nth_error fs n = Some (o, t) ->
     impl_lent mp m bs sf (mp_with mp w t (a + o)) (a + o) -> hconf (h_impl mp k sf (mp_with mp w t (a + o)) (a + o))) ->
  hconf (h_exec mp k sf hr fs a cs).
Proof.
  induction cs as [|[c n] cs IH]; intros Hl H1 H2; cbn [h_exec calls_lent] in *; [apply hconf_pu|].
  destruct (nth_error fs n) as [[o t]|] eqn:En; [|apply hconf_pu]. destruct Hl as [Hl Hr].
  apply hconf_bind; [|intros _; apply IH; [exact Hr|exact H1|]].
  - destruct c as [|w]; cbn [h_callee_run]; [eapply H1; eauto|eapply H2; eauto; left; reflexivity].
  - intros n' w o' t' Hi. apply H2. right. exact Hi.
Qed.

Lemma field_at fs a vs : repr_fields E any_header m fs a vs -> forall n o t, nth_error fs n = Some (o, t) ->
  exists v, repr E any_header m t (a + o) v.
Proof.
  intros H. induction H as [a|off t fs a v vs H1 H2 IH]; intros [|n] o u Hn; cbn in Hn; try discriminate.
  - injection Hn as <- <-. eauto.
  - eauto.
Qed.
Lemma elem_at t a vs : repr_elems E any_header m t a vs -> forall i, (i < length vs)%nat ->
  exists v, repr E any_header m t (a + size_of E t * N.of_nat i) v.
Proof.
  intros H. induction H as [t a|t a v vs H1 H2 IH]; intros [|i] Hi; cbn [length] in Hi; try lia.
  - rewrite N.mul_0_r, N.add_0_r. eauto.
  - destruct (IH i ltac:(lia)) as [v' Hv]. exists v'. replace (a + size_of E t * N.of_nat (S i)) with (a + size_of E t + size_of E t * N.of_nat i) by lia. exact Hv.
Qed.
Lemma fields_inside l fs : fields_ok E l fs -> forall n o t, nth_error fs n = Some (o, t) -> o + size_of E t <= l_size l.
Proof. intros G. induction G; intros [|n] o u Hn; cbn in Hn; try discriminate; [injection Hn as <- <-; assumption|eauto]. Qed.

Section Data.
Variable k : kind.
Hypothesis LO : lexer_ok.
Hypothesis PO : program_ok pg.
Hypothesis WB : well_behaved pg m sf.

Lemma hc_variant {B} a d l vss (f : nat -> HM hz B) : discr_ok E l vss d -> within bs a (l_size l) ->
  (forall v, read_discr m a d = Some v -> hconf (f v)) -> hconf (hbind (h_variant a d) f).
Proof.
  intros Hd Ha Hf. assert (Ho : match d with DSingle _ => True | DTag off sz _ | DNiche off sz _ _ => off + sz <= l_size l end).
  { inversion Hd; subst; auto. }
  unfold h_variant, read_discr in *. destruct d as [v|off sz vals|off sz df ns].
  - intros s. exact (Hf v eq_refl s).
  - intros s. unfold hbind. cbn. split; [eapply within_sub; [| |exact Ha]; lia|]. rewrite read_cells by lia.
    destruct (read_int m (a + off) sz) as [n|]; cbn; [|exact Logic.I]. destruct (index_of n vals); cbn; [apply Hf; reflexivity|exact Logic.I].
  - intros s. unfold hbind. cbn. split; [eapply within_sub; [| |exact Ha]; lia|]. rewrite read_cells by lia.
    destruct (read_int m (a + off) sz) as [n|]; cbn; [|exact Logic.I]. apply Hf. destruct (assoc n ns); reflexivity.
Qed.

Lemma hc_mx_data fuel : forall t a v, wf_ty E t -> repr E any_header m t a v -> a + size_of E t <= umod ->
  mx_lent mp m bs sf fuel t a -> within bs a (size_of E t) -> hconf (h_mx_data mp k sf fuel t a).
Proof.
  induction fuel as [|fuel IH]; intros t a v Hw Hr Hu Hl Ha; cbn [h_mx_data mx_lent] in *; [contradiction|].
  assert (HF : forall l fs vs, fields_ok E l fs -> (forall o t, In (o, t) fs -> wf_ty E t) -> a + l_size l <= umod -> within bs a (l_size l) ->
    repr_fields E any_header m fs a vs ->
    forall n o t, nth_error fs n = Some (o, t) -> mx_lent mp m bs sf fuel t (a + o) -> hconf (h_mx_data mp k sf fuel t (a + o))).
  { intros l fs vs G1 G2 G3 G4 G5 n o u Hn Hu'. destruct (field_at fs a vs G5 n o u Hn) as [v' Hv].
    pose proof (fields_inside l fs G1 n o u Hn). apply (IH u (a + o) v'); auto; [eapply G2, nth_error_In; exact Hn|lia|].
    eapply within_sub; [| |exact G4]; lia. }
  assert (HFs : forall l fs vs, fields_ok E l fs -> (forall o t, In (o, t) fs -> wf_ty E t) -> a + l_size l <= umod -> within bs a (l_size l) ->
    repr_fields E any_header m fs a vs -> fields_lent fs a (mx_lent mp m bs sf fuel) -> hconf (h_for_fields fs a (h_mx_data mp k sf fuel))).
  { intros l fs vs G1 G2 G3 G4 G5 G6. eapply hc_fields; [exact G6|]. intros o u Hin. apply In_nth_error in Hin. destruct Hin as [n Hn].
    eapply HF; eassumption. }
  assert (HEl : forall u b n, wf_ty E u -> b + size_of E u * N.of_nat n <= umod -> within bs b (size_of E u * N.of_nat n) ->
    (forall i, (i < n)%nat -> exists v, repr E any_header m u (b + size_of E u * N.of_nat i) v) ->
    elems_lent n b (size_of E u) (mx_lent mp m bs sf fuel u) -> hconf (h_for_elems n b (size_of E u) (h_mx_data mp k sf fuel u))).
  { intros u b n G1 G2 G3 G4 G5. eapply hc_elems; [exact G5|]. intros i Hi Hx. destruct (G4 i Hi) as [v' Hv].
    assert (size_of E u * N.of_nat i + size_of E u <= size_of E u * N.of_nat n) by nia.
    apply (IH u _ v'); auto; [lia|]. eapply within_sub; [| |exact G3]; lia. }
  destruct t as [l ok|t'|vl t'|vl|t' n|l fs|l d vss|id].
  - apply hconf_pu.
  - unfold h_ser_box. destruct (N.eqb_spec (size_of E t') 0) as [Z|Z]; [apply hconf_pu|].
    destruct (Hl Z) as (p & Hp & Hpw & Hpl). inversion Hr as [|t0 a0 p' v' H1 H2 H3 H4| | | | | |]; subst. rewrite Hp in H1. injection H1 as <-.
    apply hconf_bind; [apply hconf_pu|intros ad].
    apply hc_load_word. { eapply within_sub; [| |exact Ha]; [lia|]. change (size_of E (TBox t')) with pW. lia. }
    intros p' Hp'. rewrite Hp in Hp'. injection Hp' as <-.
    apply hconf_bind; [|intros _; apply hconf_pu]. apply hc_push_and_process_slice.
    + intros _. replace (l_size (layout_of E t') * 1) with (size_of E t') by (unfold size_of; lia). exact Hpw.
    + apply (IH t' p v'); auto; [inversion Hw; assumption|]. destruct H2 as (_ & _ & H2). unfold size_of. lia.
  - pose proof (vec_words vl) as (V1 & V2 & V3). unfold h_ser_vec.
    assert (H3 : size_of E (TVec vl t') = 3 * pW) by reflexivity. rewrite H3 in Ha.
    destruct (N.eqb_spec (size_of E t') 0) as [Z|Z]; [apply hconf_pu|].
    destruct (Hl Z) as (len & p & Hlen & Hp & Hrest).
    inversion Hr as [| |vl0 t0 a0 c p' vs R1 R2 R3 R4 R5 R6| | | | |]; subst. rewrite Hp in R2. injection R2 as <-. rewrite Hlen in R3. injection R3 as ->.
    apply hc_load_word; [eapply within_sub; [| |exact Ha]; lia|]. intros len Hl'. rewrite Hlen in Hl'. injection Hl' as <-.
    apply hconf_if; intros Z0.
    + apply hc_overwrite_with. apply hc_load_word; [eapply within_sub; [| |exact Ha]; lia|]. intros cap _.
      apply hconf_if; intros _; [|apply hconf_pu]. apply hconf_bind; [apply hconf_pu|intros vo]. apply hc_overwrite_empty.
    + apply hconf_bind; [|intros _].
      { apply hc_overwrite_with. apply hc_load_word; [eapply within_sub; [| |exact Ha]; lia|]. intros cap _.
        apply hconf_if; intros _; [|apply hconf_pu]. do 2 (apply hconf_bind; [apply hconf_pu|intros ?]). apply hc_overwrite. }
      do 2 (apply hconf_bind; [apply hconf_pu|intros ?]).
      apply hc_load_word; [eapply within_sub; [| |exact Ha]; lia|]. intros p' Hp'. rewrite Hp in Hp'. injection Hp' as <-.
      apply N.eqb_neq in Z0. destruct (Hrest Z0) as [Hpw Hel].
      apply hconf_bind; [|intros _; apply hconf_pu]. apply hc_push_and_process_slice; [intros _; exact Hpw|].
      apply HEl.
      * inversion Hw; assumption.
      * rewrite N2Nat.id. destruct R4 as ((_ & _ & R4) & _). exact R4.
      * rewrite N2Nat.id. exact Hpw.
      * intros i Hi. eapply elem_at; [exact R6|]. lia.
      * exact Hel.
  - pose proof (vec_words vl) as (V1 & V2 & V3). unfold h_ser_string.
    assert (H3 : size_of E (TString vl) = 3 * pW) by reflexivity. rewrite H3 in Ha.
    destruct Hl as (len & p & Hlen & Hp & Hrest).
    apply hc_load_word; [eapply within_sub; [| |exact Ha]; lia|]. intros len' Hl'. rewrite Hlen in Hl'. injection Hl' as <-.
    apply hconf_if; intros Z0.
    + apply hc_overwrite_with. apply hc_load_word; [eapply within_sub; [| |exact Ha]; lia|]. intros cap _.
      apply hconf_if; intros _; [|apply hconf_pu]. apply hconf_bind; [apply hconf_pu|intros vo]. apply hc_overwrite_empty.
    + apply hconf_bind; [|intros _].
      { apply hc_overwrite_with. apply hc_load_word; [eapply within_sub; [| |exact Ha]; lia|]. intros cap _.
        apply hconf_if; intros _; [|apply hconf_pu]. do 2 (apply hconf_bind; [apply hconf_pu|intros ?]). apply hc_overwrite. }
      do 2 (apply hconf_bind; [apply hconf_pu|intros ?]).
      apply hc_load_word; [eapply within_sub; [| |exact Ha]; lia|]. intros p' Hp'. rewrite Hp in Hp'. injection Hp' as <-.
      apply N.eqb_neq in Z0. apply hconf_bind; [|intros _; apply hconf_pu]. apply hc_ser_push_slice. intros _. cbn [u8_layout l_size].
      rewrite N.mul_1_l. auto.
  - inversion Hr as [| | | |t0 n0 a0 vs R1 R2| | |]; subst. rewrite Nat2N.id in *.
    apply HEl; auto; [inversion Hw; assumption|]. intros i Hi. eapply elem_at; eassumption.
  - inversion Hr as [| | | | |l0 fs0 a0 vs R1| |]; subst. inversion Hw as [| | | | |l0 fs0 G1 G2 G3| |]; subst.
    eapply HFs; eassumption.
  - destruct Hl as (j & fs & L1 & L2 & L3).
    inversion Hr as [| | | | | |l0 d0 vss0 a0 j' fs' vs R1 R2 R3|]; subst. rewrite L1 in R1. injection R1 as <-. rewrite L2 in R2. injection R2 as <-.
    inversion Hw as [| | | | | |l0 d0 vss0 G1 G2 G3 G4|]; subst.
    eapply hc_variant; [exact G2|exact Ha|]. intros j' Hj. rewrite L1 in Hj. injection Hj as <-. rewrite L2.
    eapply HFs; [exact (G3 j fs L2)|exact (fun o t => G4 j fs o t L2)|exact Hu|exact Ha|exact R3|exact L3].
  - inversion Hr as [| | | | | | |id' d a' v' R1 R2]; subst.
    pose proof (PO id d R1) as Pk. unfold impl_for in Pk. cbn [at_memory pr_hand pr_derived] in Pk.
    assert (HL : layout_of E (TNamed id) = layout_of E d) by (apply (named_size E HE); exact R1).
    assert (HD : size_of E (TNamed id) = size_of E d) by (unfold size_of; rewrite HL; reflexivity).
    destruct (HE id d R1) as [Wd _].
    destruct (mp_hand mp id) as [h|] eqn:Eh; cbn [option_map] in Pk.
    + destruct WB as [WB1 _].
      assert (Hi : impl_for pg id = IHand (fun m a => read_all m (h a))) by (unfold impl_for; cbn [at_memory pr_hand]; rewrite Eh; reflexivity).
      eapply hc_impl; [exact Hl|exact (WB1 id _ Hi a v Hr Hu)|exact Ha].
    + destruct (mp_derived mp id) as [i|] eqn:Ei; [|contradiction].
      assert (Hi : impl_for pg id = IDerived i) by (unfold impl_for; cbn [at_memory pr_hand pr_derived]; rewrite Eh, Ei; reflexivity).
      rewrite R1 in Hl |- *. rewrite HD in Hu, Ha.
      inversion Pk as [l fs dfs im Ed Hlg Hn Hg Hq|l dd vss vs im Ed Hlg Hn Hg]; subst.
      * inversion R2 as [| | | | |l0 fs0 a0 vs Q1| |]; subst. inversion Wd as [| | | | |l0 fs0 G1 G2 G3| |]; subst.
        destruct (pick_callees _ Hq) as [cs Hcs].
        destruct (struct_generated LO i dfs im cs Ed Hlg Hg Hcs) as (ks & K1 & K2 & K3).
        unfold h_exec_derived, derived_lent in *. rewrite K1 in *.
        eapply hc_exec; [exact Hl|intros n o t; eapply HF; eassumption|].
        intros n w o t Hin Hn2 Hil.
        assert (Hc : nth_error cs n = Some (CWith w)).
        { apply In_nth_error in Hin. destruct Hin as [j Hj].
          assert (n = j).
          { pose proof (map_nth_error snd j ks Hj) as Hs. rewrite K2 in Hs. cbn in Hs.
            assert (j < length (field_list dfs))%nat by (rewrite <- (seq_length (length (field_list dfs)) 0); apply nth_error_Some; congruence).
            rewrite (nth_error_nth' _ 0%nat) in Hs by (rewrite seq_length; lia). rewrite seq_nth in Hs by lia. injection Hs as <-. reflexivity. }
          subst j. rewrite <- K3. exact (map_nth_error fst n ks Hj). }
        assert (Hx : exists f, nth_error (field_list dfs) n = Some f /\ wanted f (CWith w)).
        { clear - Hcs Hc. revert n Hc. induction Hcs as [|f c l cs' Hf Hr IH]; intros [|n] Hc; cbn in *; try discriminate.
          - injection Hc as ->. eauto.
          - eauto. }
        destruct Hx as (f & Hnf & Hwf). inversion Hwf; subst.
        assert (Hp : proxied pg w t) by (exists id, i, l, fs, dfs, n, f, o; auto 10).
        destruct (field_at fs a vs Q1 n o t Hn2) as [v' Hv]. pose proof (fields_inside l fs G2 n o t Hn2).
        change (size_of E (TStruct l fs)) with (l_size l) in *.
        destruct WB as [_ WB2]. eapply hc_impl; [exact Hil| |].
        -- apply (WB2 w t Hp (a + o) v' Hv). cbn [at_memory pr_env]. lia.
        -- cbn [at_memory pr_env]. eapply within_sub; [| |exact Ha]; lia.
      * destruct Hl as (j & fs & L1 & L2 & L3).
        inversion R2 as [| | | | | |l0 d0 vss0 a0 j' fs' xs Q1 Q2 Q3|]; subst. rewrite L1 in Q1. injection Q1 as <-. rewrite L2 in Q2. injection Q2 as <-.
        inversion Wd as [| | | | | |l0 d0 vss0 G1 G2 G3 G4|]; subst.
        change (size_of E (TEnum l dd vss)) with (l_size l) in *.
        eapply hc_variant; [exact G2|exact Ha|]. intros j' Hj. rewrite L1 in Hj. injection Hj as <-. rewrite L2.
        assert (Hx : exists vv, nth_error vs j = Some vv /\ length (field_list (v_fields vv)) = length fs).
        { clear - Hn L2. revert j L2. induction Hn as [|x y l1 l2 Hxy Hr IH]; intros [|j] Nj; cbn in *; try discriminate.
          - injection Nj as ->. eauto.
          - eauto. }
        destruct Hx as (vv & Hv1 & Hv2). unfold h_exec_derived, derived_lent in *.
        rewrite (enum_generated LO i vs im j vv Ed Hlg Hg Hv1) in *.
        eapply hc_exec; [exact L3| |].
        -- intros n o t. eapply HF; [exact (G3 j fs L2)|exact (fun o t => G4 j fs o t L2)|exact Hu|exact Ha|exact Q3].
        -- intros n w o t Hin. exfalso. apply in_map_iff in Hin. destruct Hin as (x & Hx & _). discriminate.
Qed.
End Data.

Lemma hc_mx_session k f xs : lexer_ok -> program_ok pg -> well_behaved pg m sf ->
  Forall (minput_ok mp m bs sf f) xs -> hconf (h_mx_session mp k sf f xs).
Proof.
  intros LO PO WB H. unfold h_mx_session. apply hconf_bind; [|intros outs; apply hconf_bind; [apply hc_finalize|intros _; apply hconf_pu]].
  induction H as [|[t a] xs Hx _ IH]; cbn [h_mx_attempt_all]; [apply hconf_pu|].
  destruct Hx as ((v & (Hw & Hu & Hr) & _ & _) & Ha & Hl).
  apply hconf_bind; [apply hconf_pu|intros b]. apply hconf_bind; [|intros r; apply hconf_bind; [exact IH|intros outs; apply hconf_pu]].
  apply hconf_catch, hc_serialize_value_with.
  - intros _. rewrite N.mul_1_r. exact Ha.
  - eapply hc_mx_data; eauto.
Qed.
Lemma hc_mphases f phs : lexer_ok -> program_ok pg -> well_behaved pg m sf ->
  Forall (mphase_ok mp m bs sf f) phs -> hconf (h_run_mphases mp sf f phs).
Proof.
  intros LO PO WB. induction 1 as [|[os|k xs] phs Hp _ IH]; cbn [h_run_mphases mphase_ok] in *; [apply hconf_pu| |].
  - apply hconf_bind; [apply hc_lift, hc_ops, Hp|intros _; exact IH].
  - apply hconf_bind; [apply hconf_bind; [apply hconf_pu|intros _; apply hconf_pu]|intros _].
    apply hconf_bind; [apply hc_mx_session; assumption|intros outs]. apply hconf_bind; [exact IH|intros rest; apply hconf_pu].
Qed.
End Reads.

Lemma mclient_confined {P : Params} {L : Lexer} mp m bs sf f cl : mclient_ok mp m bs sf f cl -> confined m bs SA (h_mclient mp sf f cl hz_new).
Proof.
  intros (C & LO & HE & PO & WB & Hc & Hp). cut (hconf m bs SA (h_mclient mp sf f cl)); [intros K; apply K|]. unfold h_mclient.
  apply hconf_bind; [apply hc_lift, hc_with_capacity|intros _]. apply hconf_bind; [apply hc_mphases; assumption|intros r].
  apply hconf_bind; [|intros _; apply hconf_pu]. apply hconf_if; intros _; [apply hc_lift, hc_drop|apply hconf_pu].
Qed.

(** ** A valid client is not undefined *)
Section NoUB.
Context {P : Params} {L : Lexer}.
Hypothesis C : cfg_ok.
Hypothesis HA : alloc_ok.

Lemma with_values mp m bs sf f xs : Forall (minput_ok mp m bs sf f) xs ->
  exists ys, map place_of ys = xs /\ Forall (session_input (mp_env mp) m f) ys.
Proof.
  induction 1 as [|[t a] xs Hx _ (ys & I1 & I2)]; [exists []; split; [reflexivity|constructor]|].
  destruct Hx as ((v & Hv) & _). exists ((t, a, v) :: ys). cbn. rewrite I1. split; [reflexivity|]. constructor; assumption.
Qed.

Definition mclient_fit (mp : mprogram) (m : mem) (sf : nat) : Prop :=
  lexer_ok /\ wf_env (mp_env mp) /\ program_ok (at_memory mp) /\ well_behaved (at_memory mp) m sf.

Lemma mphases_end mp m bs sf f phs : mclient_fit mp m sf -> Forall (mphase_ok mp m bs sf f) phs -> forall z, storage_ok (z_sw z) ->
  match run_mphases m mp sf f phs z with
  | Ok r z' => storage_ok (z_sw z')
  | Abort => alloc_failed
  | _ => False
  end.
Proof.
  intros (LO & HE & PO & WB) H. induction H as [|[os|k xs] phs Hp _ IH]; intros z Hz; cbn [run_mphases mphase_ok] in *; [exact Hz| |].
  - unfold bind, lift. pose proof (ops_phase C HA m os (z_sw z) (proj1 Hp) Hz) as H.
    destruct (run_ops (map (op_of m) os) (z_sw z)) as [u w1|e w1| | |]; auto. apply IH. exact H.
  - destruct (with_values _ _ _ _ _ _ Hp) as (ys & <- & Hys).
    destruct (C83_session (at_memory mp) k m sf f ys (z_sw z) C HA LO HE PO WB Hz Hys) as (rs & _ & _ & H).
    assert (Hb : forall A (g : M zs A), bind (set_map map_dummy ;;; set_ptrs ptrs_new) (fun _ => g) z = g (from_storage (z_sw z)))
      by (intros A g; destruct z; reflexivity).
    rewrite Hb. clear Hb. unfold bind at 1. destruct (mx_session (at_memory mp) k m sf f (map place_of ys) (from_storage (z_sw z))) as [outs z1|e z1| | |]; auto.
    cbv zeta in H. destruct H as (_ & H & _). unfold bind. specialize (IH z1 H).
    destruct (run_mphases m mp sf f phs z1) as [r z2|e z2| | |]; auto.
Qed.

Lemma run_mclient_ends mp m bs sf f cl : mclient_ok mp m bs sf f cl ->
  match run_mclient m mp sf f cl z_new with
  | Ok r z => True
  | Panic e z => e = PWithCapacity /\ MAXC < mc_cap cl /\ z = z_new
  | Abort => alloc_failed
  | UB | OutOfFuel => False
  end.
Proof.
  intros (_ & LO & HE & PO & WB & Hc & Hp). unfold run_mclient. unfold bind at 1. unfold lift at 1.
  pose proof (with_capacity_spec C HA (mc_cap cl) Hc) as H1. change (z_sw z_new) with sw_new.
  destruct (with_capacity (mc_cap cl) sw_new) as [u w0|e w0| | |] eqn:E0; try contradiction; auto.
  2:{ destruct H1 as (-> & H1 & ->). auto. }
  destruct H1 as (_ & Hok0 & _). unfold bind at 1.
  pose proof (mphases_end mp m bs sf f (mc_phases cl) (conj LO (conj HE (conj PO WB))) Hp (mkZ w0 (z_map z_new) (z_ptrs z_new)) Hok0) as H2.
  destruct (run_mphases m mp sf f (mc_phases cl) _) as [r z1|e z1| | |]; auto; try contradiction.
  destruct (mc_drop cl); [|exact Logic.I]. unfold bind, lift. destruct (drop_spec C (z_sw z1) H2) as (w' & -> & _). exact Logic.I.
Qed.

Lemma run_mphases_app m mp sf f phs1 phs2 z : run_mphases m mp sf f (phs1 ++ phs2) z =
  (r1 <- run_mphases m mp sf f phs1 ;; r2 <- run_mphases m mp sf f phs2 ;; ret (r1 ++ r2)) z.
Proof.
  revert z. induction phs1 as [|[os|k rs] phs1 IH]; intros z; cbn [run_mphases app].
  - unfold bind, ret. destruct (run_mphases m mp sf f phs2 z); reflexivity.
  - unfold bind, lift. destruct (run_ops _ _) as [u w| | | |]; auto. rewrite IH. reflexivity.
  - unfold bind. destruct (set_map map_dummy z) as [u z1| | | |]; auto. destruct (set_ptrs ptrs_new z1) as [u' z2| | | |]; auto.
    destruct (mx_session (at_memory mp) k m sf f rs z2) as [outs z3| | | |]; auto. rewrite IH. unfold bind, ret.
    destruct (run_mphases m mp sf f phs1 z3) as [r1 z4| | | |]; auto. destruct (run_mphases m mp sf f phs2 z4) as [r2 z5| | | |]; auto.
Qed.

(** The last session of a client that keeps its storage. *)
Lemma run_mclient_last mp m bs sf f cl phs k xs r z : mclient_ok mp m bs sf f cl -> mc_phases cl = phs ++ [MSer k xs] -> mc_drop cl = false ->
  run_mclient m mp sf f cl z_new = Ok r z ->
  exists r0 outs w, r = r0 ++ [outs] /\ storage_ok w /\ mx_session (at_memory mp) k m sf f xs (from_storage w) = Ok outs z.
Proof.
  intros (_ & LO & HE & PO & WB & Hc & Hp) Hl Hd. unfold run_mclient. rewrite Hd, Hl in *. unfold bind at 1. unfold lift at 1.
  pose proof (with_capacity_spec C HA (mc_cap cl) Hc) as H1. change (z_sw z_new) with sw_new.
  destruct (with_capacity (mc_cap cl) sw_new) as [u w0|e w0| | |] eqn:E0; try discriminate.
  destruct H1 as (_ & Hok0 & _). unfold bind at 1. rewrite run_mphases_app. unfold bind at 1.
  apply Forall_app in Hp. destruct Hp as [Hp _].
  pose proof (mphases_end mp m bs sf f phs (conj LO (conj HE (conj PO WB))) Hp (mkZ w0 (z_map z_new) (z_ptrs z_new)) Hok0) as H2.
  destruct (run_mphases m mp sf f phs _) as [r0 z1|e z1| | |]; try discriminate.
  cbn [run_mphases]. unfold bind at 1.
  assert (Hb : forall A (g : M zs A), bind (set_map map_dummy ;;; set_ptrs ptrs_new) (fun _ => g) z1 = g (from_storage (z_sw z1)))
      by (intros A g; destruct z1; reflexivity).
  rewrite Hb. clear Hb. unfold bind. destruct (mx_session (at_memory mp) k m sf f xs (from_storage (z_sw z1))) as [outs z2|e z2| | |] eqn:Es; try discriminate.
  cbn. intros H. injection H as <- <-. exists r0, outs, (z_sw z1). auto.
Qed.
End NoUB.

(** ** What may be done does not depend on the allocator *)
Section Params.
Variables P1 P2 : Params.
Context {L : Lexer}.
Hypothesis HPW : pW (Params := P1) = pW (Params := P2).
Hypothesis HBE : pBE (Params := P1) = pBE (Params := P2).
Lemma makes_params pg m t a ss : makes (P := P1) pg m t a ss -> makes (P := P2) pg m t a ss.
Proof.
  destruct P1 as [w1 be1 d1 sa1 mva1 va1 mx1 o1], P2 as [w2 be2 d2 sa2 mva2 va2 mx2 o2]. cbn [pW pBE] in *. subst w1 be1.
  set (PA := {| pW := w2; pBE := be2; dbg := d1; SA := sa1; MVA := mva1; VA := va1; MAXC := mx1; orc := o1 |}).
  set (PB := {| pW := w2; pBE := be2; dbg := d2; SA := sa2; MVA := mva2; VA := va2; MAXC := mx2; orc := o2 |}).
  revert t a ss.
  apply (makes_ind2 PA pg m (fun t a ss _ => makes (P := PB) pg m t a ss)
    (fun t n off a ss _ => makes_elems (P := PB) pg m t n off a ss)
    (fun fs cs a ss _ => makes_fields (P := PB) pg m fs cs a ss)); intros;
    [apply (K_prim (P := PB))|eapply (K_box (P := PB))|apply (K_box_zst (P := PB))|eapply (K_vec (P := PB))|eapply (K_vec_empty (P := PB))|apply (K_vec_zst (P := PB))
    |eapply (K_string (P := PB))|eapply (K_string_empty (P := PB))|apply (K_array (P := PB))|apply (K_struct (P := PB))|eapply (K_enum (P := PB))
    |apply (K_hand (P := PB))|eapply (K_derived (P := PB))|eapply (K_derived_enum (P := PB))
    |apply (KE_nil (P := PB))|apply (KE_cons (P := PB))|apply (KF_nil (P := PB))|apply (KF_own (P := PB))|apply (KF_with (P := PB))]; eassumption.
Qed.
End Params.

Section OtherAllocator.
Variable P : Params.
Context {L : Lexer}.
Variable o : nat -> N -> N.
Notation PO := (with_orc P o).

Lemma repr_orc_back E H m t a v : repr (P := PO) E H m t a v -> repr (P := P) E H m t a v.
Proof. apply (repr_params PO P); reflexivity. Qed.
Lemma behaved_orc pg m sf : well_behaved (P := P) pg m sf -> well_behaved (P := PO) pg m sf.
Proof.
  intros [W1 W2]. split.
  - intros id h Hi a v Hr Ha. apply steps_orc. exact (W1 id h Hi a v (repr_orc_back _ _ _ _ _ _ Hr) Ha).
  - intros w t Hx a v Hr Ha. apply steps_orc. exact (W2 w t Hx a v (repr_orc_back _ _ _ _ _ _ Hr) Ha).
Qed.
Lemma steps_lent_orc E m fuel bs a ss : steps_lent (P := P) E m fuel bs a ss -> steps_lent (P := PO) E m fuel bs a ss.
Proof. apply Forall_impl. intros s. apply step_lent_orc. Qed.
Lemma impl_lent_orc mp m bs sf r a : impl_lent (P := P) mp m bs sf r a -> impl_lent (P := PO) mp m bs sf r a.
Proof. intros [H1 H2]. split; [exact H1|apply steps_lent_orc; exact H2]. Qed.
Lemma elems_lent_mono n : forall a sz (g g' : N -> Prop), (forall x, g x -> g' x) -> elems_lent n a sz g -> elems_lent n a sz g'.
Proof. induction n as [|n IH]; intros a sz g g' H; cbn; auto. intros [H1 H2]. split; [auto|eapply IH; eauto]. Qed.
Lemma fields_lent_mono fs : forall a (g g' : ty -> N -> Prop), (forall t x, g t x -> g' t x) -> fields_lent fs a g -> fields_lent fs a g'.
Proof. induction fs as [|[off t] fs IH]; intros a g g' H; cbn; auto. intros [H1 H2]. split; [auto|eapply IH; eauto]. Qed.
Lemma derived_lent_orc mp m bs sf i v fs a (g g' : ty -> N -> Prop) : (forall t x, g t x -> g' t x) ->
  derived_lent (P := P) mp m bs sf i v fs a g -> derived_lent (P := PO) mp m bs sf i v fs a g'.
Proof.
  intros H. unfold derived_lent. destruct (generated i v) as [cs|]; auto. induction cs as [|[c n] cs IH]; cbn [calls_lent]; auto.
  destruct (nth_error fs n) as [[off t]|]; auto. intros [H1 H2]. split; [|auto]. destruct c; [auto|apply impl_lent_orc; exact H1].
Qed.
Lemma mx_lent_orc mp m bs sf fuel : forall t a, mx_lent (P := P) mp m bs sf fuel t a -> mx_lent (P := PO) mp m bs sf fuel t a.
Proof.
  induction fuel as [|fuel IH]; intros t a; cbn [mx_lent]; auto.
  destruct t as [l ok|t'|vl t'|vl|t' n|l fs|l d vss|id].
  - auto.
  - intros H Hz. destruct (H Hz) as (p & H1 & H2 & H3). exists p. auto.
  - intros H Hz. destruct (H Hz) as (len & p & H1 & H2 & H3). exists len, p. split; [exact H1|]. split; [exact H2|].
    intros Hn. destruct (H3 Hn) as [H4 H5]. split; [exact H4|]. eapply elems_lent_mono; [|exact H5]. apply IH.
  - auto.
  - apply elems_lent_mono. apply IH.
  - apply fields_lent_mono. exact IH.
  - intros (v & fs & H1 & H2 & H3). exists v, fs. split; [exact H1|]. split; [exact H2|]. eapply fields_lent_mono; [exact IH|exact H3].
  - destruct (mp_hand mp id); [apply impl_lent_orc|]. destruct (mp_derived mp id) as [i|]; auto.
    destruct (mp_env mp id) as [[l ok|t'|vl t'|vl|t' n|l fs|l d vss|id']|]; auto.
    + apply derived_lent_orc. exact IH.
    + intros (v & fs & H1 & H2 & H3). exists v, fs. split; [exact H1|]. split; [exact H2|]. eapply derived_lent_orc; [exact IH|exact H3].
Qed.
Lemma input_orc E m f x : session_input (P := P) E m f x -> session_input (P := PO) E m f x.
Proof.
  destruct x as [[t a] v]. intros ((H1 & H2 & H3) & H4 & H5). split; [|split; [exact H4|exact H5]].
  split; [apply wf_orc; exact H1|]. split; [exact H2|apply repr_orc; exact H3].
Qed.
Lemma mclient_ok_orc mp m bs sf f cl : mclient_ok (P := P) mp m bs sf f cl -> mclient_ok (P := PO) mp m bs sf f cl.
Proof.
  intros (C & LO & HE & PO' & WB & Hc & Hp). split; [exact C|]. split; [exact LO|]. split; [apply env_orc; exact HE|]. split; [exact PO'|].
  split; [apply behaved_orc; exact WB|]. split; [exact Hc|].
  eapply Forall_impl; [|exact Hp]. intros [os|k xs] H; [exact H|]. eapply Forall_impl; [|exact H].
  intros [t a] ((v & Hv) & H2 & H3). split; [exists v; apply input_orc; exact Hv|]. split; [exact H2|apply mx_lent_orc; exact H3].
Qed.
End OtherAllocator.

(** ** Safe alone *)
Section JobSafe.
Context {P : Params} {L : Lexer}.

(** The model's parameters for a job, with the allocator [o]. *)
Definition mjob_params (j : mjob) (o : nat -> N -> N) : Params := with_orc (with_consts P (j_consts j)) o.

Lemma mjob_alone (t : task mjob hz (list (list (N * option N)))) o : mjob_ok t -> orc_ok (tk_al t) o ->
  same_outcomeq (mend_state (P := mjob_params (tk_job t) o) (j_client (tk_job t))) (same_ser (P := mjob_params (tk_job t) o))
    (alone (P := with_orc P o) (tk_mem t) (tk_prog t) loc_new)
    (run_mclient (P := mjob_params (tk_job t) o) (tk_mem t) (j_prog (tk_job t)) (j_sf (tk_job t)) (j_fuel (tk_job t)) (j_client (tk_job t)) z_new).
Proof.
  intros (H1 & H2 & H3) Ho. rewrite H3.
  exact (sim_mclient (P := mjob_params (tk_job t) o) (tk_mem t) (j_prog (tk_job t)) (j_sf (tk_job t)) (j_fuel (tk_job t)) (j_client (tk_job t)) hz_new loc_new z_new
          (same_start (mjob_params (tk_job t) o))).
Qed.

Theorem mjob_safe t : mjob_ok t -> safe_alone t.
Proof.
  intros H. pose proof H as (H1 & H2 & H3). split.
  - rewrite H2, H3. exact (mclient_confined (P := with_consts P (j_consts (tk_job t))) _ _ _ _ _ _ H1).
  - intros o Ho Hu. pose proof (mjob_alone t o H Ho) as Hs. rewrite Hu in Hs.
    pose proof (mclient_ok_orc (with_consts P (j_consts (tk_job t))) o _ _ _ _ _ _ H1) as H1'.
    pose proof (run_mclient_ends (P := mjob_params (tk_job t) o) (proj1 H1') ltac:(intros n size; rewrite H2 in Ho; exact (Ho n size))
      _ _ _ _ _ _ H1') as He.
    unfold same_outcomeq in Hs. destruct (run_mclient _ _ _ _ _) as [| | | |]; try contradiction.
Qed.
End JobSafe.
