(** * Jobs: what a task is started to do, and the same in the model of Storage.v.

    The machine of Machine.v runs the programs of ProgSer.v; [run_client] is the same client
    in the model the other theorems are about. *)
From Verif Require Import Base Types Storage StorageFacts StorageHist StorageProps Spec Serializer Serialize SerFacts SerValue SerMain SerRoot SerProps PropTree Prog ProgSer
  Alone AloneSer Confined Machine MachineFacts.
From Coq Require Import Arith ZifyBool ZifyNat ZifyN.
Local Open Scope N_scope.

(** The constants of one AlignedVec type (storage alignment, maximal value alignment, value
    alignment, maximal capacity: aligned_vec.rs:55-71), and the parameters with them. *)
Record consts := mkConsts { cs_SA : N; cs_MVA : N; cs_VA : N; cs_MAXC : N }.
Definition with_consts (P : Params) (c : consts) : Params :=
  {| pW := pW; pBE := pBE; dbg := dbg; SA := cs_SA c; MVA := cs_MVA c; VA := cs_VA c; MAXC := cs_MAXC c; orc := orc |}.

(** A job: the constants, the types, and the client. *)
Record job := mkJob { j_consts : consts; j_env : tenv; j_fuel : nat; j_client : client }.

Definition job_prog {P : Params} (j : job) : prog hz (option (list N)) :=
  h_client (P := with_consts P (j_consts j)) (j_env j) (j_fuel j) (j_client j) hz_new.

(** ** The client in the model *)
Definition mcatch {S A} (c : M S A) : M S (option A) :=
  fun s => match c s with
           | Ok a s' => Ok (Some a) s'
           | Panic _ s' => Ok None s'
           | Abort => Abort | UB => UB | OutOfFuel => OutOfFuel
           end.

(** Is the storage dropped at the end? *)
Definition dropped (cl : client) (r : option (list N)) : bool :=
  cl_drop cl || match r with None => true | Some _ => false end.

Definition run_client {P : Params} (m : mem) (E : tenv) (fuel : nat) (cl : client) : M zs (option (list N)) :=
  lift (with_capacity (cl_cap cl)) ;;;
  lift (run_ops (map (op_of m) (cl_ops cl))) ;;;
  r <- match cl_ser cl with
       | None => ret (Some [])
       | Some (k, vs) => (set_map map_dummy ;;; set_ptrs ptrs_new) ;;; mcatch (serialize_all k E m fuel vs)
       end ;;
  (if dropped cl r then lift drop_store else ret tt) ;;;
  ret r.

(** ** Valid jobs *)
Section Valid.
Context {P : Params}.

(** A call of the storage with arguments Rust accepts; not the empty slice of C13. *)
Definition hop_ok (m : mem) (o : hop) : Prop :=
  op_valid (op_of m o) /\
  match o with HPushSlice l n _ => 0 < n \/ l_size l = 0 \/ l_align l = 1 | _ => True end.

(** The value of type [t] at [a] is [v], and all its memory is in the ranges [bs]. *)
Definition value_ok (E : tenv) (fuel : nat) (m : mem) (bs : list (N * N)) (x : item) : Prop :=
  let '(t, a, v) := x in
  valid_input E any_header m t a v /\ (vdepth v < fuel)%nat /\
  exists ps, root_places E m fuel t a = Some ps /\ incl ps bs.

(** The client may be run when the memory is [m], reading only [bs]. *)
Definition client_ok (E : tenv) (fuel : nat) (m : mem) (bs : list (N * N)) (cl : client) : Prop :=
  cfg_ok /\ wf_env E /\ cl_cap cl < umod /\
  Forall (hop_ok m) (cl_ops cl) /\ incl (flat_map hop_reads (cl_ops cl)) bs /\
  match cl_ser cl with
  | None => True
  | Some (k, vs) => exists xs, map it_in xs = vs /\ Forall (value_ok E fuel m bs) xs
  end.
End Valid.

Definition job_ok {P : Params} (t : task job hz (option (list N))) : Prop :=
  client_ok (P := with_consts P (j_consts (tk_job t))) (j_env (tk_job t)) (j_fuel (tk_job t)) (tk_mem t) (tk_reads t)
    (j_client (tk_job t)) /\
  tk_al t = cs_SA (j_consts (tk_job t)) /\ tk_prog t = job_prog (tk_job t).

(** ** The program is the model *)
Section Same.
Context {P : Params}.
Variable m : mem.

Lemma sim_catch {S T A} (R : S -> loc -> T -> Prop) (h : HM S A) (c : M T A) : sim m R h c -> sim m R (catch h) (mcatch c).
Proof.
  intros H s L t HR. unfold catch, mcatch. rewrite alone_pthen. specialize (H s L t HR). unfold same_outcomeq in H.
  destruct (alone m (h s) L) as [a [s' L']|e [s' L']| | |], (c t) as [b t'|e' t'| | |]; try contradiction; auto;
    destruct H as [He Hr]; subst; cbn; auto.
Qed.

Lemma sim_run_ops os : sim m same_storage (h_run_ops os) (run_ops (map (op_of m) os)).
Proof.
  induction os as [|o os IH]; cbn [h_run_ops run_ops map]; [apply sim_ret|].
  apply sim_ext with (c := bind (mcatch (run_op (op_of m o))) (fun _ => run_ops (map (op_of m) os)));
    [|apply sim_bind; [apply sim_catch, (sim_op m o)|intros _; exact IH]].
  intros t. unfold bind, mcatch. destruct (run_op (op_of m o) t); reflexivity.
Qed.

(** Fields after the storage is dropped: no block. *)
Definition gone (s : hdr) (L : loc) (w : sw) : Prop := lc_size L = 0 /\ lc_calls L = sw_calls w /\ lc_trace L = sw_trace w.

Lemma sim_drop : simq m same_storage (fun _ => gone) same_storage h_drop drop_store.
Proof.
  unfold h_drop, drop_store. apply simq_bind with (Mid := fun c h L w => same_storage h L w /\ c = s_cap (sw_s w)).
  { intros s L t HR. cbn. split; [apply HR|]. split; [exact HR|apply HR]. }
  intros c. destruct (N.ltb_spec 0 c).
  - eapply simq_weaken; [| | |apply sim_dealloc]; [intros s L t [HR _]; exact HR| |auto].
    intros _ s L t (A1 & A2 & A3 & A4 & A5 & A6 & A7). unfold gone. auto.
  - intros s L t [HR Hc]. cbn. split; [reflexivity|]. destruct HR as (E1 & E2 & E3 & E4 & E5 & E6 & E7 & E8). unfold gone. rewrite E7. repeat split; auto. lia.
Qed.

(** The states at the end are the same, but for the contents of a storage that was dropped. *)
Definition end_state (cl : client) (r : option (list N)) (s : hz) (L : loc) (z : zs) : Prop :=
  if dropped cl r then gone (hz_h s) L (z_sw z) else same_ser s L z.

Lemma sim_client E fuel cl :
  simq m (fun s L z => same_ser s L z /\ s_cap (sw_s (z_sw z)) = 0) (end_state cl) same_ser (h_client E fuel cl) (run_client m E fuel cl).
Proof.
  unfold h_client, run_client.
  apply simq_bind with (Mid := fun _ => same_ser).
  { intros s L t ((H1 & H2 & H3) & H0). unfold hlift, lift. rewrite alone_pthen.
    pose proof (sim_with_capacity m (cl_cap cl) (hz_h s) L (z_sw t) (conj H1 H0)) as H. unfold same_outcomeq in *.
    destruct (alone m (h_with_capacity (cl_cap cl) (hz_h s)) L) as [a [s' L']|e [s' L']| | |], (with_capacity (cl_cap cl) (z_sw t)) as [b t'|e' t'| | |]; try contradiction; auto;
      cbn [alone] in *; destruct H as [-> H]; (split; [reflexivity|]); split; auto. }
  intros _. apply simq_bind with (Mid := fun _ => same_ser); [apply sim_lift, sim_run_ops|intros _].
  apply simq_bind with (Mid := fun _ => same_ser).
  { destruct (cl_ser cl) as [[k vs]|]; [|apply sim_ret].
    unfold h_from_storage. apply sim_bind; [apply sim_bind; [apply sim_set_map|intros _; apply sim_set_ptrs]|intros _].
    apply sim_catch, sim_serialize_all. }
  intros r. change (cl_drop cl || match r with Some _ => false | None => true end) with (dropped cl r).
  apply simq_bind with (Mid := fun _ => end_state cl r).
  - unfold end_state. destruct (dropped cl r).
    + intros s L t (H1 & H2 & H3). unfold hlift, lift. rewrite alone_pthen. pose proof (sim_drop (hz_h s) L (z_sw t) H1) as H. unfold same_outcomeq in *.
      destruct (alone m (h_drop (hz_h s)) L) as [a [s' L']|e [s' L']| | |], (drop_store (z_sw t)) as [b t'|e' t'| | |]; try contradiction; auto;
        cbn [alone] in *; destruct H as [-> H]; (split; [reflexivity|]); auto. split; auto.
    + apply sim_ret.
  - intros _ s L t HR. cbn. auto.
Qed.
End Same.

(** ** A valid job is not undefined *)
Section NoUB.
Context {P : Params}.

Lemma value_ok_input E fuel m bs x : value_ok E fuel m bs x -> let '(t, a, v) := x in input_ok E m any_header fuel t a v.
Proof. destruct x as [[t a] v]. intros ((H1 & H2 & H3) & Hd & _). repeat split; auto. Qed.

(** How a client ends. *)
Lemma run_client_ends E fuel m bs cl : alloc_ok -> client_ok E fuel m bs cl ->
  match run_client m E fuel cl z_new with
  | Ok r z => r = None \/ exists l, r = Some l
  | Panic e z => e = PWithCapacity /\ z = z_new
  | Abort => alloc_failed
  | UB | OutOfFuel => False
  end.
Proof.
  intros HA (C & HE & Hc & Ho & _ & Hs). unfold run_client. unfold bind at 1. unfold lift at 1.
  pose proof (with_capacity_spec C HA (cl_cap cl) Hc) as H1. change (z_sw z_new) with sw_new.
  destruct (with_capacity (cl_cap cl) sw_new) as [u w0|e w0| | |] eqn:E0; try contradiction; auto.
  2:{ destruct H1 as (-> & _ & ->). auto. }
  destruct u. destruct H1 as (_ & Hok0 & _). cbn [z_new from_storage z_map z_ptrs].
  assert (Hv : Forall op_valid (map (op_of m) (cl_ops cl))).
  { apply Forall_map. eapply Forall_impl; [|exact Ho]. intros o [K _]. exact K. }
  assert (Hne : forall l n d, In (OPushSlice l n d) (map (op_of m) (cl_ops cl)) -> 0 < n \/ l_size l = 0 \/ l_align l = 1).
  { intros l n d Hi. apply in_map_iff in Hi. destruct Hi as (o & Eo & Hi). rewrite Forall_forall in Ho. destruct (Ho o Hi) as [_ K].
    destruct o; cbn in Eo; try discriminate. injection Eo as <- <- <-. exact K. }
  unfold bind at 1. unfold lift at 1. cbn [z_sw].
  pose proof (run_ops_spec C HA (map (op_of m) (cl_ops cl)) w0 Hok0 Hv) as H2.
  pose proof (history_no_ub C HA (cl_cap cl) (map (op_of m) (cl_ops cl)) w0 Hc E0 Hv Hne) as H3.
  destruct (run_ops (map (op_of m) (cl_ops cl)) w0) as [u w1|e w1| | |]; try contradiction; auto.
  destruct H2 as (Hok1 & _). cbn [z_map z_ptrs]. unfold bind at 1.
  assert (Hdrop : forall z r, storage_ok (z_sw z) ->
    match ((if dropped cl r then lift drop_store else ret tt) ;;; ret r) z with
    | Ok r z => r = None \/ exists l, r = Some l
    | Panic e z => e = PWithCapacity /\ z = z_new
    | Abort => alloc_failed
    | UB | OutOfFuel => False
    end).
  { intros z r Hz. assert (Hr : r = None \/ exists l, r = Some l) by (destruct r; eauto).
    destruct (dropped cl r); [|exact Hr]. unfold bind, lift. destruct (drop_spec C (z_sw z) Hz) as (w' & -> & _). exact Hr. }
  destruct (cl_ser cl) as [[k vs]|].
  - destruct Hs as (xs & <- & Hxs). 
    assert (A2 : Forall (fun '(t, a, v) => input_ok E m any_header fuel t a v) xs).
    { eapply Forall_impl; [|exact Hxs]. intros x Hx. exact (value_ok_input E fuel m bs x Hx). }
    pose proof (serialize_all_spec C HA E HE k m any_header any_header (transfers_any k) fuel xs w1 Hok1 A2) as HS.
    change (((set_map map_dummy;;; set_ptrs ptrs_new);;; mcatch (serialize_all k E m fuel (map it_in xs))) (mkZ w1 map_dummy ptrs_new))
      with (mcatch (serialize_all k E m fuel (map it_in xs)) (from_storage w1)).
    unfold mcatch. destruct (serialize_all k E m fuel (map it_in xs) (from_storage w1)) as [rs z'|e z'| | |]; try contradiction.
    + apply Hdrop. apply HS.
    + apply Hdrop. apply HS.
    + apply HS.
  - apply Hdrop. exact Hok1.
Qed.

(** A client whose serializer ended well. *)
Lemma run_client_serialized E fuel m bs cl k vs r z : alloc_ok -> client_ok E fuel m bs cl -> cl_ser cl = Some (k, vs) ->
  run_client m E fuel cl z_new = Ok (Some r) z -> cl_drop cl = false ->
  exists w1, storage_ok w1 /\ serialize_all k E m fuel vs (from_storage w1) = Ok r z.
Proof.
  intros HA (C & HE & Hc & Ho & _ & Hs) Hk. unfold run_client. rewrite Hk. unfold bind at 1. unfold lift at 1.
  pose proof (with_capacity_spec C HA (cl_cap cl) Hc) as H1. change (z_sw z_new) with sw_new.
  destruct (with_capacity (cl_cap cl) sw_new) as [u w0|e w0| | |] eqn:E0; try contradiction; try discriminate.
  destruct H1 as (_ & Hok0 & _). cbn [z_new from_storage z_map z_ptrs].
  assert (Hv : Forall op_valid (map (op_of m) (cl_ops cl))).
  { apply Forall_map. eapply Forall_impl; [|exact Ho]. intros o [K _]. exact K. }
  unfold bind at 1. unfold lift at 1. cbn [z_sw].
  pose proof (run_ops_spec C HA (map (op_of m) (cl_ops cl)) w0 Hok0 Hv) as H2.
  destruct (run_ops (map (op_of m) (cl_ops cl)) w0) as [u1 w1|e w1| | |]; try contradiction; try discriminate.
  destruct H2 as (Hok1 & _). cbn [z_map z_ptrs]. unfold bind at 1.
  change (((set_map map_dummy;;; set_ptrs ptrs_new);;; mcatch (serialize_all k E m fuel vs)) (mkZ w1 map_dummy ptrs_new))
      with (mcatch (serialize_all k E m fuel vs) (from_storage w1)).
  intros Hr Hd. exists w1. split; [exact Hok1|]. revert Hr. unfold mcatch.
  destruct (serialize_all k E m fuel vs (from_storage w1)) as [rs z'|e z'| | |]; try discriminate; unfold dropped; rewrite Hd; cbn.
  - intros K. injection K as -> ->. reflexivity.
  - unfold bind, lift. destruct (drop_store (z_sw z')); discriminate.
Qed.

Lemma client_confined E fuel m bs cl : client_ok E fuel m bs cl -> confined m bs SA (h_client E fuel cl hz_new).
Proof.
  intros (C & HE & Hc & Ho & Hr & Hs).
  assert (HW : 0 < pW) by (destruct C as [[Hw|Hw] _]; lia). cut (hconf m bs SA (h_client E fuel cl)); [intros K; apply K|]. unfold h_client.
  apply hconf_bind; [apply hc_lift, hc_with_capacity|intros _].
  apply hconf_bind; [apply hc_lift, hc_ops; exact Hr|intros _].
  apply hconf_bind.
  - destruct (cl_ser cl) as [[k vs]|]; [|apply hconf_pu]. destruct Hs as (xs & <- & Hxs).
    apply hconf_bind; [apply hconf_bind; [apply hconf_pu|intros _; apply hconf_pu]|intros _].
    apply hconf_catch. apply hc_serialize_all; [exact HE|]. apply Forall_map. eapply Forall_impl; [|exact Hxs].
    intros [[t a] v] ((V1 & V2 & V3) & Hd & ps & Hp & Hi). cbn. split; [exact V1|].
    unfold root_places in Hp. destruct (N.eqb_spec (size_of E t) 0) as [Z|Z].
    + split; [left; exact Z|]. destruct (repr_places E HE HW any_header m fuel t a v V3 V1 Hd) as (qs & Q1 & Q2). exists qs. rewrite (Q2 Z) in *.
      split; [exact Q1|intros x []].
    + destruct (places E m fuel t a) as [qs|] eqn:Q; [|discriminate]. injection Hp as <-. split.
      * right. exists (a, size_of E t). split; [apply Hi; left; reflexivity|cbn; lia].
      * exists qs. split; [reflexivity|]. intros x Hx. apply Hi. right. exact Hx.
  - intros r. apply hconf_bind; [|intros _; apply hconf_pu]. apply hconf_if; intros _; [apply hc_lift, hc_drop|apply hconf_pu].
Qed.
End NoUB.

(** ** What memory holds depends on the word size and byte order only *)
Lemma repr_params (P1 P2 : Params) E H m : pW (Params := P1) = pW (Params := P2) -> pBE (Params := P1) = pBE (Params := P2) ->
  forall t a v, repr (P := P1) E H m t a v -> repr (P := P2) E H m t a v.
Proof.
  destruct P1 as [w1 be1 d1 sa1 mva1 va1 mx1 o1], P2 as [w2 be2 d2 sa2 mva2 va2 mx2 o2]. cbn [pW pBE]. intros -> ->.
  set (P1 := {| pW := w2; pBE := be2; dbg := d1; SA := sa1; MVA := mva1; VA := va1; MAXC := mx1; orc := o1 |}).
  set (PO := {| pW := w2; pBE := be2; dbg := d2; SA := sa2; MVA := mva2; VA := va2; MAXC := mx2; orc := o2 |}).
  enough (K : (forall t a v, repr (P := P1) E H m t a v -> repr (P := PO) E H m t a v) /\
    (forall t a vs, repr_elems (P := P1) E H m t a vs -> repr_elems (P := PO) E H m t a vs) /\
    (forall fs a vs, repr_fields (P := P1) E H m fs a vs -> repr_fields (P := PO) E H m fs a vs)) by apply K.
  apply (repr_mut P1 E H m (fun t a v => repr (P := PO) E H m t a v) (fun t a vs => repr_elems (P := PO) E H m t a vs)
           (fun fs a vs => repr_fields (P := PO) E H m fs a vs)); intros.
  - exact (R_prim (P := PO) E H m l ok a n H0 H1).
  - exact (R_box (P := PO) E H m t a p v H0 H1 H2 H4).
  - exact (R_vec (P := PO) E H m vl t a c p vs H0 H1 H2 H3 H4 H6).
  - exact (R_string (P := PO) E H m vl a c p bs H0 H1 H2 H3 H4 H5).
  - exact (R_array (P := PO) E H m t n a vs H0 H2).
  - exact (R_struct (P := PO) E H m l fs a vs H1).
  - exact (R_enum (P := PO) E H m l d vss a k fs vs H0 H1 H3).
  - exact (R_named (P := PO) E H m id d a v H0 H2).
  - exact (RE_nil (P := PO) E H m t a).
  - exact (RE_cons (P := PO) E H m t a v vs H1 H3).
  - exact (RF_nil (P := PO) E H m a).
  - exact (RF_cons (P := PO) E H m off t fs a v vs H1 H3).
Qed.

(** ** What memory holds and which types there are does not depend on the allocator *)
Section OtherAllocator.
Variable P : Params.
Variable o : nat -> N -> N.
Notation PO := (with_orc P o).

Lemma repr_orc E H m t a v : repr (P := P) E H m t a v -> repr (P := PO) E H m t a v.
Proof. apply (repr_params P PO); reflexivity. Qed.

Lemma niche_orc E t off sz X : niche_valid (P := P) E t off sz X -> niche_valid (P := PO) E t off sz X.
Proof.
  induction 1.
  - apply (NV_prim (P := PO)); assumption.
  - apply (NV_box (P := PO)); assumption.
  - apply (NV_vec_ptr (P := PO)); assumption.
  - apply (NV_vec_cap (P := PO)); assumption.
  - apply (NV_string_ptr (P := PO)); assumption.
  - apply (NV_string_cap (P := PO)); assumption.
  - apply (NV_array (P := PO)); assumption.
  - eapply (NV_struct (P := PO)); eassumption.
  - apply (NV_tag (P := PO)); assumption.
  - eapply (NV_single (P := PO)); eassumption.
  - eapply (NV_niche (P := PO)); eassumption.
  - eapply (NV_named (P := PO)); eassumption.
Qed.

Lemma fields_orc E l fs : fields_ok (P := P) E l fs -> fields_ok (P := PO) E l fs.
Proof. induction 1; [apply (FO_nil (P := PO))|apply (FO_cons (P := PO)); assumption]. Qed.
Lemma discr_orc E l vss d : discr_ok (P := P) E l vss d -> discr_ok (P := PO) E l vss d.
Proof.
  intros H. inversion H; subst; [apply (DO_single (P := PO))|apply (DO_tag (P := PO)); assumption|].
  eapply (DO_niche (P := PO)); eauto. apply niche_orc. assumption.
Qed.
Lemma wf_orc E t : wf_ty (P := P) E t -> wf_ty (P := PO) E t.
Proof.
  induction 1.
  - apply (W_prim (P := PO)); assumption.
  - apply (W_box (P := PO)); assumption.
  - apply (W_vec (P := PO)); assumption.
  - apply (W_string (P := PO)); assumption.
  - apply (W_array (P := PO)); assumption.
  - apply (W_struct (P := PO)); auto using fields_orc.
  - apply (W_enum (P := PO)); eauto using fields_orc, discr_orc.
  - eapply (W_named (P := PO)); eassumption.
Qed.
Lemma env_orc E : wf_env (P := P) E -> wf_env (P := PO) E.
Proof. intros H id d Hd. destruct (H id d Hd). auto using wf_orc. Qed.

Lemma client_ok_orc E fuel m bs cl : client_ok (P := P) E fuel m bs cl -> client_ok (P := PO) E fuel m bs cl.
Proof.
  intros (C & HE & Hc & Ho & Hr & Hs). split; [exact C|]. split; [apply env_orc; exact HE|]. split; [exact Hc|].
  split; [exact Ho|]. split; [exact Hr|]. destruct (cl_ser cl) as [[k vs]|]; [|exact Logic.I].
  destruct Hs as (xs & X1 & X2). exists xs. split; [exact X1|]. eapply Forall_impl; [|exact X2].
  intros [[t a] v] ((V1 & V2 & V3) & Hd & ps & Hp & Hi). split; [|split; [exact Hd|exists ps; split; [exact Hp|exact Hi]]].
  split; [apply wf_orc; exact V1|]. split; [exact V2|]. apply repr_orc. exact V3.
Qed.
End OtherAllocator.

Section JobSafe.
Context {P : Params}.

(** The model's parameters for a job, with the allocator [o]. *)
Definition job_params (j : job) (o : nat -> N -> N) : Params := with_orc (with_consts P (j_consts j)) o.

Lemma same_start (Q : Params) : same_ser (P := Q) hz_new loc_new z_new /\ s_cap (sw_s (z_sw z_new)) = 0.
Proof. split; [|reflexivity]. split; [|auto]. unfold same_storage. cbn. repeat split; lia. Qed.

Lemma job_alone (t : task job hz (option (list N))) o : job_ok t -> orc_ok (tk_al t) o ->
  same_outcomeq (end_state (P := job_params (tk_job t) o) (j_client (tk_job t))) (same_ser (P := job_params (tk_job t) o))
    (alone (P := with_orc P o) (tk_mem t) (tk_prog t) loc_new)
    (run_client (P := job_params (tk_job t) o) (tk_mem t) (j_env (tk_job t)) (j_fuel (tk_job t)) (j_client (tk_job t)) z_new).
Proof.
  intros (H1 & H2 & H3) Ho. rewrite H3. 
  exact (sim_client (P := job_params (tk_job t) o) (tk_mem t) (j_env (tk_job t)) (j_fuel (tk_job t)) (j_client (tk_job t)) hz_new loc_new z_new
          (same_start (job_params (tk_job t) o))).
Qed.

Theorem job_safe t : job_ok t -> safe_alone t.
Proof.
  intros H. pose proof H as (H1 & H2 & H3). split.
  - rewrite H2, H3. exact (client_confined (P := with_consts P (j_consts (tk_job t))) _ _ _ _ _ H1).
  - intros o Ho Hu. pose proof (job_alone t o H Ho) as Hs. rewrite Hu in Hs.
    pose proof (run_client_ends (P := job_params (tk_job t) o) (j_env (tk_job t)) (j_fuel (tk_job t)) (tk_mem t) (tk_reads t) (j_client (tk_job t))) as He.
    unfold same_outcomeq in Hs. destruct (run_client _ _ _ _ _) as [| | | |]; try contradiction.
    apply He; [|exact (client_ok_orc (with_consts P (j_consts (tk_job t))) o _ _ _ _ _ H1)]. intros n size. rewrite H2 in Ho. exact (Ho n size).
Qed.
End JobSafe.
